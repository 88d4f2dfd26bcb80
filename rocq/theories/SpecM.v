(** * SpecM: the vocabulary of the statements about repeated mutation (C108). *)
From Coq Require Import List Bool Arith.
From Verif Require Import Rnd MMutation.
Import ListNotations.

(** [mutated s k g g']: mutating [g] with strategy [s] [k] times in a row can give [g']. *)
Inductive mutated {G} (s : mutation_strategy) : nat -> list G -> list G -> Prop :=
| mutated_none g : mutated s 0 g g
| mutated_more k g g1 g' : may (mutate s g) g1 -> mutated s k g1 g' -> mutated s (S k) g g'.

(** Two positions of [g] hold the same gene. *)
Definition has_repeat {G} (g : list G) : Prop := exists a b, a < b /\ b < length g /\ nth_error g a = nth_error g b.
