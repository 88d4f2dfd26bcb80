(** * SpecY: the vocabulary of the statements about runs without mutation (C111). *)
From Coq Require Import List.
From Verif Require Import Rnd MModel MCrossover.
Import ListNotations.

(** Crossover and improvement turn [good] individuals into [raw] ones and
    evaluation makes those [good].  Nothing is said about mutation. *)
Definition crossing_keeps {I MS} (mdl : model I MS) (raw good : I -> Prop) : Prop :=
  (forall x, good x -> raw x) /\
  (forall ms a b x, good a -> good b -> may (m_crossover mdl ms a b) x -> raw x) /\
  (forall ms a x, raw a -> may (m_improve mdl ms a) x -> raw x) /\
  (forall ms a x, raw a -> may (m_evaluate mdl ms a) x -> good x).

(** The strategies that take every position from one of the parents *)
Definition positional (s : crossover_strategy) : Prop := s = Cycle \/ s = SinglePoint.

(** Position [i] of the genome holds the gene [g]. *)
Definition holds_at {G} (i : nat) (g : G) (genome : list G) : Prop := nth_error genome i = Some g.
