(** * SpecJ: the vocabulary of the statements about long sequences of mutations (C119, C120). *)
From Coq Require Import List Bool Arith Reals Permutation.
From Verif Require Import Rnd MMutation.
Import ListNotations.

(** The genome after [k] mutations in a row *)
Fixpoint mutate_times {G} (s : mutation_strategy) (k : nat) (g : list G) : M (list G) :=
  match k with
  | O => Ret g
  | S k' => g' <- mutate s g ;; mutate_times s k' g'
  end.

(** [ls] lists every order of the genes of [g] once. *)
Definition all_orders {G} (g : list G) (ls : list (list G)) : Prop :=
  NoDup ls /\ forall l, In l ls <-> Permutation g l.

Definition total (xs : list R) : R := fold_right Rplus 0%R xs.

(** Strategies whose repetition forgets the order it started from, for genomes of
    [n] genes ... *)
Definition mixes (s : mutation_strategy) (n : nat) : Prop :=
  match s with Scramble => True | Inversion => 4 <= n | Insertion => 3 <= n | Swap | Duplicate => False end.
(** ... and those where the orders fall into two halves that take turns *)
Definition alternates (s : mutation_strategy) (n : nat) : Prop :=
  2 <= n /\ match s with Swap => True | Inversion => n <= 3 | Insertion => n <= 2 | Scramble | Duplicate => False end.

(** The gene at position [i] of [r] is of the kind [h]. *)
Definition kind_at {G} (h : G -> bool) (i : nat) (r : list G) : bool :=
  match nth_error r i with Some x => h x | None => false end.

(** All genes of [r] equal its first one. *)
Definition all_same {G} (eqb : G -> G -> bool) (r : list G) : bool :=
  match r with [] => true | x :: t => forallb (eqb x) t end.

(** The chance that [k] duplicate mutations of [n] genes leave different genes is at
    most this. *)
Definition still_mixed (n k : nat) : R := ((1 - (/ INR n) ^ (n - 1)) ^ (k / (n - 1)))%R.
