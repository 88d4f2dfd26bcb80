(** * SpecCount: specification of how many new individuals have some property. *)
From Coq Require Import List Bool Arith NArith ZArith Reals.
From Verif Require Import Rnd MModel.
Import ListNotations.

Definition how_many {A} (Q : A -> bool) (l : list A) : nat := length (filter Q l).

(** The result depends on the drawn random numbers only, not on choices that are
    left open (such as the order an unstable sort gives to equal elements). *)
Fixpoint draws_only {A} (m : M A) : Prop :=
  match m with
  | Ret _ | Fail _ => True
  | Draw _ k => forall i, draws_only (k i)
  | Pick _ _ => False
  end.

(** All methods of a model that breeding calls are of that kind. *)
Definition drawing_model {I MS} (mdl : model I MS) : Prop :=
  (forall ms a b, draws_only (m_crossover mdl ms a b)) /\ (forall ms a, draws_only (m_mutate mdl ms a)) /\
  (forall ms a, draws_only (m_improve mdl ms a)) /\ (forall ms a, draws_only (m_evaluate mdl ms a)) /\
  (forall ms a b p, draws_only (m_can_survive mdl ms a b p)).

(** The binomial law: the chance of [j] successes in [k] independent attempts that succeed with chance [s] each *)
Definition binomial (k : nat) (s : R) (j : nat) : R := (C k j * s ^ j * (1 - s) ^ (k - j))%R.
