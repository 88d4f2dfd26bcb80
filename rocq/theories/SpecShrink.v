(** * SpecShrink: populations that only lose individuals (C133). *)
From Coq Require Import List Bool Arith.
From Verif Require Import Rnd F64 MPopulation.
Import ListNotations.

(** Every population of the list holds only individuals of the one before it. *)
Definition sheds {I} (t : list (population I)) : Prop :=
  forall k p p' x, nth_error t k = Some p -> nth_error t (S k) = Some p' -> In x (individuals p') -> In x (individuals p).

(** Individuals are equal exactly when they are equally fit. *)
Definition fitness_decides {I} (io : individual_ops I) : Prop :=
  forall x y, is_valid io x = true -> is_valid io y = true ->
  (ieq io x y = true <-> feq (fitness io x) (fitness io y) = true).

(** No population of the list is larger than the one before it. *)
Definition never_grows {I} (t : list (population I)) : Prop :=
  forall k p p', nth_error t k = Some p -> nth_error t (S k) = Some p' -> length (individuals p') <= length (individuals p).
