(** * SpecScale: the vocabulary of the statements about fitness in other units (C128, C130). *)
From Coq Require Import List Bool Arith NArith ZArith Reals.
From Flocq Require Import Core BinarySingleNaN.
From Verif Require Import Rnd F64 MStats MPopulation MSelection SpecO.
Local Open Scope R_scope.

(** Zero, or a positive number far from overflow and underflow *)
Definition mild (x : f64) : Prop :=
  is_finite x = true /\ (B2R x = 0 \/ bpow radix2 (-800) <= B2R x <= bpow radix2 900).

(** [y] is [x] times 2^k. *)
Definition times_power (k : Z) (x y : f64) : Prop := B2R y = B2R x * bpow radix2 k.

(** Related individuals are valid and equal alike, and have the same fitness in units
    that differ by the factor 2^k. *)
Definition other_units {I J} (k : Z) (io : individual_ops I) (jo : individual_ops J) (R : I -> J -> Prop) : Prop :=
  (forall a b, R a b -> is_valid io a = is_valid jo b) /\
  (forall a b a' b', R a b -> R a' b' -> ieq io a a' = ieq jo b b') /\
  (forall a b, R a b -> mild (fitness io a) /\ mild (fitness jo b) /\ times_power k (fitness io a) (fitness jo b)).

(** The strategies for which units do not matter *)
Definition unit_free (s : selection_strategy) : Prop :=
  match s with StBoltzmann _ _ => False | _ => True end.

(** At most 2^53 *)
Definition exact_count (n : nat) : Prop := (Z.of_nat n <= 2 ^ 53)%Z.

(** Positive numbers whose squares are far from overflow and underflow *)
Definition fair (x : f64) : Prop := is_finite x = true /\ bpow radix2 (-300) <= B2R x <= bpow radix2 400.

(** The same number in units that differ by the factor 2^k, or no number at all *)
Definition shown_times (k : Z) (a b : option f64) : Prop :=
  match a, b with
  | Some x, Some y => is_finite x = true /\ is_finite y = true /\ times_power k x y
  | None, None => True
  | _, _ => False
  end.

(** The same with fair fitness values *)
Definition fair_units {I J} (k : Z) (io : individual_ops I) (jo : individual_ops J) (R : I -> J -> Prop) : Prop :=
  (forall a b, R a b -> is_valid io a = is_valid jo b) /\
  (forall a b a' b', R a b -> R a' b' -> ieq io a a' = ieq jo b b') /\
  (forall a b, R a b -> fair (fitness io a) /\ fair (fitness jo b) /\ times_power k (fitness io a) (fitness jo b)).
