(** * Properties_Interpolate: interpolate_usize between any two numbers (C105). *)
From Coq Require Import List Bool Arith NArith ZArith Reals.
From Flocq Require Import Core BinarySingleNaN.
From Verif Require Import Rnd F64 MStats MPopulation MSelection MModel MAlgorithms MWord SpecF SpecA PInterp2.
Import ListNotations.

(** C105: between numbers up to 2^53 the result lies between them, is not less
    than the exact value rounded down and exceeds the exact value by at most one part in
    2^51, and meets the two ends; ... *)
Theorem C105_between :
  forall (mn mx : nat) (ratio : f64), (mn <= mx)%nat -> (Z.of_nat mx <= 2 ^ 53)%Z -> rate ratio ->
  let exact := (INR mn + INR (mx - mn) * B2R ratio)%R in
  exists k, interpolate_usize mn mx ratio = Ret k /\ (mn <= k <= mx)%nat /\
    (Zfloor exact <= Z.of_nat k)%Z /\ (INR k <= exact * (1 + / 2 ^ 51))%R /\
    (B2R ratio = 0%R -> k = mn) /\ (B2R ratio = 1%R -> k = mx).
Proof. exact usize_in_range. Qed.
Print Assumptions C105_between.
(** ... beyond 2^53 the result can be less than min. *)
Theorem C105_between_refuted :
  exists mn mx ratio k, (mn <= mx)%nat /\ fits_usize mx /\ rate ratio /\
    interpolate_usize mn mx ratio = Ret k /\ (k < mn)%nat.
Proof. exact large_refuted. Qed.
Print Assumptions C105_between_refuted.
(** For any two numbers a greater ratio gives no smaller result, ... *)
Theorem C105_monotone :
  forall (mn mx : nat) (r1 r2 : f64) (k1 k2 : nat), (mn <= mx)%nat -> fits_usize mx ->
  rate r1 -> rate r2 -> (B2R r1 <= B2R r2)%R ->
  interpolate_usize mn mx r1 = Ret k1 -> interpolate_usize mn mx r2 = Ret k2 -> (k1 <= k2)%nat.
Proof. exact usize_mono. Qed.
Print Assumptions C105_monotone.
(** ... and NaN gives 0, even where 0 is less than min. *)
Theorem C105_nan :
  forall (mn mx : nat) (ratio : f64), (mn <= mx)%nat -> is_nan ratio = true ->
  interpolate_usize mn mx ratio = Ret 0%nat.
Proof. exact usize_nan. Qed.
Print Assumptions C105_nan.
(** With min <= max all builds agree; with min > max a build with overflow checks
    panics, ... *)
Theorem C105_builds :
  forall (mn mx : nat) (ratio : f64),
  ((mn <= mx)%nat -> forall o, interpolate_usize_word o mn mx ratio = interpolate_usize mn mx ratio) /\
  ((mx < mn)%nat -> interpolate_usize mn mx ratio = Fail Panic /\ interpolate_usize_word Checked mn mx ratio = Fail Panic).
Proof. exact builds. Qed.
Print Assumptions C105_builds.
(** ... and a 64-bit build without them returns a number that is no smaller than min
    and at least 2^63 times the ratio. *)
Theorem C105_wrapped :
  forall (mn mx : nat) (ratio : f64), (mx < mn)%nat -> (Z.of_nat mn <= 2 ^ 53)%Z -> rate ratio ->
  exists k, interpolate_usize_word Wrapping mn mx ratio = Ret k /\ (mn <= k)%nat /\
    (Zfloor (IZR (2 ^ 63) * B2R ratio) <= Z.of_nat k <= usize_max)%Z /\ (B2R ratio = 0%R -> k = mn).
Proof. exact wrapped. Qed.
Print Assumptions C105_wrapped.
Example C105_example :
  match interpolate_usize 10 20 (f_lit 1 2) with Ret k => k =? 15 | _ => false end = true /\
  rate (f_lit 1 2) /\ B2R f0 = 0%R /\ B2R f1 = 1%R /\ interpolate_usize 20 10 f0 = Fail Panic /\
  exists k, interpolate_usize_word Wrapping 20 10 (f_lit 1 2) = Ret k /\ (2 ^ 62 <= Z.of_nat k)%Z.
Proof. exact c105_example. Qed.
