(** * Properties_Same: statistics of equal, negated and reordered samples (C126). *)
From Coq Require Import List Bool Arith Reals Permutation.
From Flocq Require Import Core BinarySingleNaN.
From Verif Require Import Rnd F64 MStats SpecF SpecSame PStats3.
Import ListNotations.

(** C126: equal finite samples have variance and standard deviation exactly 0 and
    themselves as average. *)
Theorem C126_equal_samples :
  forall (l : list f64) (x : f64), l <> [] -> fits_usize (length l) -> is_finite x = true ->
  (forall y, In y l -> feq y x = true) ->
  let s := from_iter f64ops l in
  st_var f64ops s = Some f0 /\ st_std f64ops s = Some f0 /\ (exists a, st_avg s = Some a /\ feq a x = true).
Proof. exact equal_stats. Qed.
Print Assumptions C126_equal_samples.
(** The converse is false: different samples can have variance 0. *)
Theorem C126_zero_variance_refuted :
  exists l : list f64, (forall x, In x l -> is_finite x = true) /\ st_var f64ops (from_iter f64ops l) = Some f0 /\
  exists x y, In x l /\ In y l /\ feq x y = false.
Proof. exact zero_variance_refuted. Qed.
Print Assumptions C126_zero_variance_refuted.
(** Negating all samples, infinities and NaN included, exchanges minimum and maximum and
    their positions, negates the average and leaves variance and deviation. *)
Theorem C126_negated_samples :
  forall l : list f64, fits_usize (length l) ->
  let s := from_iter f64ops l in let t := from_iter f64ops (map fneg l) in
  st_count t = st_count s /\ st_min t = option_map fneg (st_max s) /\ st_max t = option_map fneg (st_min s) /\
  st_arg_min t = st_arg_max s /\ st_arg_max t = st_arg_min s /\
  same_shown (st_avg t) (option_map fneg (st_avg s)) /\ same_shown (st_var f64ops t) (st_var f64ops s) /\
  same_shown (st_std f64ops t) (st_std f64ops s).
Proof. exact negated_stats. Qed.
Print Assumptions C126_negated_samples.
(** In exact arithmetic the order of the samples does not matter ... *)
Theorem C126_reordered_exact :
  forall l l' : list R, Permutation l l' ->
  st_avg (from_iter Rops l) = st_avg (from_iter Rops l') /\ st_var Rops (from_iter Rops l) = st_var Rops (from_iter Rops l') /\
  st_std Rops (from_iter Rops l) = st_std Rops (from_iter Rops l').
Proof. exact reordered_exact. Qed.
Print Assumptions C126_reordered_exact.
(** ... in f64 it does. *)
Theorem C126_reordered_refuted :
  exists l l' : list f64, Permutation l l' /\ (forall x, In x l -> is_finite x = true) /\
  match st_avg (from_iter f64ops l), st_avg (from_iter f64ops l') with Some a, Some b => feq a b = false | _, _ => False end /\
  match st_var f64ops (from_iter f64ops l), st_var f64ops (from_iter f64ops l') with Some a, Some b => feq a b = false | _, _ => False end.
Proof. exact reordered_refuted. Qed.
Print Assumptions C126_reordered_refuted.
Example C126_example :
  let l := [f_lit 1 10; f_lit 1 10; f_lit 1 10] in let l' := [f0; f_of_Z 3; f1; f_of_Z 3] in
  (forall y, In y l -> feq y (f_lit 1 10) = true) /\ st_std f64ops (from_iter f64ops l) = Some f0 /\
  st_arg_max (from_iter f64ops l') = Some 1 /\ st_arg_min (from_iter f64ops (map fneg l')) = Some 1 /\
  match st_var f64ops (from_iter f64ops l') with Some v => feq v (f_lit 9 4) | None => false end = true.
Proof. exact same_example. Qed.
