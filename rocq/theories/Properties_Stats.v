(** * Properties_Stats: theorems about src/stats.rs (C41-C45, C71, C72, C83). *)
From Coq Require Import List Bool Arith NArith ZArith Reals Lia Lra.
From Flocq Require Import Core BinarySingleNaN.
From Verif Require Import Rnd F64 LF64 MStats SpecF PStats PStats2.
Import ListNotations.

(** C41: minimum, maximum and the positions of their first occurrences. *)
Theorem C41_min_max_exact :
  forall l : list f64, l <> [] -> (forall x, In x l -> is_nan x = false) ->
  let s := from_iter f64ops l in
  st_count s = length l /\
  (exists i m, st_arg_min s = Some i /\ st_min s = Some m /\ nth_error l i = Some m /\
     (forall x, In x l -> fle m x = true) /\ (forall j x, j < i -> nth_error l j = Some x -> flt m x = true)) /\
  (exists i m, st_arg_max s = Some i /\ st_max s = Some m /\ nth_error l i = Some m /\
     (forall x, In x l -> fle x m = true) /\ (forall j x, j < i -> nth_error l j = Some x -> flt x m = true)).
Proof. exact stats_extremes. Qed.
Print Assumptions C41_min_max_exact.
Example C41_example :
  let s := from_iter f64ops [f_of_Z 2; f_inf; f_of_Z (-1); f_inf; f_of_Z (-1)] in
  st_arg_min s = Some 2 /\ st_arg_max s = Some 1 /\ st_max s = Some f_inf.
Proof. vm_compute; auto. Qed.

(** C42: collecting is recording one by one, in any arithmetic; snapshots and
    PopulatedStats show the same data. *)
Theorem C42_collect_is_record :
  forall (F : Type) (no : numops F) (l : list F),
  from_iter no l = fold_left (record no) l (stats_default no) /\ st_count (from_iter no l) = length l.
Proof. exact @collect_is_record. Qed.
Print Assumptions C42_collect_is_record.
Theorem C42_snapshot :
  forall (F : Type) (s : stats F),
  (snapshot s = None <-> st_count s = 0) /\
  (forall p, snapshot s = Some p <-> st_count s <> 0 /\ p_stats p = s) /\ snapshot s = populated_try_from s.
Proof. exact @snapshot_full. Qed.
Print Assumptions C42_snapshot.
Theorem C42_accessors_agree :
  forall (F : Type) (no : numops F) (s : stats F) (p : populated F), snapshot s = Some p ->
  st_count s = ps_count p /\ st_min s = Some (ps_min p) /\ st_arg_min s = Some (ps_arg_min p) /\
  st_max s = Some (ps_max p) /\ st_arg_max s = Some (ps_arg_max p) /\ st_avg s = Some (ps_avg p) /\
  st_var no s = Some (ps_var no p) /\ st_std no s = Some (ps_std no p).
Proof. exact @accessors_agree. Qed.
Print Assumptions C42_accessors_agree.
Example C42_example :
  let s := record f64ops (from_iter f64ops [f_nan; f1]) f2 in
  match snapshot s with Some p => ps_count p = 3 /\ is_nan (ps_avg p) = true | None => False end.
Proof. vm_compute; auto. Qed.

(** C43: in exact arithmetic the recurrences give the mean and the sample variance. *)
Theorem C43_welford_exact :
  forall l : list R, l <> [] ->
  let s := from_iter Rops l in
  let mean := (sumR l / INR (length l))%R in
  st_avg s = Some mean /\
  st_var Rops s = Some (if length l =? 1 then 0%R
                        else (sumR (map (fun x => (x - mean) * (x - mean)) l) / INR (length l - 1))%R).
Proof. exact welford_formulas. Qed.
Print Assumptions C43_welford_exact.
Example C43_example : st_avg (from_iter Rops [1%R; 3%R]) = Some 2%R /\ st_var Rops (from_iter Rops [1%R; 3%R]) = Some 2%R.
Proof.
  destruct (C43_welford_exact [1%R; 3%R]) as [-> ->]; [discriminate|]; cbn; split; f_equal; field.
Qed.

(** C44: in f64, for samples of magnitude at most 2^1021. *)
Theorem C44_float_stats_sane :
  forall l : list f64, l <> [] -> fits_usize (length l) ->
  (forall x, In x l -> is_finite x = true /\ (Rabs (B2R x) <= bpow radix2 1021)%R) ->
  let s := from_iter f64ops l in
  exists mn mx avg var std,
    st_min s = Some mn /\ st_max s = Some mx /\ st_avg s = Some avg /\ st_var f64ops s = Some var /\ st_std f64ops s = Some std /\
    fle mn avg = true /\ fle avg mx = true /\ fle f0 var = true /\ fle f0 std = true.
Proof. exact stats_sane. Qed.
Print Assumptions C44_float_stats_sane.
(** Without the bound on the magnitude, finite samples can have variance -inf. *)
Theorem C44_unbounded_refuted :
  exists l : list f64,
  (forall x, In x l -> is_finite x = true) /\
  st_var f64ops (from_iter f64ops l) = Some (B754_infinity true) /\
  st_std f64ops (from_iter f64ops l) = Some f_nan /\
  st_avg (from_iter f64ops l) = Some (B754_infinity true).
Proof. exact stats_insane. Qed.
Print Assumptions C44_unbounded_refuted.
Example C44_example :
  let l := [f_lit 1 10; f_lit 1 10; f_lit 1 10] in
  (forall x, In x l -> is_finite x = true /\ (Rabs (B2R x) <= bpow radix2 1021)%R) /\
  match st_avg (from_iter f64ops l) with Some a => feq a (f_lit 1 10) | None => false end = true.
Proof. exact sane_example. Qed.

(** C45 *)
Theorem C45_empty :
  forall (F : Type) (no : numops F), let s := from_iter no (@nil F) in
  st_count s = 0 /\ st_min s = None /\ st_arg_min s = None /\ st_max s = None /\ st_arg_max s = None /\
  st_avg s = None /\ st_var no s = None /\ st_std no s = None /\ snapshot s = None /\ populated_try_from s = None.
Proof. exact @stats_empty. Qed.
Print Assumptions C45_empty.
Theorem C45_single :
  forall x : f64, let s := from_iter f64ops [x] in
  st_count s = 1 /\ st_min s = Some x /\ st_arg_min s = Some 0 /\ st_max s = Some x /\ st_arg_max s = Some 0 /\
  st_avg s = Some x /\ st_var f64ops s = Some f0 /\ st_std f64ops s = Some f0.
Proof. exact stats_single. Qed.
Print Assumptions C45_single.
Example C45_example : st_max (from_iter f64ops [f_nan]) = Some f_nan.
Proof. reflexivity. Qed.

(** C71 *)
Theorem C71_set_arg_min_max :
  forall (p : populated f64) (i : nat),
  (i < ps_count p ->
    (exists q, set_arg_min p i = Ret q /\ ps_arg_min q = i /\ ps_arg_max q = ps_arg_max p /\ ps_min q = ps_min p /\
      ps_max q = ps_max p /\ ps_count q = ps_count p /\ ps_avg q = ps_avg p /\ ps_var f64ops q = ps_var f64ops p) /\
    (exists q, set_arg_max p i = Ret q /\ ps_arg_max q = i /\ ps_arg_min q = ps_arg_min p /\ ps_min q = ps_min p /\
      ps_max q = ps_max p /\ ps_count q = ps_count p /\ ps_avg q = ps_avg p /\ ps_var f64ops q = ps_var f64ops p)) /\
  (ps_count p <= i -> set_arg_min p i = Fail Panic /\ set_arg_max p i = Fail Panic).
Proof. exact set_args. Qed.
Print Assumptions C71_set_arg_min_max.
Example C71_example :
  match set_arg_max (mkPopulated (from_iter f64ops [f2; f1])) 1 with Ret q => ps_arg_max q = 1 /\ ps_arg_min q = 1 | _ => False end /\
  set_arg_max (mkPopulated (from_iter f64ops [f2; f1])) 2 = Fail Panic.
Proof. split; vm_compute; [split; reflexivity|reflexivity]. Qed.

(** C72: a NaN sample makes the average NaN, and with at least two samples the
    variance and deviation too; a leading NaN also takes over min and max. *)
Theorem C72_nan_samples :
  forall l : list f64, (exists x, In x l /\ is_nan x = true) ->
  let s := from_iter f64ops l in
  st_avg s = Some f_nan /\
  (2 <= length l -> st_var f64ops s = Some f_nan /\ st_std f64ops s = Some f_nan) /\
  (is_nan (hd f0 l) = true -> st_min s = Some f_nan /\ st_max s = Some f_nan /\ st_arg_min s = Some 0 /\ st_arg_max s = Some 0).
Proof. exact stats_nan. Qed.
Print Assumptions C72_nan_samples.
Example C72_example :
  st_avg (from_iter f64ops [f1; f_nan; f2]) = Some f_nan /\ st_arg_max (from_iter f64ops [f1; f_nan; f2]) = Some 2 /\
  st_max (from_iter f64ops [f_nan; f2]) = Some f_nan.
Proof. vm_compute; auto. Qed.

(** C83: the f64 average and variance against the exact ones, for samples of
    magnitude at most [M]. *)
Theorem C83_average_accuracy :
  forall (l : list f64) (M : R), l <> [] -> (Z.of_nat (length l) <= 2 ^ 53)%Z -> (M <= bpow radix2 1021)%R ->
  (forall x, In x l -> is_finite x = true /\ (Rabs (B2R x) <= M)%R) ->
  exists avg, st_avg (from_iter f64ops l) = Some avg /\ is_finite avg = true /\
    (Rabs (B2R avg - sumR (map B2R l) / INR (length l))
      <= (INR (length l) + 4) * (bpow radix2 (-53) * M + bpow radix2 (-1075)))%R.
Proof. exact avg_accuracy. Qed.
Print Assumptions C83_average_accuracy.
Theorem C83_variance_accuracy :
  forall (l : list f64) (M : R), 2 <= length l -> (Z.of_nat (length l) <= 2 ^ 51)%Z -> (M <= bpow radix2 480)%R ->
  (forall x, In x l -> is_finite x = true /\ (Rabs (B2R x) <= M)%R) ->
  let n := INR (length l) in
  let m := (sumR (map B2R l) / n)%R in
  exists var, st_var f64ops (from_iter f64ops l) = Some var /\ is_finite var = true /\
    (Rabs (B2R var - sumR (map (fun x => (B2R x - m) * (B2R x - m)) l) / (n - 1))
      <= 16 * (n + 4) * (bpow radix2 (-53) * (M * M) + bpow radix2 (-1075) * (M + 1)))%R.
Proof. exact var_accuracy. Qed.
Print Assumptions C83_variance_accuracy.
Example C83_example :
  let l := [f1; f2; f4] in
  (forall x, In x l -> is_finite x = true /\ (Rabs (B2R x) <= 4)%R) /\ (4 <= bpow radix2 480)%R /\
  sumR (map B2R l) = 7%R /\
  match st_avg (from_iter f64ops l) with Some a => feq a (f_lit 7 3) | None => false end = true.
Proof. exact accuracy_example. Qed.
