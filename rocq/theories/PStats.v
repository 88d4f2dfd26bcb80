(** * PStats: proofs about src/stats.rs (C41-C45, C71, C72). *)
From Coq Require Import List Bool Arith NArith ZArith Reals Lia Lra Psatz.
From Flocq Require Import Core BinarySingleNaN Plus_error.
From Verif Require Import Rnd LRnd F64 LF64 MStats SpecF PLinear.
Import ListNotations.

Local Arguments bpow : simpl never.

(** ** Collecting = recording *)
Section Gen.
Context {F : Type} (no : numops F).

Lemma loop_record rest : forall c mn amn mx amx avg ss, 1 <= c ->
  from_iter_loop no rest c mn amn mx amx avg ss = fold_left (record no) rest (mkStats c mn amn mx amx avg ss).
Proof.
  induction rest as [|x t IH]; intros c mn amn mx amx avg ss Hc; cbn [from_iter_loop fold_left]; auto.
  unfold record at 2; cbn [s_count s_min s_arg_min s_max s_arg_max s_avg s_sum_squared].
  destruct (Nat.eqb_spec c 0) as [->|_]; [lia|]; cbn [negb].
  destruct (n_ltb no x mn); destruct (n_ltb no mx x); apply IH; lia.
Qed.

Lemma from_iter_record l : from_iter no l = fold_left (record no) l (stats_default no).
Proof. destruct l as [|x t]; [reflexivity|]; cbn [from_iter fold_left]; rewrite loop_record by lia; reflexivity. Qed.

Lemma record_count s x : s_count (record no s x) = S (s_count s).
Proof.
  unfold record; destruct (Nat.eqb_spec (s_count s) 0) as [->|H]; cbn [negb]; auto.
  destruct (n_ltb no x (s_min s)); destruct (n_ltb no (s_max s) x); cbn; lia.
Qed.

Lemma from_iter_count l : s_count (from_iter no l) = length l.
Proof.
  rewrite from_iter_record; assert (G : forall l s, s_count (fold_left (record no) l s) = s_count s + length l).
  { clear l; induction l as [|x t IH]; intros s; cbn [fold_left length]; [lia|]; rewrite IH, record_count; lia. }
  rewrite G; reflexivity.
Qed.

Lemma from_iter_snoc l x : from_iter no (l ++ [x]) = record no (from_iter no l) x.
Proof. rewrite !from_iter_record, fold_left_app; reflexivity. Qed.

Lemma from_iter_one x : from_iter no [x] = mkStats 1 x 0 x 0 x (n_zero no).
Proof. reflexivity. Qed.

Lemma snapshot_spec (s : stats F) :
  (snapshot s = None <-> s_count s = 0) /\
  (forall p, snapshot s = Some p <-> s_count s <> 0 /\ p_stats p = s).
Proof.
  unfold snapshot; destruct (Nat.eqb_spec (s_count s) 0) as [E|E]; cbn [negb]; split.
  - tauto.
  - intros p; split; [discriminate|tauto].
  - split; [discriminate|tauto].
  - intros p; split; [intros [= <-]; auto|]. intros [_ <-]; destruct p; reflexivity.
Qed.

Lemma accessors_agree (s : stats F) p : populated_try_from s = Some p ->
  st_count s = ps_count p /\ st_min s = Some (ps_min p) /\ st_arg_min s = Some (ps_arg_min p) /\
  st_max s = Some (ps_max p) /\ st_arg_max s = Some (ps_arg_max p) /\ st_avg s = Some (ps_avg p) /\
  st_var no s = Some (ps_var no p) /\ st_std no s = Some (ps_std no p).
Proof.
  unfold populated_try_from; destruct (Nat.eqb_spec (s_count s) 0) as [E|E]; cbn [negb]; [discriminate|].
  intros [= <-]; unfold st_count, st_min, st_arg_min, st_max, st_arg_max, st_avg, st_std, st_var, ps_count, ps_min, ps_arg_min, ps_max, ps_arg_max, ps_avg, ps_std, ps_var; cbn [p_stats].
  destruct (s_count s) as [|[|c]]; [lia| |]; repeat split; reflexivity.
Qed.

Lemma accessors_empty (s : stats F) : s_count s = 0 ->
  st_count s = 0 /\ st_min s = None /\ st_arg_min s = None /\ st_max s = None /\ st_arg_max s = None /\
  st_avg s = None /\ st_var no s = None /\ st_std no s = None /\ snapshot s = None /\ populated_try_from s = None.
Proof.
  intros E; unfold st_count, st_min, st_arg_min, st_max, st_arg_max, st_avg, st_std, st_var, snapshot, populated_try_from.
  rewrite E; repeat split; reflexivity.
Qed.
End Gen.

(** ** Minimum and maximum *)
Definition extremes (l : list f64) (s : stats f64) : Prop :=
  nth_error l (s_arg_min s) = Some (s_min s) /\
  nth_error l (s_arg_max s) = Some (s_max s) /\
  (forall i x, nth_error l i = Some x -> (key (s_min s) <= key x)%R /\ (i < s_arg_min s -> (key (s_min s) < key x)%R)) /\
  (forall i x, nth_error l i = Some x -> (key x <= key (s_max s))%R /\ (i < s_arg_max s -> (key x < key (s_max s))%R)).

Lemma nth_error_snoc_cases {A} (l : list A) x i y :
  nth_error (l ++ [x]) i = Some y -> (i < length l /\ nth_error l i = Some y) \/ (i = length l /\ y = x).
Proof.
  intros H; assert (Hi : i < length (l ++ [x])) by (eapply nth_error_some_lt; eauto).
  rewrite app_length in Hi; cbn in Hi; destruct (Nat.eq_dec i (length l)) as [->|Hne].
  - right; split; auto; rewrite nth_error_app2, Nat.sub_diag in H by lia; cbn in H; congruence.
  - left; split; [lia|]; rewrite nth_error_app1 in H by lia; auto.
Qed.
Lemma nth_error_snoc_l {A} (l : list A) x i y : nth_error l i = Some y -> nth_error (l ++ [x]) i = Some y.
Proof. intros H; rewrite nth_error_app1; auto; eapply nth_error_some_lt; eauto. Qed.
Lemma nth_error_snoc_end {A} (l : list A) x : nth_error (l ++ [x]) (length l) = Some x.
Proof. rewrite nth_error_app2, Nat.sub_diag by lia; reflexivity. Qed.

Lemma extremes_from_iter l : l <> [] -> (forall x, In x l -> is_nan x = false) -> extremes l (from_iter f64ops l).
Proof.
  induction l as [|x l IH] using rev_ind; [congruence|]; intros _ Hn.
  destruct l as [|y l'].
  { cbn [app]; rewrite from_iter_one; unfold extremes; cbn [s_arg_min s_min s_arg_max s_max].
    repeat split; auto; destruct i; cbn in H; try (injection H as <-); try (destruct i; discriminate); try lra; lia. }
  remember (y :: l') as l eqn:El; assert (Hne : l <> []) by (subst; discriminate); clear El y l'.
  specialize (IH Hne ltac:(intros; apply Hn, in_or_app; auto)).
  rewrite from_iter_snoc; set (s := from_iter f64ops l) in *.
  assert (Hc : s_count s = length l) by apply from_iter_count.
  destruct IH as (Amn & Amx & Bmn & Bmx).
  assert (Hx : is_nan x = false) by (apply Hn, in_or_app; cbn; auto).
  assert (Nmn : is_nan (s_min s) = false) by (apply Hn, in_or_app; left; eapply nth_error_In; eauto).
  assert (Nmx : is_nan (s_max s) = false) by (apply Hn, in_or_app; left; eapply nth_error_In; eauto).
  unfold record; rewrite Hc; destruct (Nat.eqb_spec (length l) 0) as [E|_]; [destruct l; [congruence|discriminate]|]; cbn [negb].
  cbn [n_ltb f64ops].
  assert (Hmin : nth_error (l ++ [x]) (if flt x (s_min s) then length l else s_arg_min s) = Some (if flt x (s_min s) then x else s_min s) /\
    forall i z, nth_error (l ++ [x]) i = Some z -> (key (if flt x (s_min s) then x else s_min s) <= key z)%R /\
      (i < (if flt x (s_min s) then length l else s_arg_min s) -> (key (if flt x (s_min s) then x else s_min s) < key z)%R)).
  { destruct (flt x (s_min s)) eqn:E.
    - apply flt_spec in E as (_ & _ & E); split; [apply nth_error_snoc_end|].
      intros i z Hz; apply nth_error_snoc_cases in Hz as [[Hi Hz]|[-> ->]]; [|split; [lra|lia]].
      destruct (Bmn i z Hz) as [H _]; split; [lra|intros _; lra].
    - apply flt_false in E; auto; split; [apply nth_error_snoc_l; auto|].
      assert (Ha : s_arg_min s < length l) by (eapply nth_error_some_lt; eauto).
      intros i z Hz; apply nth_error_snoc_cases in Hz as [[Hi Hz]|[-> ->]]; [apply Bmn; auto|split; [lra|lia]]. }
  assert (Hmax : nth_error (l ++ [x]) (if flt (s_max s) x then length l else s_arg_max s) = Some (if flt (s_max s) x then x else s_max s) /\
    forall i z, nth_error (l ++ [x]) i = Some z -> (key z <= key (if flt (s_max s) x then x else s_max s))%R /\
      (i < (if flt (s_max s) x then length l else s_arg_max s) -> (key z < key (if flt (s_max s) x then x else s_max s))%R)).
  { destruct (flt (s_max s) x) eqn:E.
    - apply flt_spec in E as (_ & _ & E); split; [apply nth_error_snoc_end|].
      intros i z Hz; apply nth_error_snoc_cases in Hz as [[Hi Hz]|[-> ->]]; [|split; [lra|lia]].
      destruct (Bmx i z Hz) as [H _]; split; [lra|intros _; lra].
    - apply flt_false in E; auto; split; [apply nth_error_snoc_l; auto|].
      assert (Ha : s_arg_max s < length l) by (eapply nth_error_some_lt; eauto).
      intros i z Hz; apply nth_error_snoc_cases in Hz as [[Hi Hz]|[-> ->]]; [apply Bmx; auto|split; [lra|lia]]. }
  destruct Hmin as [Hmin1 Hmin2]; destruct Hmax as [Hmax1 Hmax2].
  destruct (flt x (s_min s)); destruct (flt (s_max s) x); unfold extremes; cbn [s_arg_min s_min s_arg_max s_max]; auto.
Qed.

Lemma stats_extremes (l : list f64) : l <> [] -> (forall x, In x l -> is_nan x = false) ->
  let s := from_iter f64ops l in
  st_count s = length l /\
  (exists i m, st_arg_min s = Some i /\ st_min s = Some m /\ nth_error l i = Some m /\
     (forall x, In x l -> fle m x = true) /\ (forall j x, j < i -> nth_error l j = Some x -> flt m x = true)) /\
  (exists i m, st_arg_max s = Some i /\ st_max s = Some m /\ nth_error l i = Some m /\
     (forall x, In x l -> fle x m = true) /\ (forall j x, j < i -> nth_error l j = Some x -> flt x m = true)).
Proof.
  intros Hne Hn s; destruct (extremes_from_iter l Hne Hn) as (A1 & A2 & B1 & B2); fold s in A1, A2, B1, B2.
  assert (Hc : s_count s = length l) by apply from_iter_count.
  assert (Hl : exists c, length l = S c) by (destruct l; [congruence|cbn; eauto]); destruct Hl as [c Hl].
  unfold st_count, st_arg_min, st_min, st_arg_max, st_max; rewrite Hc, Hl.
  assert (N1 : is_nan (s_min s) = false) by (apply Hn; eapply nth_error_In; eauto).
  assert (N2 : is_nan (s_max s) = false) by (apply Hn; eapply nth_error_In; eauto).
  split; auto; split.
  - exists (s_arg_min s), (s_min s); repeat split; auto.
    + intros x Hx; destruct (In_nth_error _ _ Hx) as [i Hi]; apply fle_spec; repeat split; auto; eapply B1; eauto.
    + intros j x Hj Hx; apply flt_spec; repeat split; auto; [apply Hn; eapply nth_error_In; eauto|eapply B1; eauto].
  - exists (s_arg_max s), (s_max s); repeat split; auto.
    + intros x Hx; destruct (In_nth_error _ _ Hx) as [i Hi]; apply fle_spec; repeat split; auto; eapply B2; eauto.
    + intros j x Hj Hx; apply flt_spec; repeat split; auto; [apply Hn; eapply nth_error_In; eauto|eapply B2; eauto].
Qed.

(** ** Exact arithmetic: Welford's recurrences compute the textbook formulas *)
Section Exact.
Local Open Scope R_scope.

Lemma sumR_snoc l x : sumR (l ++ [x]) = sumR l + x.
Proof. induction l as [|y t IH]; cbn; [lra|rewrite IH; lra]. Qed.

Lemma dev_expand (l : list R) (m : R) :
  sumR (map (fun x => (x - m) * (x - m)) l) = sumR (map (fun x => x * x) l) - 2 * m * sumR l + INR (length l) * (m * m).
Proof.
  induction l as [|x t IH]; cbn [map sumR length]; [cbn; lra|]. rewrite IH, S_INR; ring.
Qed.

Lemma welford l : l <> [] ->
  let s := from_iter Rops l in
  s_avg s = sumR l / INR (length l) /\
  s_sum_squared s = sumR (map (fun x => x * x) l) - sumR l * sumR l / INR (length l).
Proof.
  induction l as [|x l IH] using rev_ind; [congruence|]; intros _.
  destruct l as [|y l'].
  { cbn; split; [field|]. field. }
  remember (y :: l') as l eqn:El; assert (Hne : l <> []) by (subst; discriminate); clear El y l'.
  cbv zeta in *; specialize (IH Hne); rewrite from_iter_snoc; set (s := from_iter Rops l) in *.
  assert (Hc : s_count s = length l) by apply from_iter_count.
  destruct IH as [A S]; unfold record; rewrite Hc.
  assert (Hl : (length l <> 0)%nat) by (destruct l; [congruence|discriminate]).
  rewrite (proj2 (Nat.eqb_neq _ _) Hl); cbn [negb].
  assert (Hp : 0 < INR (length l)) by (apply lt_0_INR; lia).
  assert (E1 : n_add Rops (s_avg s) (n_div Rops (n_sub Rops x (s_avg s)) (n_of_nat Rops (length l + 1)))
            = sumR (l ++ [x]) / INR (length (l ++ [x]))).
  { cbn [n_add n_div n_sub n_of_nat Rops]; rewrite A, sumR_snoc, app_length, !plus_INR; cbn [length]; change (INR 1) with 1.
    field; split; lra. }
  destruct (n_ltb Rops x (s_min s)); destruct (n_ltb Rops (s_max s) x);
  cbn [s_avg s_sum_squared]; rewrite E1; (split; [reflexivity|]);
  cbn [n_add n_mul n_sub Rops]; rewrite S, A, map_app, !sumR_snoc, app_length, plus_INR; cbn [map sumR length];
  change (INR 1) with 1; rewrite sumR_snoc; field; lra.
Qed.

Lemma welford_formulas (l : list R) : l <> [] ->
  let s := from_iter Rops l in
  let mean := sumR l / INR (length l) in
  st_avg s = Some mean /\
  st_var Rops s = Some (if (length l =? 1)%nat then 0
                        else sumR (map (fun x => (x - mean) * (x - mean)) l) / INR (length l - 1)).
Proof.
  intros Hne s mean; destruct (welford l Hne) as [A S]; fold s in A, S.
  assert (Hc : s_count s = length l) by apply from_iter_count.
  unfold st_avg, st_var; rewrite Hc.
  destruct (length l) as [|[|c]] eqn:El; [destruct l; [congruence|discriminate]| |].
  - split; [f_equal; rewrite A; reflexivity|reflexivity].
  - split; [f_equal; rewrite A; reflexivity|]. cbn [Nat.eqb n_div n_of_nat Rops]; f_equal; f_equal.
    rewrite S, dev_expand, El; fold mean; unfold mean; field; apply not_0_INR; lia.
Qed.
End Exact.

(** ** f64 sanity *)
Section Sane.
Local Open Scope R_scope.

Lemma half_step d (s a : f64) : d = B2R s - B2R a -> 0 <= d -> rnd (rnd d / 2) <= d.
Proof.
  intros Hd H0; destruct (Rle_lt_dec (bpow radix2 (-1021)) d) as [Hbig|Hsmall].
  - assert (HD : bpow radix2 (-1021) <= rnd d) by (apply rnd_ge_float; [apply isfloat_bpow; lia|auto]).
    rewrite rnd_float by (apply half_float; [apply rnd_isfloat|auto]).
    assert (rnd d <= d * (1 + bpow radix2 (-53))) by (apply err_up; eapply Rle_trans; [|exact Hbig]; apply bpow_le; lia).
    assert (bpow radix2 (-53) <= 1) by (change 1 with (bpow radix2 0); apply bpow_le; lia). nra.
  - assert (Hf : isfloat d).
    { rewrite Hd; unfold Rminus; apply (FLT_format_plus_small radix2 (SpecFloat.emin prec emax) prec); [apply B2R_isfloat|apply generic_format_opp, B2R_isfloat|].
      change (B2R s + - B2R a) with (B2R s - B2R a); rewrite <- Hd, Rabs_pos_eq by auto.
      left; eapply Rlt_le_trans; [exact Hsmall|apply bpow_le; change (SpecFloat.emin prec emax) with (-1074)%Z; change prec with 53%Z; lia]. }
    rewrite (rnd_float d Hf); apply rnd_le_float; auto; lra.
Qed.

Definition bnd := bpow radix2 1021.
Lemma bnd_isfloat : isfloat bnd. Proof. apply isfloat_bpow; lia. Qed.

(** One step of the average: from [a] towards [x], never beyond it. *)
Lemma avg_step (a x c : f64) :
  is_finite a = true -> is_finite x = true -> Rabs (B2R a) <= bnd -> Rabs (B2R x) <= bnd ->
  is_finite c = true -> 2 <= B2R c ->
  let a' := fadd a (fdiv (fsub x a) c) in
  is_finite (fsub x a) = true /\ is_finite a' = true /\
  ((B2R a <= B2R x -> B2R a <= B2R a' <= B2R x /\ 0 <= B2R (fsub x a)) /\
   (B2R x <= B2R a -> B2R x <= B2R a' <= B2R a /\ B2R (fsub x a) <= 0)).
Proof.
  intros Fa Fx Ha Hx Fc Hc a'.
  apply Rabs_le_inv in Ha; apply Rabs_le_inv in Hx.
  pose proof (bpow_gt_0 radix2 1021) as Hp; fold bnd in Hp.
  assert (E1023 : bpow radix2 1023 = 4 * bnd) by (unfold bnd; change 1023%Z with (2 + 1021)%Z; rewrite bpow_plus; reflexivity).
  assert (E1022 : bpow radix2 1022 = 2 * bnd) by (unfold bnd; change 1022%Z with (1 + 1021)%Z; rewrite bpow_plus; reflexivity).
  destruct (in_range (fsub x a) (B2R x - B2R a)) as [Fd Vd].
  { apply fsub_correct; auto. }
  { rewrite E1023; apply Rabs_le; lra. }
  assert (Hd2 : - bpow radix2 1022 <= B2R (fsub x a) <= bpow radix2 1022).
  { rewrite Vd; split; [apply rnd_ge_float; [apply generic_format_opp, isfloat_bpow; lia|]|apply rnd_le_float; [apply isfloat_bpow; lia|]]; rewrite E1022; lra. }
  set (d := fsub x a) in *.
  assert (Hdiv : - bpow radix2 1022 <= B2R d / B2R c <= bpow radix2 1022 /\
     (0 <= B2R d -> 0 <= B2R d / B2R c <= B2R d / 2) /\ (B2R d <= 0 -> B2R d / 2 <= B2R d / B2R c <= 0)).
  { assert (Hi : 0 < / B2R c <= / 2).
    { split; [apply Rinv_0_lt_compat; lra|apply Rinv_le; lra]. }
    unfold Rdiv; destruct (Rle_lt_dec 0 (B2R d)); split; try split; nra. }
  destruct Hdiv as (Hdiv & Hdp & Hdn).
  destruct (in_range (fdiv d c) (B2R d / B2R c)) as [Fq Vq].
  { apply fdiv_correct; auto; lra. }
  { apply (le_1023 _ 1022); [lia|apply Rabs_le; lra]. }
  set (q := fdiv d c) in *.
  assert (Hup : B2R a <= B2R x -> 0 <= B2R d /\ 0 <= B2R q <= B2R x - B2R a).
  { intros Hle; assert (0 <= B2R d) by (rewrite Vd; apply rnd_pos; lra); split; auto.
    rewrite Vq; split; [apply rnd_pos; apply Hdp; auto|].
    eapply Rle_trans; [apply rnd_mono, Hdp; auto|]; rewrite Vd; apply (half_step _ x a); auto; lra. }
  assert (Hdown : B2R x <= B2R a -> B2R d <= 0 /\ B2R x - B2R a <= B2R q <= 0).
  { intros Hle; assert (B2R d <= 0) by (rewrite Vd; apply rnd_neg; lra); split; auto.
    rewrite Vq; split; [|apply rnd_neg; apply Hdn; auto].
    eapply Rle_trans; [|apply rnd_mono, Hdn; auto]; rewrite Vd.
    replace (B2R x - B2R a) with (- (B2R a - B2R x)) by lra.
    rewrite rnd_opp; replace (- rnd (B2R a - B2R x) / 2) with (- (rnd (B2R a - B2R x) / 2)) by lra; rewrite rnd_opp.
    apply Ropp_le_contravar, (half_step _ a x); auto; lra. }
  assert (Hsum : Rabs (B2R a + B2R q) <= bpow radix2 1023).
  { rewrite E1023; apply Rabs_le; destruct (Rle_lt_dec (B2R a) (B2R x)) as [H|H]; [destruct (Hup H)|destruct (Hdown (Rlt_le _ _ H))]; lra. }
  destruct (in_range a' (B2R a + B2R q)) as [Fa' Va']; [apply fadd_correct; auto|auto|].
  split; auto; split; auto; split.
  - intros H; destruct (Hup H) as [H1 H2]; split; auto; rewrite Va'; split;
    [apply rnd_ge_float; [apply B2R_isfloat|lra]|apply rnd_le_float; [apply B2R_isfloat|lra]].
  - intros H; destruct (Hdown H) as [H1 H2]; split; auto; rewrite Va'; split;
    [apply rnd_ge_float; [apply B2R_isfloat|lra]|apply rnd_le_float; [apply B2R_isfloat|lra]].
Qed.

Definition nonneg (x : f64) : Prop := is_nan x = false /\ 0 <= key x.

Lemma nonneg_add x y : nonneg x -> nonneg y -> nonneg (fadd x y).
Proof.
  intros [Nx Hx] [Ny Hy]; destruct (is_finite x) eqn:Fx; destruct (is_finite y) eqn:Fy.
  - destruct (fadd_correct x y Fx Fy) as (N & K & _); split; auto; rewrite K.
    rewrite key_finite in Hx, Hy by auto; apply ovf_pos, rnd_pos; lra.
  - pose proof big_pos; destruct y as [s|[|]| |s m e H']; cbn in *; try discriminate; [lra|].
    destruct x as [s|[|]| |s m e H']; cbn in *; try discriminate; split; cbn; auto; lra.
  - pose proof big_pos; destruct x as [s|[|]| |s m e H']; cbn in *; try discriminate; [lra|].
    destruct y as [s|[|]| |s m e H']; cbn in *; try discriminate; split; cbn; auto; lra.
  - pose proof big_pos; destruct x as [s|[|]| |s m e H']; cbn in *; try discriminate; [lra|].
    destruct y as [s|[|]| |s m e H']; cbn in *; try discriminate; [lra|]; split; cbn; auto; lra.
Qed.

Lemma nonneg_div x y : nonneg x -> is_finite y = true -> 0 < B2R y -> nonneg (fdiv x y).
Proof.
  intros [Nx Hx] Fy Hy; destruct (is_finite x) eqn:Fx.
  - destruct (fdiv_correct x y Fx ltac:(lra)) as (N & K & _); split; auto; rewrite K.
    rewrite key_finite in Hx by auto; apply ovf_pos, rnd_pos; unfold Rdiv; apply Rmult_le_pos; auto; left; apply Rinv_0_lt_compat; auto.
  - pose proof big_pos; destruct x as [s|[|]| |s m e H']; cbn in *; try discriminate; [lra|].
    destruct y as [s|[|]| |[|] m e H']; cbn in *; try discriminate; try lra.
    + exfalso; apply (Rlt_not_le _ _ Hy); apply F2R_le_0; cbn; lia.
    + split; cbn; auto; lra.
Qed.

Lemma nonneg_sqrt x : nonneg x -> nonneg (fsqrt x).
Proof.
  intros [Nx Hx]; destruct (is_finite x) eqn:Fx.
  - rewrite key_finite in Hx by auto; destruct (fsqrt_val x Fx Hx) as [F V].
    split; [apply finite_not_nan; auto|]; rewrite key_finite, V by auto; apply rnd_pos, sqrt_pos.
  - pose proof big_pos; destruct x as [s|[|]| |s m e H']; cbn in *; try discriminate; [lra|]; split; cbn; auto; lra.
Qed.

Lemma f_of_nat_ge2 n : (2 <= n)%nat -> fits_usize n -> is_finite (f_of_nat n) = true /\ 2 <= B2R (f_of_nat n).
Proof.
  intros H Hf; destruct (f_of_nat_finite n Hf) as [F V]; split; auto; rewrite V.
  apply rnd_ge_float; [apply (isfloat_IZR 2); lia|]; apply (le_INR 2); auto.
Qed.

Lemma fits_le m n : (m <= n)%nat -> fits_usize n -> fits_usize m.
Proof. unfold fits_usize; lia. Qed.

Lemma avg_inv l : l <> [] -> fits_usize (length l) ->
  (forall x, In x l -> is_finite x = true /\ Rabs (B2R x) <= bnd) ->
  let s := from_iter f64ops l in
  is_finite (s_avg s) = true /\ B2R (s_min s) <= B2R (s_avg s) <= B2R (s_max s) /\ nonneg (s_sum_squared s).
Proof.
  induction l as [|x l IH] using rev_ind; [congruence|]; intros _ Hf Hb.
  assert (Hxb : is_finite x = true /\ Rabs (B2R x) <= bnd) by (apply Hb, in_or_app; cbn; auto); destruct Hxb as [Fx Bx].
  destruct l as [|y l'].
  { cbn; split; auto; split; [lra|]. split; cbn; auto; lra. }
  remember (y :: l') as l eqn:El; assert (Hne : l <> []) by (subst; discriminate); clear El y l'.
  assert (Hb' : forall z, In z l -> is_finite z = true /\ Rabs (B2R z) <= bnd) by (intros; apply Hb, in_or_app; auto).
  cbv zeta in *; specialize (IH Hne (fits_le (length l) (length (l ++ [x])) ltac:(rewrite app_length; lia) Hf) Hb').
  assert (Hn' : forall z, In z l -> is_nan z = false) by (intros z Hz; apply finite_not_nan, Hb'; auto).
  destruct (extremes_from_iter l Hne Hn') as (Amn & Amx & Bmn & Bmx).
  rewrite from_iter_snoc; set (s := from_iter f64ops l) in *.
  destruct (Hb' _ (nth_error_In _ _ Amn)) as [Fmn Bdmn]; destruct (Hb' _ (nth_error_In _ _ Amx)) as [Fmx Bdmx].
  destruct IH as (Fa & Ha & Hs).
  assert (Hc : s_count s = length l) by apply from_iter_count.
  assert (Hl : (1 <= length l)%nat) by (destruct l; [congruence|cbn; lia]).
  rewrite app_length in Hf; cbn [length] in Hf.
  destruct (f_of_nat_ge2 (length l + 1) ltac:(lia) Hf) as [Fc Hc2].
  assert (Ba : Rabs (B2R (s_avg s)) <= bnd).
  { apply Rabs_le_inv in Bdmn; apply Rabs_le_inv in Bdmx; apply Rabs_le; lra. }
  destruct (avg_step (s_avg s) x (f_of_nat (length l + 1)) Fa Fx Ba Bx Fc Hc2) as (Fd & Fa' & Hup & Hdn).
  unfold record; rewrite Hc, (proj2 (Nat.eqb_neq _ _)) by lia; cbn [negb].
  cbn [n_ltb n_sub n_add n_div n_mul n_of_nat f64ops].
  set (d := fsub x (s_avg s)) in *; set (a' := fadd (s_avg s) (fdiv d (f_of_nat (length l + 1)))) in *.
  assert (Hss : nonneg (fadd (s_sum_squared s) (fmul d (fsub x a')))).
  { apply nonneg_add; auto.
    assert (Hr : Rabs (B2R x - B2R a') <= bpow radix2 1023).
    { assert (E1023 : bpow radix2 1023 = 4 * bnd) by (unfold bnd; change 1023%Z with (2 + 1021)%Z; rewrite bpow_plus; reflexivity).
      pose proof (bpow_gt_0 radix2 1021) as Hp; fold bnd in Hp.
      apply Rabs_le_inv in Bx; apply Rabs_le_inv in Ba; rewrite E1023; apply Rabs_le.
      destruct (Rle_lt_dec (B2R (s_avg s)) (B2R x)) as [H|H]; [destruct (Hup H)|destruct (Hdn (Rlt_le _ _ H))]; lra. }
    destruct (in_range (fsub x a') (B2R x - B2R a') (fsub_correct _ _ Fx Fa') Hr) as [Fe Ve].
    destruct (fmul_correct d (fsub x a') Fd Fe) as (N & K & _); split; auto; rewrite K; apply ovf_pos, rnd_pos.
    rewrite Ve; destruct (Rle_lt_dec (B2R (s_avg s)) (B2R x)) as [H|H].
    - destruct (Hup H) as [H1 H2]; apply Rmult_le_pos; auto; apply rnd_pos; lra.
    - destruct (Hdn (Rlt_le _ _ H)) as [H1 H2]; assert (rnd (B2R x - B2R a') <= 0) by (apply rnd_neg; lra). nra. }
  assert (Emn : (if flt x (s_min s) then B2R x else B2R (s_min s)) <= B2R a').
  { destruct (flt x (s_min s)) eqn:E.
    - apply flt_spec in E as (_ & _ & E); rewrite !key_finite in E by auto.
      destruct (Rle_lt_dec (B2R (s_avg s)) (B2R x)) as [H|H]; [destruct (Hup H)|destruct (Hdn (Rlt_le _ _ H))]; lra.
    - apply flt_false in E; [|apply finite_not_nan; auto|apply finite_not_nan; auto]; rewrite !key_finite in E by auto.
      destruct (Rle_lt_dec (B2R (s_avg s)) (B2R x)) as [H|H]; [destruct (Hup H)|destruct (Hdn (Rlt_le _ _ H))]; lra. }
  assert (Emx : B2R a' <= (if flt (s_max s) x then B2R x else B2R (s_max s))).
  { destruct (flt (s_max s) x) eqn:E.
    - apply flt_spec in E as (_ & _ & E); rewrite !key_finite in E by auto.
      destruct (Rle_lt_dec (B2R (s_avg s)) (B2R x)) as [H|H]; [destruct (Hup H)|destruct (Hdn (Rlt_le _ _ H))]; lra.
    - apply flt_false in E; [|apply finite_not_nan; auto|apply finite_not_nan; auto]; rewrite !key_finite in E by auto.
      destruct (Rle_lt_dec (B2R (s_avg s)) (B2R x)) as [H|H]; [destruct (Hup H)|destruct (Hdn (Rlt_le _ _ H))]; lra. }
  destruct (flt x (s_min s)); destruct (flt (s_max s) x); cbn [s_avg s_min s_max s_sum_squared]; auto.
Qed.

Lemma nonneg_fle x : nonneg x <-> fle f0 x = true.
Proof. rewrite fle_spec; unfold nonneg; change (key f0) with 0; cbn [is_nan f0]; tauto. Qed.

Lemma stats_sane (l : list f64) : l <> [] -> fits_usize (length l) ->
  (forall x, In x l -> is_finite x = true /\ Rabs (B2R x) <= bpow radix2 1021) ->
  let s := from_iter f64ops l in
  exists mn mx avg var std,
    st_min s = Some mn /\ st_max s = Some mx /\ st_avg s = Some avg /\ st_var f64ops s = Some var /\ st_std f64ops s = Some std /\
    fle mn avg = true /\ fle avg mx = true /\ fle f0 var = true /\ fle f0 std = true.
Proof.
  intros Hne Hf Hb s.
  destruct (avg_inv l Hne Hf Hb) as (Fa & Ha & Hs); fold s in Fa, Ha, Hs.
  assert (Hn : forall z, In z l -> is_nan z = false) by (intros z Hz; apply finite_not_nan, Hb; auto).
  destruct (extremes_from_iter l Hne Hn) as (Amn & Amx & _ & _); fold s in Amn, Amx.
  destruct (Hb _ (nth_error_In _ _ Amn)) as [Fmn _]; destruct (Hb _ (nth_error_In _ _ Amx)) as [Fmx _].
  assert (Hc : s_count s = length l) by apply from_iter_count.
  assert (Hv : exists v, st_var f64ops s = Some v /\ nonneg v).
  { unfold st_var; rewrite Hc; destruct (length l) as [|[|c]] eqn:El; [destruct l; [congruence|discriminate]| |].
    - exists f0; split; auto; split; cbn; auto; lra.
    - eexists; split; [reflexivity|]; cbn [n_div n_of_nat f64ops]; apply nonneg_div; auto;
      (assert (H1 : fits_usize (S (S c) - 1)) by (eapply fits_le; [|exact Hf]; lia)).
      + apply f_of_nat_finite; auto.
      + assert (1 <= B2R (f_of_nat (S (S c) - 1))) by (apply f_of_nat_ge1; auto; lia). lra. }
  destruct Hv as (v & Ev & Hv).
  exists (s_min s), (s_max s), (s_avg s), v, (fsqrt v).
  unfold st_min, st_max, st_avg, st_std; rewrite Hc, Ev.
  destruct (length l) as [|c] eqn:El; [destruct l; [congruence|discriminate]|].
  assert (L : forall x y : f64, is_finite x = true -> is_finite y = true -> B2R x <= B2R y -> fle x y = true).
  { intros x y Fx Fy H; apply fle_spec; rewrite !key_finite by auto; repeat split; auto; apply finite_not_nan; auto. }
  repeat split; auto; try (apply L; auto; lra); apply nonneg_fle; auto; apply nonneg_sqrt; auto.
Qed.
End Sane.

(** ** NaN samples *)
Lemma fadd_nan_l x y : is_nan x = true -> is_nan (fadd x y) = true.
Proof. destruct x; cbn; try discriminate; destruct y; auto. Qed.
Lemma fadd_nan_r x y : is_nan y = true -> is_nan (fadd x y) = true.
Proof. destruct y; cbn; try discriminate; destruct x; auto. Qed.
Lemma fsub_nan_l x y : is_nan x = true -> is_nan (fsub x y) = true.
Proof. destruct x; cbn; try discriminate; destruct y; auto. Qed.
Lemma fsub_nan_r x y : is_nan y = true -> is_nan (fsub x y) = true.
Proof. destruct y; cbn; try discriminate; destruct x; auto. Qed.
Lemma fmul_nan_l x y : is_nan x = true -> is_nan (fmul x y) = true.
Proof. destruct x; cbn; try discriminate; destruct y; auto. Qed.
Lemma fdiv_nan_l x y : is_nan x = true -> is_nan (fdiv x y) = true.
Proof. destruct x; cbn; try discriminate; destruct y; auto. Qed.
Lemma fsqrt_nan x : is_nan x = true -> is_nan (fsqrt x) = true.
Proof. destruct x; cbn; try discriminate; auto. Qed.

Lemma nan_avg l : Exists (fun x => is_nan x = true) l ->
  let s := from_iter f64ops l in
  is_nan (s_avg s) = true /\ (2 <= length l -> is_nan (s_sum_squared s) = true).
Proof.
  induction l as [|x l IH] using rev_ind; [inversion 1|]; intros H.
  destruct l as [|y l'].
  { cbn in *; inversion H as [? ? Hx|? ? Hx]; subst; [|inversion Hx]; split; auto; lia. }
  remember (y :: l') as l eqn:El; assert (Hne : l <> []) by (subst; discriminate); clear El y l'.
  cbv zeta in *; rewrite from_iter_snoc; set (s := from_iter f64ops l) in *.
  assert (Hc : s_count s = length l) by apply from_iter_count.
  assert (Hl : 1 <= length l) by (destruct l; [congruence|cbn; lia]).
  unfold record; rewrite Hc, (proj2 (Nat.eqb_neq _ _)) by lia; cbn [negb].
  cbn [n_ltb n_sub n_add n_div n_mul n_of_nat f64ops].
  assert (Hd : is_nan (fsub x (s_avg s)) = true).
  { apply Exists_app in H as [H|H]; [apply fsub_nan_r, IH; auto|].
    inversion H as [? ? Hx|? ? Hx]; subst; [apply fsub_nan_l; auto|inversion Hx]. }
  destruct (flt x (s_min s)); destruct (flt (s_max s) x); cbn [s_avg s_sum_squared];
  (split; [apply fadd_nan_r, fdiv_nan_l; auto|intros _; apply fadd_nan_r, fmul_nan_l; auto]).
Qed.

Lemma nan_first x l : is_nan x = true ->
  let s := from_iter f64ops (x :: l) in s_min s = x /\ s_max s = x /\ s_arg_min s = 0 /\ s_arg_max s = 0.
Proof.
  intros Hx; induction l as [|y l IH] using rev_ind; [cbn; auto|].
  cbv zeta in *; rewrite app_comm_cons, from_iter_snoc; set (s := from_iter f64ops (x :: l)) in *.
  destruct IH as (A & B & C & D).
  assert (Hc : s_count s = S (length l)) by (unfold s; rewrite from_iter_count; reflexivity).
  unfold record; rewrite Hc; cbn [Nat.eqb negb n_ltb f64ops].
  destruct x; cbn in Hx; try discriminate.
  assert (E1 : flt y (s_min s) = false) by (rewrite A; destruct y as [[|]|[|]| |[|]]; reflexivity).
  assert (E2 : flt (s_max s) y = false) by (rewrite B; reflexivity).
  rewrite E1, E2; cbn [s_min s_max s_arg_min s_arg_max]; auto.
Qed.

Lemma stats_nan (l : list f64) : (exists x, In x l /\ is_nan x = true) ->
  let s := from_iter f64ops l in
  st_avg s = Some f_nan /\
  (2 <= length l -> st_var f64ops s = Some f_nan /\ st_std f64ops s = Some f_nan) /\
  (is_nan (hd f0 l) = true -> st_min s = Some f_nan /\ st_max s = Some f_nan /\ st_arg_min s = Some 0 /\ st_arg_max s = Some 0).
Proof.
  intros Hex s; destruct (nan_avg l) as [A B]; [apply Exists_exists; auto|]; fold s in A, B.
  assert (Hc : s_count s = length l) by apply from_iter_count.
  assert (N : forall x : f64, is_nan x = true -> x = f_nan) by (intros x; destruct x; cbn; try discriminate; auto).
  unfold st_avg, st_std, st_var, st_min, st_max, st_arg_min, st_arg_max; rewrite Hc.
  destruct Hex as (x0 & Hin & _).
  split; [destruct l; [destruct Hin|cbn [length]; f_equal; auto]|]. split.
  - intros H2; specialize (B H2); destruct (length l) as [|[|c]]; [lia|lia|].
    cbn [n_div n_of_nat f64ops option_map n_sqrt]. rewrite (N _ (fdiv_nan_l _ _ B)); split; auto.
  - intros Hh; destruct l as [|y l']; [destruct Hin|]; cbn [hd] in Hh; cbn [length].
    destruct (nan_first y l' Hh) as (E1 & E2 & E3 & E4); subst s.
    repeat split; f_equal; try exact E3; try exact E4; (transitivity y; [assumption|apply N; auto]).
Qed.

(** ** set_arg_min / set_arg_max *)
Lemma set_args (p : populated f64) i :
  (i < ps_count p ->
    (exists q, set_arg_min p i = Ret q /\ ps_arg_min q = i /\ ps_arg_max q = ps_arg_max p /\ ps_min q = ps_min p /\
      ps_max q = ps_max p /\ ps_count q = ps_count p /\ ps_avg q = ps_avg p /\ ps_var f64ops q = ps_var f64ops p) /\
    (exists q, set_arg_max p i = Ret q /\ ps_arg_max q = i /\ ps_arg_min q = ps_arg_min p /\ ps_min q = ps_min p /\
      ps_max q = ps_max p /\ ps_count q = ps_count p /\ ps_avg q = ps_avg p /\ ps_var f64ops q = ps_var f64ops p)) /\
  (ps_count p <= i -> set_arg_min p i = Fail Panic /\ set_arg_max p i = Fail Panic).
Proof.
  unfold set_arg_min, set_arg_max, massert; split; intros H.
  - rewrite (proj2 (Nat.ltb_lt _ _) H); cbn [bind]; split; eexists; (split; [reflexivity|]); repeat split; reflexivity.
  - rewrite (proj2 (Nat.ltb_ge _ _) H); split; reflexivity.
Qed.

(** ** The witness of C44 *)
Lemma stats_insane : exists l : list f64,
  (forall x, In x l -> is_finite x = true) /\
  st_var f64ops (from_iter f64ops l) = Some (B754_infinity true) /\
  st_std f64ops (from_iter f64ops l) = Some f_nan /\
  st_avg (from_iter f64ops l) = Some (B754_infinity true).
Proof.
  exists [f_of_Z (2 ^ 1023); f_of_Z (- 2 ^ 1023)]; split.
  - intros x [<-|[<-|[]]]; vm_compute; reflexivity.
  - repeat split; vm_compute; reflexivity.
Qed.

Lemma collect_is_record {F} (no : numops F) (l : list F) :
  from_iter no l = fold_left (record no) l (stats_default no) /\ st_count (from_iter no l) = length l.
Proof. split; [apply from_iter_record|apply from_iter_count]. Qed.

Lemma snapshot_full {F} (s : stats F) :
  (snapshot s = None <-> st_count s = 0) /\
  (forall p, snapshot s = Some p <-> st_count s <> 0 /\ p_stats p = s) /\ snapshot s = populated_try_from s.
Proof. destruct (snapshot_spec s) as [A B]; split; [exact A|]; split; [exact B|reflexivity]. Qed.

Lemma stats_empty {F} (no : numops F) : let s := from_iter no (@nil F) in
  st_count s = 0 /\ st_min s = None /\ st_arg_min s = None /\ st_max s = None /\ st_arg_max s = None /\
  st_avg s = None /\ st_var no s = None /\ st_std no s = None /\ snapshot s = None /\ populated_try_from s = None.
Proof. repeat split. Qed.

Lemma stats_single (x : f64) : let s := from_iter f64ops [x] in
  st_count s = 1 /\ st_min s = Some x /\ st_arg_min s = Some 0 /\ st_max s = Some x /\ st_arg_max s = Some 0 /\
  st_avg s = Some x /\ st_var f64ops s = Some f0 /\ st_std f64ops s = Some f0.
Proof. repeat split. Qed.

Lemma sane_example :
  let l := [f_lit 1 10; f_lit 1 10; f_lit 1 10] in
  (forall x, In x l -> is_finite x = true /\ (Rabs (B2R x) <= bpow radix2 1021)%R) /\
  match st_avg (from_iter f64ops l) with Some a => feq a (f_lit 1 10) | None => false end = true.
Proof.
  intros l; split; [|vm_compute; reflexivity].
  assert (F : is_finite (f_lit 1 10) = true) by (vm_compute; reflexivity).
  assert (H : (Rabs (B2R (f_lit 1 10)) <= bpow radix2 1021)%R).
  { assert (H1 : fle (f_lit 1 10) f1 = true) by (vm_compute; reflexivity).
    assert (H0 : fle f0 (f_lit 1 10) = true) by (vm_compute; reflexivity).
    destruct f1_val as [F1 V1]; apply fle_spec in H1 as (_ & _ & H1); apply fle_spec in H0 as (_ & _ & H0).
    rewrite !key_finite in * by auto; rewrite V1 in H1; change (B2R f0) with 0%R in H0.
    rewrite Rabs_pos_eq by auto; apply Rle_trans with (bpow radix2 0); [exact H1|apply bpow_le; lia]. }
  intros x [<-|[<-|[<-|[]]]]; auto.
Qed.
