(** * PStats2: the rounding error of the f64 average (C83). *)
From Coq Require Import List Bool Arith NArith ZArith Reals Lia Lra.
From Flocq Require Import Core BinarySingleNaN Relative Plus_error.
From Verif Require Import Rnd F64 LF64 MStats SpecF PStats PSum.
Import ListNotations.

Local Arguments bpow : simpl never.
Local Open Scope R_scope.

Notation eta := (bpow radix2 (-1075)).

Lemma eta_pos : 0 < eta.
Proof. apply bpow_gt_0. Qed.

Lemma rnd_error_abs r : Rabs (rnd r - r) <= uu * Rabs r + eta.
Proof.
  destruct (error_N_FLT radix2 (-1074) 53 eq_refl (fun x => negb (Z.even x)) r) as (e & h & He & Hh & _ & E).
  change (round radix2 (FLT_exp (-1074) 53) (Znearest (fun x => negb (Z.even x))) r) with (rnd r) in E.
  rewrite E; replace (r * (1 + e) + h - r) with (r * e + h) by ring.
  eapply Rle_trans; [apply Rabs_triang|]; rewrite Rabs_mult.
  assert (E1 : / 2 * bpow radix2 (- (53) + 1) = uu)
    by (change (- (53) + 1)%Z with (1 + -53)%Z; rewrite bpow_plus, bpow_1; cbn [radix_val radix2]; lra).
  assert (E2 : / 2 * bpow radix2 (-1074) = eta)
    by (change (-1074)%Z with (1 + -1075)%Z; rewrite bpow_plus, bpow_1; cbn [radix_val radix2]; lra).
  rewrite E1 in He; rewrite E2 in Hh; pose proof (Rabs_pos r); nra.
Qed.

Lemma f_of_nat_small n : (Z.of_nat n <= 2 ^ 53)%Z -> is_finite (f_of_nat n) = true /\ B2R (f_of_nat n) = INR n.
Proof. intros H; unfold f_of_nat; rewrite INR_IZR_INZ; apply f_of_Z_exact; lia. Qed.

(** One step of the running average. *)
Lemma avg_step_error (a x : f64) (n : nat) (M : R) :
  is_finite a = true -> is_finite x = true -> Rabs (B2R a) <= M -> Rabs (B2R x) <= M -> M <= bnd ->
  (2 <= n)%nat -> (Z.of_nat n <= 2 ^ 53)%Z ->
  let a' := fadd a (fdiv (fsub x a) (f_of_nat n)) in
  Rabs (B2R a') <= M /\
  Rabs (B2R a' - (B2R a + (B2R x - B2R a) / INR n)) <= uu * M + 5 * uu * M / INR n + eta.
Proof.
  intros Fa Fx Ha Hx HM Hn Hz a'.
  destruct (f_of_nat_small n Hz) as [Fc Vc].
  assert (Hn2 : 2 <= INR n) by (apply (le_INR 2); auto).
  destruct (avg_step a x (f_of_nat n) Fa Fx) as (Fd & Fa' & Hup & Hdn); [lra|lra|auto|lra|]; fold a' in Fa', Hup, Hdn.
  pose proof uu_pos; pose proof uu_small; pose proof eta_pos.
  apply Rabs_le_inv in Ha; apply Rabs_le_inv in Hx.
  assert (Ba : Rabs (B2R a') <= M).
  { apply Rabs_le; destruct (Rle_lt_dec (B2R a) (B2R x)) as [H2|H2]; [destruct (Hup H2)|destruct (Hdn (Rlt_le _ _ H2))]; lra. }
  split; auto.
  destruct (fsub_correct x a Fx Fa) as (_ & _ & _ & Vd); specialize (Vd Fd).
  set (d := fsub x a) in *; set (q := fdiv d (f_of_nat n)) in *.
  assert (Fq : is_finite q = true).
  { destruct q eqn:E; auto; exfalso; unfold a' in Fa'.
    - destruct a; cbn in Fa'; try discriminate; destruct s, s0; discriminate.
    - destruct a; cbn in Fa'; discriminate. }
  assert (Hc0 : B2R (f_of_nat n) <> 0) by lra.
  destruct (fdiv_correct d (f_of_nat n) Fd Hc0) as (_ & _ & _ & Vq); fold q in Vq; specialize (Vq Fq).
  destruct (fadd_correct a q Fa Fq) as (_ & _ & _ & Va); fold a' in Va; specialize (Va Fa').
  rewrite Vc in Vq.
  assert (Hi : 0 < / INR n <= / 2) by (split; [apply Rinv_0_lt_compat; lra|apply Rinv_le; lra]).
  assert (E1 : Rabs (B2R d - (B2R x - B2R a)) <= 2 * uu * M).
  { rewrite Vd; unfold Rminus at 2 3; eapply Rle_trans; [apply rnd_plus_error; [apply B2R_isfloat|apply generic_format_opp, B2R_isfloat]|].
    assert (Rabs (B2R x + - B2R a) <= 2 * M) by (apply Rabs_le; lra).
    assert (uu * Rabs (B2R x + - B2R a) <= uu * (2 * M)) by (apply Rmult_le_compat_l; lra); lra. }
  assert (Hd : Rabs (B2R d) <= 5 / 2 * M).
  { apply Rabs_le_inv in E1; assert (0 <= M) by lra; assert (uu * M <= / 1024 * M) by (apply Rmult_le_compat_r; lra); apply Rabs_le; lra. }
  assert (E2 : Rabs (B2R q - B2R d * / INR n) <= uu * (5 / 2 * M * / INR n) + eta).
  { rewrite Vq; eapply Rle_trans; [apply rnd_error_abs|].
    apply Rplus_le_compat_r, Rmult_le_compat_l; [lra|]; unfold Rdiv at 1; rewrite Rabs_mult, (Rabs_pos_eq (/ INR n)) by lra.
    apply Rmult_le_compat_r; lra. }
  assert (E3 : Rabs (B2R a' - (B2R a + B2R q)) <= uu * M).
  { rewrite Va; eapply Rle_trans; [apply rnd_plus_error_r; apply B2R_isfloat|].
    rewrite <- Va; apply Rmult_le_compat_l; lra. }
  replace (B2R a' - (B2R a + (B2R x - B2R a) / INR n)) with
    ((B2R a' - (B2R a + B2R q)) + ((B2R q - B2R d * / INR n) + (B2R d - (B2R x - B2R a)) * / INR n)) by (field; lra).
  eapply Rle_trans; [apply Rabs_triang|]; eapply Rle_trans; [apply Rplus_le_compat_l, Rabs_triang|].
  rewrite (Rabs_mult _ (/ INR n)), (Rabs_pos_eq (/ INR n)) by lra.
  assert (Rabs (B2R d - (B2R x - B2R a)) * / INR n <= 2 * uu * M * / INR n) by (apply Rmult_le_compat_r; lra).
  replace (5 * uu * M / INR n) with (5 * uu * (M * / INR n)) by (unfold Rdiv; ring).
  assert (0 <= M * / INR n) by (apply Rmult_le_pos; lra).
  assert (0 <= uu * (M * / INR n)) by (apply Rmult_le_pos; lra).
  lra.
Qed.

Definition mean (l : list f64) : R := sumR (map B2R l) / INR (length l).

Lemma mean_snoc l x : l <> [] ->
  mean (l ++ [x]) = mean l + (B2R x - mean l) / INR (S (length l)).
Proof.
  intros Hl; unfold mean; rewrite map_app, app_length; cbn [map length]; rewrite sumR_app; cbn [sumR].
  rewrite Nat.add_1_r, S_INR.
  assert (1 <= INR (length l)) by (destruct l; [congruence|]; cbn [length]; rewrite S_INR; pose proof (pos_INR (length l)); lra).
  unfold f64 in *; field; lra.
Qed.

Lemma avg_accuracy_inv (M : R) (l : list f64) : l <> [] -> (Z.of_nat (length l) <= 2 ^ 53)%Z -> M <= bnd ->
  (forall x, In x l -> is_finite x = true /\ Rabs (B2R x) <= M) ->
  let a := s_avg (from_iter f64ops l) in
  is_finite a = true /\ Rabs (B2R a) <= M /\ Rabs (B2R a - mean l) <= (INR (length l) + 4) * (uu * M + eta).
Proof.
  intros Hl Hz HM; revert Hl Hz; induction l as [|x l IH] using rev_ind; [congruence|]; intros _ Hz Hb.
  assert (Hxb : is_finite x = true /\ Rabs (B2R x) <= M) by (apply Hb, in_or_app; cbn; auto); destruct Hxb as [Fx Bx].
  pose proof uu_pos; pose proof eta_pos; pose proof (Rabs_pos (B2R x)).
  destruct l as [|y l'].
  { cbn [app from_iter from_iter_loop s_avg length]; split; auto; split; auto.
    unfold mean; cbn [map sumR length INR]; replace (B2R x - (B2R x + 0) / 1) with 0 by field; rewrite Rabs_R0; nra. }
  remember (y :: l') as l eqn:El; assert (Hne : l <> []) by (subst; discriminate); clear El y l'.
  rewrite app_length in Hz; cbn [length] in Hz.
  assert (Hb' : forall z, In z l -> is_finite z = true /\ Rabs (B2R z) <= M) by (intros; apply Hb, in_or_app; auto).
  cbv zeta in *; specialize (IH Hne ltac:(lia) Hb').
  rewrite from_iter_snoc; set (s := from_iter f64ops l) in *; destruct IH as (Fa & Ba & Ea).
  assert (Hc : s_count s = length l) by apply from_iter_count.
  assert (Hl : (1 <= length l)%nat) by (destruct l; [congruence|cbn; lia]).
  unfold record; rewrite Hc, (proj2 (Nat.eqb_neq _ _)) by lia; cbn [negb].
  cbn [n_ltb n_sub n_add n_div n_mul n_of_nat f64ops].
  destruct (avg_step_error (s_avg s) x (length l + 1) M Fa Fx Ba Bx HM ltac:(lia) Hz) as [Ba' Ea'].
  destruct (f_of_nat_small (length l + 1) Hz) as [Fc Vc].
  assert (HL : 1 <= INR (length l)) by (apply (le_INR 1); auto).
  destruct (avg_step (s_avg s) x (f_of_nat (length l + 1)) Fa Fx) as (_ & Fa' & _); [lra|lra|auto|rewrite Vc, plus_INR; cbn [INR]; lra|].
  set (a' := fadd (s_avg s) _) in *.
  assert (G : Rabs (B2R a' - mean (l ++ [x])) <= (INR (length (l ++ [x])) + 4) * (uu * M + eta)).
  { rewrite mean_snoc, app_length by auto; cbn [length]; rewrite <- Nat.add_1_r.
    rewrite plus_INR in *; cbn [INR] in *; set (n := INR (length l)) in *; set (a := B2R (s_avg s)) in *.
    set (B := uu * M + eta) in *.
    assert (HB : 0 < B /\ uu * M <= B) by (unfold B; split; [nra|lra]).
    assert (Hi : 0 < / (n + 1)) by (apply Rinv_0_lt_compat; lra).
    replace (B2R a' - (mean l + (B2R x - mean l) / (n + 1))) with
      ((B2R a' - (a + (B2R x - a) / (n + 1))) + (a - mean l) * (n * / (n + 1))) by (field; lra).
    eapply Rle_trans; [apply Rabs_triang|]; rewrite (Rabs_mult (a - mean l)), (Rabs_pos_eq (n * / (n + 1))) by (apply Rmult_le_pos; lra).
    assert (Rabs (a - mean l) * (n * / (n + 1)) <= (n + 4) * B * (n * / (n + 1))) by (apply Rmult_le_compat_r; [apply Rmult_le_pos; lra|auto]).
    assert (5 * uu * M / (n + 1) <= 5 * B * / (n + 1)) by (unfold Rdiv; apply Rmult_le_compat_r; lra).
    assert (K : B + 5 * B * / (n + 1) + (n + 4) * B * (n * / (n + 1)) <= (n + 1 + 4) * B).
    { apply Rmult_le_reg_r with (n + 1); [lra|].
      replace ((B + 5 * B * / (n + 1) + (n + 4) * B * (n * / (n + 1))) * (n + 1)) with (B * (n * n + 5 * n + 6)) by (field; lra).
      replace ((n + 1 + 4) * B * (n + 1)) with (B * (n * n + 6 * n + 5)) by ring.
      apply Rmult_le_compat_l; lra. }
    assert (EB : uu * M + eta = B) by reflexivity; lra. }
  destruct (flt x (s_min s)); destruct (flt (s_max s) x); cbn [s_avg]; auto.
Qed.

Lemma avg_accuracy (l : list f64) (M : R) : l <> [] -> (Z.of_nat (length l) <= 2 ^ 53)%Z -> M <= bpow radix2 1021 ->
  (forall x, In x l -> is_finite x = true /\ Rabs (B2R x) <= M) ->
  exists avg, st_avg (from_iter f64ops l) = Some avg /\ is_finite avg = true /\
    Rabs (B2R avg - sumR (map B2R l) / INR (length l)) <= (INR (length l) + 4) * (bpow radix2 (-53) * M + bpow radix2 (-1075)).
Proof.
  intros Hl Hz HM Hb; destruct (avg_accuracy_inv M l Hl Hz HM Hb) as (F & _ & E).
  exists (s_avg (from_iter f64ops l)); split; auto.
  unfold st_avg; rewrite from_iter_count; destruct l; [congruence|reflexivity].
Qed.

(** ** The variance *)

(** The sum of squared deviations. *)
Definition devs (l : list f64) : R := sumR (map (fun x => (B2R x - mean l) * (B2R x - mean l)) l).

Lemma devs_snoc l (x : f64) : l <> [] ->
  devs (l ++ [x]) = devs l + (B2R x - mean l) * (B2R x - mean (l ++ [x])).
Proof.
  intros Hl; unfold devs.
  assert (Hexp : forall (k : list f64) (m : R), sumR (map (fun x => (B2R x - m) * (B2R x - m)) k) =
    sumR (map (fun x => B2R x * B2R x) k) - 2 * m * sumR (map B2R k) + INR (length k) * (m * m)).
  { induction k as [|y t IH]; intros m; [cbn [map sumR length INR]; ring|].
    cbn [map sumR length]; rewrite IH, S_INR; ring. }
  rewrite !Hexp, !map_app, !sumR_app, app_length, mean_snoc by auto; cbn [map sumR length].
  assert (H1 : 1 <= INR (length l)) by (destruct l; [congruence|]; cbn [length]; rewrite S_INR; pose proof (pos_INR (length l)); lra).
  unfold mean; rewrite Nat.add_1_r, S_INR; unfold f64 in *; field; lra.
Qed.

Lemma mean_abs (M : R) (l : list f64) : l <> [] -> (forall x, In x l -> Rabs (B2R x) <= M) -> Rabs (mean l) <= M.
Proof.
  intros Hl Hb; unfold mean.
  assert (H1 : 1 <= INR (length l)) by (destruct l; [congruence|]; cbn [length]; rewrite S_INR; pose proof (pos_INR (length l)); lra).
  assert (Hs : Rabs (sumR (map B2R l)) <= INR (length l) * M).
  { clear Hl H1; induction l as [|x t IH]; [cbn [map sumR length INR]; rewrite Rabs_R0; lra|].
    cbn [map sumR length]; rewrite S_INR; eapply Rle_trans; [apply Rabs_triang|].
    assert (Rabs (B2R x) <= M) by (apply Hb; left; auto).
    assert (Rabs (sumR (map B2R t)) <= INR (length t) * M) by (apply IH; intros; apply Hb; right; auto). lra. }
  unfold Rdiv; rewrite Rabs_mult, (Rabs_pos_eq (/ _)) by (left; apply Rinv_0_lt_compat; lra).
  apply Rmult_le_reg_r with (INR (length l)); [lra|]; rewrite Rmult_assoc, Rinv_l by lra; lra.
Qed.

Lemma fsub_close (x a : f64) (m M e : R) : is_finite x = true -> is_finite a = true ->
  Rabs (B2R x) <= M -> Rabs (B2R a) <= M -> M <= bpow radix2 480 -> Rabs (B2R a - m) <= e ->
  is_finite (fsub x a) = true /\ Rabs (B2R (fsub x a)) <= 5 / 2 * M /\
  Rabs (B2R (fsub x a) - (B2R x - m)) <= e + 2 * (uu * M).
Proof.
  intros Fx Fa Hx Ha HM He; pose proof uu_pos; pose proof uu_small; pose proof (Rabs_pos (B2R x)).
  assert (Hd : Rabs (B2R x + - B2R a) <= 2 * M) by (apply Rabs_le_inv in Hx; apply Rabs_le_inv in Ha; apply Rabs_le; lra).
  destruct (fsub_correct x a Fx Fa) as (_ & _ & Fd & Vd).
  assert (F : is_finite (fsub x a) = true).
  { apply Fd, rnd_lt_big; apply Rle_trans with (1 := Hd); apply Rle_trans with (bpow radix2 1 * bpow radix2 480).
    - rewrite bpow_1; cbn [radix_val radix2]; lra.
    - rewrite <- bpow_plus; apply bpow_le; lia. }
  specialize (Vd F).
  pose proof (rnd_plus_error (B2R x) (- B2R a) (B2R_isfloat x) (generic_format_opp _ _ _ (B2R_isfloat a))) as E.
  change (B2R x + - B2R a) with (B2R x - B2R a) in *; rewrite <- Vd in E.
  assert (E' : Rabs (B2R (fsub x a) - (B2R x - B2R a)) <= 2 * (uu * M)).
  { apply Rle_trans with (1 := E); assert (uu * Rabs (B2R x - B2R a) <= uu * (2 * M)) by (apply Rmult_le_compat_l; lra); lra. }
  split; auto; split.
  - assert (0 <= M) by lra; assert (uu * M <= / 1024 * M) by (apply Rmult_le_compat_r; lra).
    apply Rabs_le_inv in E'; apply Rabs_le_inv in Hd; apply Rabs_le; lra.
  - apply Rabs_le_inv in E'; apply Rabs_le_inv in He; apply Rabs_le; lra.
Qed.

(** One step of the sum of squares. *)
Lemma ss_step (ss d f : f64) (S0 E0 dm fm M e : R) (k : nat) :
  is_finite ss = true -> is_finite d = true -> is_finite f = true ->
  few (S k) -> 0 <= M <= bpow radix2 480 ->
  let Q := 7 * (M * M) + 2 * eta in
  Rabs (B2R ss) <= grow k * (INR k * Q) ->
  Rabs (B2R d) <= 5 / 2 * M -> Rabs (B2R f) <= 5 / 2 * M -> Rabs fm <= 2 * M ->
  Rabs (B2R d - dm) <= e -> Rabs (B2R f - fm) <= e -> Rabs (B2R ss - S0) <= E0 ->
  let ss' := fadd ss (fmul d f) in
  is_finite ss' = true /\ Rabs (B2R ss') <= grow (S k) * (INR (S k) * Q) /\
  Rabs (B2R ss' - (S0 + dm * fm)) <= E0 + 9 / 2 * M * e + 25 / 4 * (uu * (M * M)) + eta + uu * (3 / 2 * (INR (S k) * Q)).
Proof.
  intros Fs Fd Ff Hk [HM0 HM] Q Bs Bd Bf Bm Ed Ef Es ss'.
  pose proof uu_pos; pose proof uu_small; pose proof eta_pos.
  assert (Heta : eta <= / 1024) by (apply Rle_trans with (bpow radix2 (-10)); [apply bpow_le; lia|unfold bpow; cbn; lra]).
  assert (HMM : 0 <= M * M <= bpow radix2 960).
  { split; [apply Rmult_le_pos; lra|]; change 960%Z with (480 + 480)%Z; rewrite bpow_plus; apply Rmult_le_compat; lra. }
  assert (Bdf : Rabs (B2R d * B2R f) <= 25 / 4 * (M * M)).
  { rewrite Rabs_mult; replace (25 / 4 * (M * M)) with (5 / 2 * M * (5 / 2 * M)) by field.
    apply Rmult_le_compat; auto; apply Rabs_pos. }
  assert (H960 : 1024 * bpow radix2 960 = bpow radix2 970) by (change 970%Z with (10 + 960)%Z; rewrite bpow_plus; reflexivity).
  assert (H0960 : 1 <= bpow radix2 960) by (change 1 with (bpow radix2 0); apply bpow_le; lia).
  assert (H970 : bpow radix2 970 <= bpow radix2 1023) by (apply bpow_le; lia).
  destruct (fmul_correct d f Fd Ff) as (_ & _ & Fp & Vp).
  assert (Fq : is_finite (fmul d f) = true) by (apply Fp, rnd_lt_big; lra).
  specialize (Vp Fq); set (p := fmul d f) in *.
  assert (Ep : Rabs (B2R p - B2R d * B2R f) <= 25 / 4 * (uu * (M * M)) + eta).
  { rewrite Vp; eapply Rle_trans; [apply rnd_error_abs|].
    assert (uu * Rabs (B2R d * B2R f) <= uu * (25 / 4 * (M * M))) by (apply Rmult_le_compat_l; lra); lra. }
  assert (HuM : uu * (M * M) <= / 1024 * (M * M)) by (apply Rmult_le_compat_r; lra).
  assert (Bp : Rabs (B2R p) <= Q).
  { unfold Q; apply Rabs_le_inv in Ep; apply Rabs_le_inv in Bdf; apply Rabs_le; lra. }
  assert (HQ : 0 < Q) by (unfold Q; lra).
  pose proof (grow_1 k) as G1; pose proof (grow_2 k (few_le k (S k) ltac:(lia) Hk)) as G2; pose proof (grow_S k Hk) as GS.
  pose proof (pos_INR k) as Hk0.
  assert (HkQ : 0 <= INR k * Q) by (apply Rmult_le_pos; lra).
  assert (Bsp : Rabs (B2R ss + B2R p) <= grow k * (INR (S k) * Q)).
  { eapply Rle_trans; [apply Rabs_triang|]; rewrite S_INR.
    assert (Q <= grow k * Q) by (rewrite <- (Rmult_1_l Q) at 1; apply Rmult_le_compat_r; lra). lra. }
  assert (HSQ : 0 <= INR (S k) * Q) by (rewrite S_INR; lra).
  assert (Bsp' : Rabs (B2R ss + B2R p) <= 3 / 2 * (INR (S k) * Q)).
  { apply Rle_trans with (1 := Bsp); apply Rmult_le_compat_r; auto. }
  destruct (fadd_correct ss p Fs Fq) as (_ & _ & Fa & Va); fold ss' in Fa, Va.
  assert (F : is_finite ss' = true).
  { apply Fa, rnd_lt_big; apply Rle_trans with (1 := Bsp').
    assert (Hkb : INR (S k) <= bpow radix2 51).
    { unfold few in Hk; apply Rmult_le_reg_r with uu; auto; apply Rle_trans with (1 := Hk).
      rewrite <- bpow_plus; change (bpow radix2 (51 + -53)) with (/ 4); lra. }
    assert (HQb : Q <= bpow radix2 970) by (unfold Q; lra).
    assert (HkQb : INR (S k) * Q <= bpow radix2 51 * bpow radix2 970) by (apply Rmult_le_compat; try lra; apply pos_INR).
    rewrite <- bpow_plus in HkQb; change (51 + 970)%Z with 1021%Z in HkQb.
    assert (4 * bpow radix2 1021 = bpow radix2 1023) by (change 1023%Z with (2 + 1021)%Z; rewrite bpow_plus; reflexivity).
    pose proof (bpow_gt_0 radix2 1021); lra. }
  specialize (Va F); split; auto.
  pose proof (rnd_plus_error (B2R ss) (B2R p) (B2R_isfloat ss) (B2R_isfloat p)) as Er; rewrite <- Va in Er.
  split.
  - assert (uu * Rabs (B2R ss + B2R p) <= uu * (grow k * (INR (S k) * Q))) by (apply Rmult_le_compat_l; lra).
    assert (grow k * (1 + uu) * (INR (S k) * Q) <= grow (S k) * (INR (S k) * Q)) by (apply Rmult_le_compat_r; lra).
    pose proof (Rabs_triang (B2R ss' - (B2R ss + B2R p)) (B2R ss + B2R p)) as T.
    replace (B2R ss' - (B2R ss + B2R p) + (B2R ss + B2R p)) with (B2R ss') in T by ring. lra.
  - assert (Er' : Rabs (B2R ss' - (B2R ss + B2R p)) <= uu * (3 / 2 * (INR (S k) * Q))).
    { apply Rle_trans with (1 := Er); apply Rmult_le_compat_l; lra. }
    assert (Edf : Rabs (B2R d * B2R f - dm * fm) <= 9 / 2 * M * e).
    { replace (B2R d * B2R f - dm * fm) with (B2R d * (B2R f - fm) + fm * (B2R d - dm)) by ring.
      eapply Rle_trans; [apply Rabs_triang|]; rewrite !Rabs_mult.
      assert (Rabs (B2R d) * Rabs (B2R f - fm) <= 5 / 2 * M * e) by (apply Rmult_le_compat; auto; apply Rabs_pos).
      assert (Rabs fm * Rabs (B2R d - dm) <= 2 * M * e) by (apply Rmult_le_compat; auto; apply Rabs_pos). lra. }
    apply Rabs_le_inv in Er'; apply Rabs_le_inv in Ep; apply Rabs_le_inv in Edf; apply Rabs_le_inv in Es; apply Rabs_le; lra.
Qed.

Lemma var_inv (M : R) (l : list f64) : l <> [] -> (Z.of_nat (length l) <= 2 ^ 51)%Z -> M <= bpow radix2 480 ->
  (forall x, In x l -> is_finite x = true /\ Rabs (B2R x) <= M) ->
  let ss := s_sum_squared (from_iter f64ops l) in
  let n := INR (length l) in
  is_finite ss = true /\ Rabs (B2R ss) <= grow (length l) * (n * (7 * (M * M) + 2 * eta)) /\
  Rabs (B2R ss - devs l) <= (n - 1) * ((15 * n + 34) * (M * (uu * M + eta)) + 2 * eta).
Proof.
  intros Hl Hz HM; revert Hl Hz; induction l as [|x l IH] using rev_ind; [congruence|]; intros _ Hz Hb.
  assert (Hxb : is_finite x = true /\ Rabs (B2R x) <= M) by (apply Hb, in_or_app; cbn; auto); destruct Hxb as [Fx Bx].
  pose proof uu_pos; pose proof uu_small; pose proof eta_pos; pose proof (Rabs_pos (B2R x)).
  assert (HM0 : 0 <= M) by lra.
  assert (HMM : 0 <= M * M) by (apply Rmult_le_pos; lra).
  assert (HMb : M <= bnd) by (apply Rle_trans with (1 := HM); apply bpow_le; lia).
  destruct l as [|y l'].
  { cbn [app from_iter from_iter_loop s_sum_squared length INR n_zero f64ops]; change (B2R f0) with 0; split; auto.
    rewrite Rabs_R0; split.
    - pose proof (grow_1 1); apply Rmult_le_pos; lra.
    - unfold devs, mean; cbn [map sumR length INR].
      replace (0 - ((B2R x - (B2R x + 0) / 1) * (B2R x - (B2R x + 0) / 1) + 0)) with 0 by field; rewrite Rabs_R0; lra. }
  remember (y :: l') as l eqn:El; assert (Hne : l <> []) by (subst; discriminate); clear El y l'.
  assert (Hb' : forall z, In z l -> is_finite z = true /\ Rabs (B2R z) <= M) by (intros; apply Hb, in_or_app; auto).
  assert (Hlen : length (l ++ [x]) = S (length l)) by (rewrite app_length; cbn [length]; lia).
  destruct (avg_accuracy_inv M l Hne ltac:(lia) HMb Hb') as (Fa & Ba & Ea).
  destruct (avg_accuracy_inv M (l ++ [x]) ltac:(destruct l; discriminate) ltac:(lia) HMb Hb) as (Fa' & Ba' & Ea').
  cbv zeta in *; specialize (IH Hne ltac:(lia) Hb'); destruct IH as (Fs & Bs & Es).
  rewrite Hlen in *.
  rewrite devs_snoc by auto; rewrite from_iter_snoc in *; set (s := from_iter f64ops l) in *.
  assert (Hc : s_count s = length l) by apply from_iter_count.
  assert (Hl : (1 <= length l)%nat) by (destruct l; [congruence|cbn; lia]).
  assert (HL : 1 <= INR (length l)) by (apply (le_INR 1); auto).
  set (B := uu * M + eta) in *.
  assert (HB : 0 < B /\ uu * M <= B) by (unfold B; split; [pose proof (Rmult_le_pos uu M); lra|lra]).
  assert (Eavg : exists a', s_avg (record f64ops s x) = a' /\
    s_sum_squared (record f64ops s x) = fadd (s_sum_squared s) (fmul (fsub x (s_avg s)) (fsub x a'))).
  { unfold record; rewrite Hc, (proj2 (Nat.eqb_neq _ _)) by lia; cbn [negb].
    destruct (n_ltb f64ops x (s_min s)); destruct (n_ltb f64ops (s_max s) x); cbn [s_avg s_sum_squared]; eexists; split; reflexivity. }
  destruct Eavg as (a' & Eq1 & Eq2); rewrite Eq1 in *; rewrite Eq2; clear Eq1 Eq2.
  destruct (fsub_close x (s_avg s) (mean l) M _ Fx Fa Bx Ba HM Ea) as (Fd & Bd & Ed).
  destruct (fsub_close x a' (mean (l ++ [x])) M _ Fx Fa' Bx Ba' HM Ea') as (Ff & Bf & Ef).
  assert (Hm : Rabs (B2R x - mean (l ++ [x])) <= 2 * M).
  { assert (Hma : Rabs (mean (l ++ [x])) <= M) by (apply mean_abs; [destruct l; discriminate|intros z Hz'; apply Hb; auto]).
    apply Rabs_le_inv in Hma; apply Rabs_le_inv in Bx; apply Rabs_le; lra. }
  rewrite S_INR in *; set (n := INR (length l)) in *.
  assert (Hfew : few (S (length l))).
  { unfold few; rewrite INR_IZR_INZ; apply IZR_le in Hz; change (IZR (2 ^ 51)) with (bpow radix2 51) in Hz.
    apply Rle_trans with (bpow radix2 51 * uu); [apply Rmult_le_compat_r; lra|].
    rewrite <- bpow_plus; change (bpow radix2 (51 + -53)) with (/ 4); lra. }
  pose proof (Rmult_le_compat_r B n (n + 1)).
  destruct (ss_step (s_sum_squared s) (fsub x (s_avg s)) (fsub x a') (devs l)
     ((n - 1) * ((15 * n + 34) * (M * B) + 2 * eta)) (B2R x - mean l) (B2R x - mean (l ++ [x])) M ((n + 7) * B) (length l))
    as (R1 & R2 & R3); auto; try lra.
  split; auto; split; [rewrite S_INR in R2; auto|].
  apply Rle_trans with (1 := R3); rewrite S_INR; fold n.
  assert (HMB : 0 <= M * B) by (apply Rmult_le_pos; lra).
  assert (HuMM : 0 <= uu * (M * M) <= M * B).
  { split; [apply Rmult_le_pos; lra|]; replace (uu * (M * M)) with (M * (uu * M)) by ring; apply Rmult_le_compat_l; lra. }
  assert (Hnu : (n + 1) * uu <= / 4) by (unfold few in Hfew; rewrite S_INR in Hfew; exact Hfew).
  assert (Hne1 : (n + 1) * uu * eta <= / 4 * eta) by (apply Rmult_le_compat_r; lra).
  assert (Hn1 : (n + 1) * (uu * (M * M)) <= (n + 1) * (M * B)) by (apply Rmult_le_compat_l; lra).
  assert (Hn2 : 0 <= n * (M * B)) by (apply Rmult_le_pos; lra).
  replace ((n + 1 - 1) * ((15 * (n + 1) + 34) * (M * B) + 2 * eta)) with
    ((n - 1) * ((15 * n + 34) * (M * B) + 2 * eta) + (n - 1) * 15 * (M * B) + (15 * (n + 1) + 34) * (M * B) + 2 * eta) by ring.
  assert (0 <= (n - 1) * 15 * (M * B)) by (apply Rmult_le_pos; [lra|auto]).
  replace (9 / 2 * M * ((n + 7) * B)) with (9 / 2 * (n * (M * B)) + 63 / 2 * (M * B)) by field.
  replace (uu * (3 / 2 * ((n + 1) * (7 * (M * M) + 2 * eta)))) with
    (21 / 2 * ((n + 1) * (uu * (M * M))) + 3 * ((n + 1) * uu * eta)) by field.
  lra.
Qed.

Lemma var_accuracy (l : list f64) (M : R) : (2 <= length l)%nat -> (Z.of_nat (length l) <= 2 ^ 51)%Z -> M <= bpow radix2 480 ->
  (forall x, In x l -> is_finite x = true /\ Rabs (B2R x) <= M) ->
  let n := INR (length l) in
  let m := sumR (map B2R l) / n in
  exists var, st_var f64ops (from_iter f64ops l) = Some var /\ is_finite var = true /\
    Rabs (B2R var - sumR (map (fun x => (B2R x - m) * (B2R x - m)) l) / (n - 1))
      <= 16 * (n + 4) * (bpow radix2 (-53) * (M * M) + bpow radix2 (-1075) * (M + 1)).
Proof.
  intros Hl Hz HM Hb n m.
  assert (Hne : l <> []) by (destruct l; [cbn in Hl; lia|discriminate]).
  destruct (var_inv M l Hne Hz HM Hb) as (F & Bs & E); fold n in Bs, E.
  change (sumR (map (fun x => (B2R x - m) * (B2R x - m)) l)) with (devs l).
  set (ss := s_sum_squared (from_iter f64ops l)) in *.
  assert (Hn : 2 <= n) by (apply (le_INR 2); auto).
  pose proof uu_pos; pose proof uu_small; pose proof eta_pos.
  assert (HM0 : 0 <= M).
  { destruct l as [|x t]; [congruence|]; destruct (Hb x (or_introl eq_refl)) as [_ Hx]; pose proof (Rabs_pos (B2R x)); lra. }
  assert (Vc : is_finite (f_of_nat (length l - 1)) = true /\ B2R (f_of_nat (length l - 1)) = n - 1).
  { destruct (f_of_nat_small (length l - 1)) as [A1 A2]; [lia|]; split; auto; rewrite A2, minus_INR by lia; reflexivity. }
  destruct Vc as [Fc Vc].
  assert (Ev : st_var f64ops (from_iter f64ops l) = Some (fdiv ss (f_of_nat (length l - 1)))).
  { unfold st_var; rewrite from_iter_count; destruct l as [|x [|y t]]; cbn in Hl; try lia; reflexivity. }
  exists (fdiv ss (f_of_nat (length l - 1))); split; auto.
  assert (Hc0 : B2R (f_of_nat (length l - 1)) <> 0) by lra.
  destruct (fdiv_correct ss (f_of_nat (length l - 1)) F Hc0) as (_ & _ & Fq & Vq); rewrite Vc in *.
  assert (Hi : 0 < / (n - 1) <= 1) by (split; [apply Rinv_0_lt_compat; lra|rewrite <- Rinv_1; apply Rinv_le; lra]).
  assert (Hq : Rabs (B2R ss / (n - 1)) <= Rabs (B2R ss)).
  { unfold Rdiv; rewrite Rabs_mult, (Rabs_pos_eq (/ (n - 1))) by lra.
    rewrite <- (Rmult_1_r (Rabs (B2R ss))) at 2; apply Rmult_le_compat_l; [apply Rabs_pos|lra]. }
  assert (FF : is_finite (fdiv ss (f_of_nat (length l - 1))) = true).
  { apply Fq; pose proof (B2R_bound ss).
    assert (Hr : Rabs (B2R ss) <= Rabs (rnd (B2R ss))) by (rewrite rnd_float by apply B2R_isfloat; lra).
    assert (G : Rabs (rnd (B2R ss / (n - 1))) <= Rabs (B2R ss)).
    { rewrite <- (rnd_float (Rabs (B2R ss))) by apply generic_format_abs, B2R_isfloat.
      apply Rabs_le; apply Rabs_le_inv in Hq; rewrite <- rnd_opp; split; apply rnd_mono; lra. }
    apply Rabs_le_inv in G; assert (Rabs (B2R ss) < big) by (apply Rabs_def1; lra); lra. }
  split; auto; rewrite (Vq FF).
  set (B := uu * M + eta) in *.
  assert (HMM : 0 <= M * M) by (apply Rmult_le_pos; lra).
  set (Q := 7 * (M * M) + 2 * eta) in *.
  assert (HQ : 0 < Q) by (unfold Q; lra).
  assert (Hfew : few (length l)).
  { unfold few; rewrite INR_IZR_INZ; apply IZR_le in Hz; change (IZR (2 ^ 51)) with (bpow radix2 51) in Hz.
    apply Rle_trans with (bpow radix2 51 * uu); [apply Rmult_le_compat_r; lra|].
    rewrite <- bpow_plus; change (bpow radix2 (51 + -53)) with (/ 4); lra. }
  pose proof (grow_2 _ Hfew) as G2.
  assert (Hnn : n * / (n - 1) <= 2).
  { apply Rmult_le_reg_r with (n - 1); [lra|]; rewrite Rmult_assoc, Rinv_l by lra; lra. }
  assert (Hss : Rabs (B2R ss / (n - 1)) <= 3 * Q).
  { unfold Rdiv; rewrite Rabs_mult, (Rabs_pos_eq (/ (n - 1))) by lra.
    assert (Hnq : 0 <= n * Q) by (apply Rmult_le_pos; lra).
    assert (grow (length l) * (n * Q) <= 3 / 2 * (n * Q)) by (apply Rmult_le_compat_r; lra).
    apply Rle_trans with (3 / 2 * (n * Q) * / (n - 1)); [apply Rmult_le_compat_r; lra|].
    replace (3 / 2 * (n * Q) * / (n - 1)) with (3 / 2 * Q * (n * / (n - 1))) by ring.
    apply Rle_trans with (3 / 2 * Q * 2); [apply Rmult_le_compat_l; lra|lra]. }
  assert (E1 : Rabs (rnd (B2R ss / (n - 1)) - B2R ss / (n - 1)) <= uu * (3 * Q) + eta).
  { eapply Rle_trans; [apply rnd_error_abs|]; apply Rplus_le_compat_r, Rmult_le_compat_l; lra. }
  assert (E2 : Rabs (B2R ss / (n - 1) - devs l / (n - 1)) <= (15 * n + 34) * (M * B) + 2 * eta).
  { unfold Rdiv; rewrite <- Rmult_minus_distr_r, Rabs_mult, (Rabs_pos_eq (/ (n - 1))) by lra.
    apply Rmult_le_reg_r with (n - 1); [lra|]; rewrite Rmult_assoc, Rinv_l by lra; rewrite Rmult_1_r, (Rmult_comm _ (n - 1)); auto. }
  replace (rnd (B2R ss / (n - 1)) - devs l / (n - 1)) with
    ((rnd (B2R ss / (n - 1)) - B2R ss / (n - 1)) + (B2R ss / (n - 1) - devs l / (n - 1))) by ring.
  eapply Rle_trans; [apply Rabs_triang|]; eapply Rle_trans; [apply Rplus_le_compat; [apply E1|apply E2]|].
  assert (EMB : M * B = uu * (M * M) + eta * M) by (unfold B; ring).
  rewrite EMB; unfold Q.
  assert (K1 : 0 <= uu * (M * M)) by (apply Rmult_le_pos; lra).
  assert (K2 : 0 <= eta * M) by (apply Rmult_le_pos; lra).
  assert (K3 : uu * eta <= / 1024 * eta) by (apply Rmult_le_compat_r; lra).
  assert (K4 : 0 <= n * (uu * (M * M))) by (apply Rmult_le_pos; lra).
  assert (K5 : 0 <= n * (eta * M)) by (apply Rmult_le_pos; lra).
  assert (K6 : 0 <= n * eta) by (apply Rmult_le_pos; lra).
  lra.
Qed.

Lemma accuracy_example :
  let l := [f1; f2; f4] in
  (forall x, In x l -> is_finite x = true /\ Rabs (B2R x) <= 4) /\ 4 <= bpow radix2 480 /\
  sumR (map B2R l) = 7 /\
  match st_avg (from_iter f64ops l) with Some a => feq a (f_lit 7 3) | None => false end = true.
Proof.
  destruct f1_val as [F1 V1], f2_val as [F2 V2], f4_val as [F4 V4].
  split; [|split; [change 4 with (bpow radix2 2); apply bpow_le; lia|split; [|vm_compute; reflexivity]]].
  - cbn [In]; intros x [<-|[<-|[<-|[]]]]; split; auto; rewrite ?V1, ?V2, ?V4, Rabs_pos_eq; lra.
  - cbn [map sumR]; rewrite V1, V2, V4; lra.
Qed.
