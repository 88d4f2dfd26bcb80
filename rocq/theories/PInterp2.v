(** * PInterp2: interpolate_usize in general (C105). *)
From Coq Require Import List Bool Arith NArith ZArith Reals Lia Lra.
From Flocq Require Import Core Relative BinarySingleNaN.
From Verif Require Import Rnd LRnd F64 LF64 MStats MPopulation MSelection MModel MAlgorithms MWord SpecF SpecA PSelection PLinear PInterp.
Import ListNotations.
Open Scope R_scope.

(** The float that interpolate_usize truncates *)
Lemma inner_val (a : nat) (d : Z) ratio : (Z.of_nat a <= usize_max)%Z -> (0 <= d <= 2 ^ 64)%Z ->
  is_finite ratio = true -> 0 <= B2R ratio <= 1 ->
  let v := fadd (f_of_nat a) (fmul (f_of_Z d) ratio) in
  is_finite v = true /\ B2R v = rnd (rnd (INR a) + rnd (rnd (IZR d) * B2R ratio)).
Proof.
  intros Ha Hd Fr Hr v; destruct (f_of_nat_finite a Ha) as [Fa Va]; destruct (f_of_Z_finite d) as [Fd Vd]; [lia|].
  assert (Ba : 0 <= rnd (INR a) <= bpow radix2 64).
  { split; [apply rnd_pos, pos_INR|]; apply rnd_le_float; [apply isfloat_bpow; lia|].
    rewrite INR_IZR_INZ; change (bpow radix2 64) with (IZR (2 ^ 64)); apply IZR_le; unfold usize_max in Ha; lia. }
  assert (Bd : 0 <= rnd (IZR d) <= bpow radix2 64).
  { split; [apply rnd_pos, IZR_le; lia|]; apply rnd_le_float; [apply isfloat_bpow; lia|].
    change (bpow radix2 64) with (IZR (2 ^ 64)); apply IZR_le; lia. }
  assert (Bp : 0 <= rnd (IZR d) * B2R ratio <= bpow radix2 64) by nra.
  destruct (in_range _ _ (fmul_correct _ _ Fd Fr)) as [Fm Vm].
  { rewrite Vd; apply (le_1023 _ 64); [lia|]; rewrite Rabs_pos_eq; lra. }
  rewrite Vd in Vm.
  assert (Bm : 0 <= rnd (rnd (IZR d) * B2R ratio) <= bpow radix2 64).
  { split; [apply rnd_pos; lra|]; apply rnd_le_float; [apply isfloat_bpow; lia|lra]. }
  destruct (in_range _ _ (fadd_correct _ _ Fa Fm)) as [Fs Vs].
  { rewrite Va, Vm; apply (le_1023 _ 65); [lia|]; change 65%Z with (64 + 1)%Z; rewrite bpow_plus; change (bpow radix2 1) with 2; rewrite Rabs_pos_eq; lra. }
  rewrite Va, Vm in Vs; split; [exact Fs|exact Vs].
Qed.

Lemma inner_mono (a : nat) (d : Z) r1 r2 : (0 <= d)%Z -> r1 <= r2 ->
  rnd (rnd (INR a) + rnd (rnd (IZR d) * r1)) <= rnd (rnd (INR a) + rnd (rnd (IZR d) * r2)).
Proof.
  intros Hd H; apply rnd_mono, Rplus_le_compat_l, rnd_mono, Rmult_le_compat_l; auto; apply rnd_pos, IZR_le; auto.
Qed.

Lemma trunc_mono x y : is_finite x = true -> is_finite y = true -> B2R x <= B2R y -> (f_to_usize x <= f_to_usize y)%nat.
Proof.
  intros Fx Fy H; rewrite !f_to_usize_val by auto; pose proof (Ztrunc_le _ _ H).
  assert (G : forall p q, (p <= q)%Z -> (Z.to_nat p <= Z.to_nat q)%nat) by (intros; lia); apply G; lia.
Qed.

Section Small.
Context (mn mx : nat) (ratio : f64).
Hypothesis Hle : (mn <= mx)%nat.
Hypothesis Hmx : (Z.of_nat mx <= 2 ^ 53)%Z.
Hypothesis Fr : is_finite ratio = true.
Hypothesis Hr : 0 <= B2R ratio <= 1.
Let x := INR mn + INR (mx - mn) * B2R ratio.
Let v := fadd (f_of_nat mn) (fmul (f_of_nat (mx - mn)) ratio).

Lemma small_val : is_finite v = true /\ B2R v = rnd (INR mn + rnd (INR (mx - mn) * B2R ratio)).
Proof.
  destruct (inner_val mn (Z.of_nat (mx - mn)) ratio) as [F V]; auto; [unfold usize_max; lia|lia|].
  split; [exact F|]; unfold v; unfold f_of_nat at 2; rewrite V, <- INR_IZR_INZ.
  rewrite (rnd_float (INR mn)), (rnd_float (INR (mx - mn))); auto; rewrite INR_IZR_INZ; apply isfloat_IZR; lia.
Qed.

Lemma between (k : Z) : (Z.of_nat mn <= k <= Z.of_nat mx)%Z ->
  (IZR k <= x -> IZR k <= B2R v) /\ (x <= IZR k -> B2R v <= IZR k).
Proof.
  intros Hk; destruct small_val as [_ V]; rewrite V; unfold x.
  assert (Fk : isfloat (IZR k)) by (apply isfloat_IZR; lia).
  assert (Fd : isfloat (IZR (k - Z.of_nat mn))) by (apply isfloat_IZR; lia).
  assert (E : IZR (k - Z.of_nat mn) = IZR k - INR mn) by (rewrite minus_IZR, INR_IZR_INZ; auto).
  split; intros H.
  - apply rnd_ge_float; auto; assert (IZR (k - Z.of_nat mn) <= rnd (INR (mx - mn) * B2R ratio)) by (apply rnd_ge_float; auto; lra); lra.
  - apply rnd_le_float; auto; assert (rnd (INR (mx - mn) * B2R ratio) <= IZR (k - Z.of_nat mn)) by (apply rnd_le_float; auto; lra); lra.
Qed.

Lemma x_range : INR mn <= x <= INR mx.
Proof. unfold x; assert (INR mx = INR mn + INR (mx - mn)) as -> by (rewrite <- plus_INR; f_equal; lia); pose proof (pos_INR (mx - mn)); nra. Qed.

Lemma usize_small : interpolate_usize mn mx ratio = Ret (f_to_usize v) /\
  (mn <= f_to_usize v <= mx)%nat /\ (Zfloor x <= Z.of_nat (f_to_usize v) <= Zfloor x + 1)%Z /\
  (B2R ratio = 0 -> f_to_usize v = mn) /\ (B2R ratio = 1 -> f_to_usize v = mx).
Proof.
  split; [unfold interpolate_usize; rewrite (proj2 (Nat.leb_le _ _) Hle); reflexivity|].
  pose proof x_range as Hx; rewrite !INR_IZR_INZ in Hx; destruct small_val as [F _].
  assert (L : (Z.of_nat mn <= Zfloor x)%Z) by (apply Zfloor_lub; lra).
  assert (U : (Zfloor x <= Z.of_nat mx)%Z) by (apply le_IZR; eapply Rle_trans; [apply Zfloor_lb|lra]).
  pose proof (Zfloor_lb x) as Hlb; pose proof (Zfloor_ub x) as Hub.
  assert (A1 : IZR (Zfloor x) <= B2R v) by (apply between; [lia|auto]).
  assert (A2 : B2R v <= IZR (Z.min (Zfloor x + 1) (Z.of_nat mx))).
  { apply between; [lia|]; destruct (Z.min_spec (Zfloor x + 1) (Z.of_nat mx)) as [[_ ->]|[_ ->]]; [rewrite plus_IZR; lra|lra]. }
  assert (E : Z.of_nat (f_to_usize v) = Zfloor (B2R v)).
  { assert (N0 : 0 <= B2R v) by (apply Rle_trans with (2 := A1); apply IZR_le; lia).
    rewrite f_to_usize_val by auto; rewrite Ztrunc_floor by auto.
    assert (Zfloor (B2R v) <= Z.of_nat mx)%Z by (apply le_IZR; eapply Rle_trans; [apply Zfloor_lb|]; eapply Rle_trans; [exact A2|]; apply IZR_le; lia).
    assert (0 <= Zfloor (B2R v))%Z by (apply Zfloor_lub; exact N0); unfold usize_max; lia. }
  assert (B1 : (Zfloor x <= Zfloor (B2R v))%Z) by (apply Zfloor_lub; auto).
  assert (B2 : (Zfloor (B2R v) <= Z.min (Zfloor x + 1) (Z.of_nat mx))%Z) by (apply le_IZR; eapply Rle_trans; [apply Zfloor_lb|auto]).
  split; [lia|]; split; [lia|]; split; intros H.
  - assert (Ex : x = IZR (Z.of_nat mn)) by (unfold x; rewrite H, INR_IZR_INZ; lra).
    assert (B2R v <= IZR (Z.of_nat mn)) by (apply between; [lia|lra]).
    assert (Zfloor (B2R v) <= Z.of_nat mn)%Z by (apply le_IZR; eapply Rle_trans; [apply Zfloor_lb|auto]); lia.
  - assert (Ex : x = IZR (Z.of_nat mx)) by (unfold x; rewrite H, <- INR_IZR_INZ, Rmult_1_r, <- plus_INR; f_equal; lia).
    rewrite Ex, Zfloor_IZR in *; lia.
Qed.
End Small.

(** Rounding twice adds a relative error of at most 2^-51 to numbers above 1/2. *)
Lemma rnd_up y : / 2 <= y -> rnd y <= y * (1 + bpow radix2 (-53)).
Proof.
  intros Hy; destruct (relative_error_N_FLT_ex radix2 (-1074) 53 ltac:(lia) (fun t => negb (Z.even t)) y) as (eps & He & E).
  - rewrite Rabs_pos_eq by lra; apply Rle_trans with (bpow radix2 (-1)); [apply bpow_le; lia|change (bpow radix2 (-1)) with (/ 2); lra].
  - change (FLT_exp (-1074) 53) with fexp64 in E; rewrite E.
    replace (/ 2 * bpow radix2 (- (53) + 1)) with (bpow radix2 (-53)) in He by (change (- (53) + 1)%Z with (1 + -53)%Z; rewrite bpow_plus; change (bpow radix2 1) with 2; lra).
    apply Rabs_le_inv in He; apply Rmult_le_compat_l; lra.
Qed.
Lemma rnd_up_any y : 0 <= y -> rnd y <= y * (1 + bpow radix2 (-53)) + bpow radix2 (-1074).
Proof.
  intros Hy; destruct (error_N_FLT radix2 (-1074) 53 ltac:(lia) (fun t => negb (Z.even t)) y) as (eps & eta & He & Ht & _ & E).
  change (FLT_exp (-1074) 53) with fexp64 in E; rewrite E.
  replace (/ 2 * bpow radix2 (- (53) + 1)) with (bpow radix2 (-53)) in He by (change (- (53) + 1)%Z with (1 + -53)%Z; rewrite bpow_plus; change (bpow radix2 1) with 2; lra).
  apply Rabs_le_inv in He; apply Rabs_le_inv in Ht; pose proof (bpow_gt_0 radix2 (-1074)).
  assert (y * (1 + eps) <= y * (1 + bpow radix2 (-53))) by (apply Rmult_le_compat_l; lra); lra.
Qed.

Lemma twice a p : 0 <= a -> 0 <= p -> isfloat a -> / 2 < a + p -> rnd (a + rnd p) <= (a + p) * (1 + bpow radix2 (-51)).
Proof.
  intros Ha Hp Fa H; pose proof (rnd_up_any p Hp) as E.
  assert (U : bpow radix2 (-51) = 4 * bpow radix2 (-53)) by (change (-51)%Z with (2 + -53)%Z; rewrite bpow_plus; reflexivity).
  assert (L : bpow radix2 (-1074) <= bpow radix2 (-53) * / 2) by (change (/ 2) with (bpow radix2 (-1)); rewrite <- bpow_plus; apply bpow_le; lia).
  assert (S1 : bpow radix2 (-53) <= / 4) by (change (/ 4) with (bpow radix2 (-2)); apply bpow_le; lia).
  pose proof (bpow_gt_0 radix2 (-53)) as P0; rewrite U; remember (bpow radix2 (-53)) as u eqn:Eu.
  set (x := a + p) in *.
  assert (Up : a + rnd p <= x * (1 + 2 * u)).
  { assert (bpow radix2 (-1074) <= u * x) by (eapply Rle_trans; [exact L|apply Rmult_le_compat_l; lra]); unfold x in *; nra. }
  apply Rle_trans with (rnd (x * (1 + 2 * u))); [apply rnd_mono; auto|].
  assert (x <= x * (1 + 2 * u)) by nra.
  eapply Rle_trans; [apply rnd_up; lra|]; rewrite <- Eu, Rmult_assoc; apply Rmult_le_compat_l; [lra|]; nra.
Qed.

Lemma usize_close mn mx ratio k : (mn <= mx)%nat -> (Z.of_nat mx <= 2 ^ 53)%Z -> rate ratio -> interpolate_usize mn mx ratio = Ret k ->
  INR k <= (INR mn + INR (mx - mn) * B2R ratio) * (1 + / 2 ^ 51).
Proof.
  intros Hle Hmx [F H] E; destruct (usize_small mn mx ratio Hle Hmx F H) as (E1 & _ & A & _); rewrite E in E1; injection E1 as ->.
  destruct (small_val mn mx ratio Hle Hmx F H) as [Fv V]; pose proof (x_range mn mx ratio Hle F H) as X || pose proof (x_range mn mx ratio Hle H) as X.
  set (v := fadd _ _) in *; set (p := INR (mx - mn) * B2R ratio) in *.
  assert (Hp : 0 <= p) by (unfold p; apply Rmult_le_pos; [apply pos_INR|lra]).
  pose proof (pos_INR mn) as Hmn; assert (Fmn : isfloat (INR mn)) by (rewrite INR_IZR_INZ; apply isfloat_IZR; lia).
  replace (/ 2 ^ 51) with (bpow radix2 (-51)) by (change (bpow radix2 (-51)) with (/ IZR (2 ^ 51)); rewrite (pow_IZR 2 51) || idtac; reflexivity).
  assert (V0 : 0 <= B2R v) by (rewrite V; apply rnd_pos; pose proof (rnd_pos p Hp); lra).
  assert (K : INR (f_to_usize v) <= B2R v).
  { rewrite INR_IZR_INZ, f_to_usize_val by auto; rewrite Ztrunc_floor by auto.
    assert (0 <= Zfloor (B2R v))%Z by (apply Zfloor_lub; auto).
    rewrite Z2Nat.id by (unfold usize_max; lia); eapply Rle_trans; [apply IZR_le, Z.le_min_l|apply Zfloor_lb]. }
  destruct (Rlt_le_dec (/ 2) (INR mn + p)) as [G|G].
  - eapply Rle_trans; [exact K|]; rewrite V; apply twice; auto.
  - assert (M0 : mn = 0%nat) by (destruct mn; auto; rewrite S_INR in *; pose proof (pos_INR mn); lra); subst mn; cbn [INR] in *.
    assert (B2R v <= / 2).
    { assert (Fh : isfloat (/ 2)) by (change (/ 2) with (bpow radix2 (-1)); apply isfloat_bpow; lia).
      rewrite V, Rplus_0_l; apply rnd_le_float; auto; apply rnd_le_float; auto; lra. }
    assert (f_to_usize v = 0%nat) as ->.
    { destruct (f_to_usize v) as [|j]; auto; rewrite S_INR in K; pose proof (pos_INR j); lra. }
    cbn [INR]; pose proof (bpow_gt_0 radix2 (-51)); nra.
Qed.

Lemma usize_in_range mn mx ratio : (mn <= mx)%nat -> (Z.of_nat mx <= 2 ^ 53)%Z -> rate ratio ->
  exists k, interpolate_usize mn mx ratio = Ret k /\ (mn <= k <= mx)%nat /\
    (Zfloor (INR mn + INR (mx - mn) * B2R ratio) <= Z.of_nat k)%Z /\
    INR k <= (INR mn + INR (mx - mn) * B2R ratio) * (1 + / 2 ^ 51) /\
    (B2R ratio = 0 -> k = mn) /\ (B2R ratio = 1 -> k = mx).
Proof.
  intros Hle Hmx Hr; pose proof Hr as [F H]; destruct (usize_small mn mx ratio Hle Hmx F H) as (E & A & [B _] & C).
  eexists; split; [exact E|]; split; [exact A|]; split; [exact B|]; split; [eapply usize_close; eauto|exact C].
Qed.

Lemma usize_mono mn mx r1 r2 k1 k2 : (mn <= mx)%nat -> fits_usize mx -> rate r1 -> rate r2 -> B2R r1 <= B2R r2 ->
  interpolate_usize mn mx r1 = Ret k1 -> interpolate_usize mn mx r2 = Ret k2 -> (k1 <= k2)%nat.
Proof.
  intros Hle Hf [F1 H1] [F2 H2] H E1 E2; unfold interpolate_usize in *; rewrite (proj2 (Nat.leb_le _ _) Hle) in *; cbn in E1, E2.
  injection E1 as <-; injection E2 as <-; unfold fits_usize in Hf.
  assert (Ha : (Z.of_nat mn <= usize_max)%Z) by (unfold usize_max in *; lia).
  assert (Hd : (0 <= Z.of_nat (mx - mn) <= 2 ^ 64)%Z) by (unfold usize_max in *; lia).
  destruct (inner_val mn (Z.of_nat (mx - mn)) r1 Ha Hd F1 H1) as [G1 V1]; destruct (inner_val mn (Z.of_nat (mx - mn)) r2 Ha Hd F2 H2) as [G2 V2].
  apply trunc_mono; auto; unfold f_of_nat at 2 4; rewrite V1, V2; apply inner_mono; [lia|auto].
Qed.

Lemma usize_nan mn mx ratio : (mn <= mx)%nat -> is_nan ratio = true -> interpolate_usize mn mx ratio = Ret 0%nat.
Proof.
  intros Hle H; unfold interpolate_usize; rewrite (proj2 (Nat.leb_le _ _) Hle); cbn [massert bind]; f_equal.
  destruct ratio as [s|s| |s m e He]; try discriminate; unfold fmul, fadd.
  destruct (f_of_nat (mx - mn)); destruct (f_of_nat mn); reflexivity.
Qed.

Lemma builds mn mx ratio :
  ((mn <= mx)%nat -> forall o, interpolate_usize_word o mn mx ratio = interpolate_usize mn mx ratio) /\
  ((mx < mn)%nat -> interpolate_usize mn mx ratio = Fail Panic /\ interpolate_usize_word Checked mn mx ratio = Fail Panic).
Proof.
  split.
  - intros H o; unfold interpolate_usize_word, interpolate_usize, usize_sub; rewrite (proj2 (Nat.leb_le _ _) H); cbn [bind massert].
    rewrite nat_N_Z; reflexivity.
  - intros H; unfold interpolate_usize_word, interpolate_usize, usize_sub; rewrite (proj2 (Nat.leb_gt _ _) H); split; reflexivity.
Qed.

Lemma wrapped mn mx ratio : (mx < mn)%nat -> (Z.of_nat mn <= 2 ^ 53)%Z -> rate ratio ->
  exists k, interpolate_usize_word Wrapping mn mx ratio = Ret k /\ (mn <= k)%nat /\
    (Zfloor (IZR (2 ^ 63) * B2R ratio) <= Z.of_nat k <= usize_max)%Z /\ (B2R ratio = 0 -> k = mn).
Proof.
  intros Hlt Hmn [Fr Hr]; unfold interpolate_usize_word, usize_sub; rewrite (proj2 (Nat.leb_gt _ _) Hlt); cbn [bind].
  eexists; split; [reflexivity|].
  set (d := Z.of_N (2 ^ N.of_nat 64 - N.of_nat (mn - mx))%N).
  assert (Hd : (2 ^ 63 <= d <= 2 ^ 64)%Z).
  { unfold d; rewrite N2Z.inj_sub; [|change (2 ^ N.of_nat 64)%N with 18446744073709551616%N; lia].
    rewrite nat_N_Z; change (Z.of_N (2 ^ N.of_nat 64)) with 18446744073709551616%Z; lia. }
  clearbody d; destruct (inner_val mn d ratio) as [F V]; auto; [unfold usize_max; lia|lia|].
  set (v := fadd _ _) in *; clearbody v.
  rewrite (rnd_float (INR mn)) in V by (rewrite INR_IZR_INZ; apply isfloat_IZR; lia).
  assert (D : bpow radix2 63 <= rnd (IZR d)).
  { apply rnd_ge_float; [apply isfloat_bpow; lia|]; change (bpow radix2 63) with (IZR (2 ^ 63)); apply IZR_le; lia. }
  assert (Q : B2R ratio * bpow radix2 63 <= rnd (rnd (IZR d) * B2R ratio)).
  { apply rnd_ge_float; [apply isfloat_scale; [apply B2R_isfloat|lia]|]; rewrite Rmult_comm; apply Rmult_le_compat_r; lra. }
  assert (Q0 : 0 <= B2R ratio * bpow radix2 63) by (apply Rmult_le_pos; [lra|apply bpow_ge_0]).
  assert (M1 : INR mn <= B2R v).
  { rewrite V; apply rnd_ge_float; [rewrite INR_IZR_INZ; apply isfloat_IZR; lia|lra]. }
  assert (M2 : B2R ratio * bpow radix2 63 <= B2R v).
  { rewrite V; apply rnd_ge_float; [apply isfloat_scale; [apply B2R_isfloat|lia]|pose proof (pos_INR mn); lra]. }
  assert (N0 : 0 <= B2R v) by (pose proof (pos_INR mn); lra).
  rewrite f_to_usize_val by auto; rewrite Ztrunc_floor by auto.
  assert (K : (Z.of_nat mn <= Zfloor (B2R v))%Z) by (apply Zfloor_lub; rewrite <- INR_IZR_INZ; auto).
  assert (K2 : (Zfloor (IZR (2 ^ 63) * B2R ratio) <= Zfloor (B2R v))%Z).
  { apply Zfloor_le; change (bpow radix2 63) with (IZR (2 ^ 63)) in M2; lra. }
  assert (K3 : (Zfloor (IZR (2 ^ 63) * B2R ratio) <= 2 ^ 63)%Z).
  { apply le_IZR; eapply Rle_trans; [apply Zfloor_lb|]; assert (0 < IZR (2 ^ 63)) by (apply IZR_lt; lia); nra. }
  split; [unfold usize_max in *; lia|]; split; [unfold usize_max in *; lia|].
  intros H; assert (Ev : B2R v = INR mn).
  { rewrite V, H, Rmult_0_r, rnd_0, Rplus_0_r; apply rnd_float; rewrite INR_IZR_INZ; apply isfloat_IZR; lia. }
  rewrite Ev, INR_IZR_INZ, Zfloor_IZR; unfold usize_max; lia.
Qed.

Lemma f_2_53 : feq (fadd (f_of_Z (2 ^ 53 + 1)) (fmul (f_of_Z 0) f0)) (f_of_Z (2 ^ 53)) = true /\
  is_finite (fadd (f_of_Z (2 ^ 53 + 1)) (fmul (f_of_Z 0) f0)) = true.
Proof. split; vm_compute; reflexivity. Qed.

Lemma large n : Z.of_nat n = (2 ^ 53 + 1)%Z -> exists k, interpolate_usize n n f0 = Ret k /\ (k < n)%nat.
Proof.
  intros Hn; unfold interpolate_usize; rewrite Nat.leb_refl, Nat.sub_diag; cbn [massert bind]; eexists; split; [reflexivity|].
  unfold f_of_nat; rewrite Hn; change (Z.of_nat 0) with 0%Z; destruct f_2_53 as [E F].
  set (v := fadd _ _) in *; clearbody v; destruct (f_of_Z_exact (2 ^ 53)) as [F2 V2]; [lia|].
  unfold feq in E; rewrite Beqb_correct in E by assumption; revert E; case Req_bool_spec; [|discriminate]; intros E _.
  rewrite f_to_usize_val by exact F; rewrite E, V2, Ztrunc_IZR; unfold usize_max; lia.
Qed.

Lemma large_refuted : exists mn mx ratio k, (mn <= mx)%nat /\ fits_usize mx /\ rate ratio /\
  interpolate_usize mn mx ratio = Ret k /\ (k < mn)%nat.
Proof.
  assert (N : exists n, Z.of_nat n = (2 ^ 53 + 1)%Z) by (exists (Z.to_nat (2 ^ 53 + 1)); apply Z2Nat.id; lia).
  destruct N as [n Hn]; destruct (large n Hn) as (k & E & L); exists n, n, f0, k.
  split; [apply Nat.le_refl|]; split; [unfold fits_usize, usize_max; lia|]; split; [apply unit_closed_spec; vm_compute; reflexivity|]; split; [exact E|exact L].
Qed.

Lemma c105_example :
  match interpolate_usize 10 20 (f_lit 1 2) with Ret k => k =? 15 | _ => false end = true /\
  rate (f_lit 1 2) /\ B2R f0 = 0 /\ B2R f1 = 1 /\ interpolate_usize 20 10 f0 = Fail Panic /\
  exists k, interpolate_usize_word Wrapping 20 10 (f_lit 1 2) = Ret k /\ (2 ^ 62 <= Z.of_nat k)%Z.
Proof.
  assert (R : rate (f_lit 1 2)) by (apply unit_closed_spec; vm_compute; reflexivity).
  split; [vm_compute; reflexivity|]; split; auto; split; [reflexivity|]; split; [apply f1_val|]; split; [reflexivity|].
  destruct (wrapped 20 10 (f_lit 1 2)) as (k & E & _ & [A _] & _); [lia|lia|auto|]; exists k; split; auto.
  eapply Z.le_trans; [|exact A].
  destruct (f_of_Z_exact 1) as [F1' V1']; [lia|]; destruct (f_of_Z_exact 2) as [F2' V2']; [lia|].
  assert (V : B2R (f_lit 1 2) = / 2).
  { unfold f_lit; destruct (in_range _ _ (fdiv_correct (f_of_Z 1) (f_of_Z 2) F1' ltac:(rewrite V2'; lra))) as [_ ->].
    - rewrite V1', V2'; apply (le_1023 _ 0); [lia|]; change (bpow radix2 0) with 1; rewrite Rabs_pos_eq; lra.
    - rewrite V1', V2'; replace (1 / 2) with (bpow radix2 (-1)) by (cbn; lra); rewrite rnd_float by (apply isfloat_bpow; lia); reflexivity. }
  rewrite V; apply Zfloor_lub; change (2 ^ 63)%Z with (2 * 2 ^ 62)%Z; rewrite mult_IZR; lra.
Qed.
