(** * PLinear2: the probabilities of linear selection, src/operators/selection.rs:466-476. *)
From Coq Require Import List Bool Arith NArith ZArith Reals Lia Lra Psatz.
From Flocq Require Import Core BinarySingleNaN Sterbenz Mult_error Relative.
From Verif Require Import Rnd LRnd Prob LProb F64 LF64 MStats MPopulation MSelection SpecF ExF PSelection PSelection2 PLinear PSum PStats2.
Import ListNotations.
Local Open Scope R_scope.
Local Arguments bpow : simpl never.


Lemma uu_53 : uu * bpow radix2 53 = 1.
Proof. rewrite <- bpow_plus; reflexivity. Qed.

Lemma eta_uu : 0 < bpow radix2 (-1075) /\ bpow radix2 (-1075) <= uu * / 1024.
Proof.
  split; [apply bpow_gt_0|].
  replace (/ 1024) with (bpow radix2 (-10)) by reflexivity; rewrite <- bpow_plus; apply bpow_le; lia.
Qed.

Lemma rnd_abs_le r e : (-1074 <= e)%Z -> Rabs r <= bpow radix2 e -> Rabs (rnd r) <= bpow radix2 e.
Proof.
  intros He H; apply Rabs_le_inv in H; apply Rabs_le; split.
  - replace (rnd r) with (- rnd (- r)) by (rewrite rnd_opp; ring).
    apply Ropp_le_contravar, rnd_le_float; [apply isfloat_bpow; auto|lra].
  - apply rnd_le_float; [apply isfloat_bpow; auto|lra].
Qed.

(** ** Counting the draws below a threshold *)
Lemma Rsum_threshold (NN : nat) (f : nat -> bool) (a g : R) : uu * INR NN = 1 -> 0 <= a <= 1 -> 0 < g ->
  (forall i, (i < NN)%nat -> INR i * uu <= a - g -> f i = true) ->
  (forall i, (i < NN)%nat -> a + g <= INR i * uu -> f i = false) ->
  Rabs (Rsum NN (fun i => if f i then 1 else 0) / INR NN - a) <= g + uu.
Proof.
  intros EuN Ha Hg Hlo Hhi; set (S := Rsum _ _); pose proof uu_pos as Hu.
  assert (HN : 0 < INR NN) by (pose proof (pos_INR NN); destruct (Req_dec (INR NN) 0) as [E|E]; [rewrite E in EuN|]; lra).
  assert (Ed : S / INR NN = S * uu).
  { apply Rmult_eq_reg_r with (INR NN); [|lra]; unfold Rdiv; rewrite !Rmult_assoc, Rinv_l, EuN by lra; reflexivity. }
  rewrite Ed.
  assert (L1 : (a - g) * INR NN <= S).
  { destruct (Rle_or_lt (a - g) 0) as [H0|H0].
    - apply Rle_trans with 0; [nra|]. replace 0 with (Rsum NN (fun _ => 0)) by (rewrite Rsum_const; ring).
      apply Rsum_le; intros i _; destruct (f i); lra.
    - set (x := (a - g) * INR NN); destruct (archimed x) as [U1 U2].
      assert (Hx : 0 < x) by (unfold x; nra).
      assert (Uz : (0 <= up x)%Z) by (apply le_IZR; lra).
      set (k := Z.to_nat (up x)).
      assert (Hk : INR k = IZR (up x)) by (unfold k; rewrite INR_IZR_INZ, Z2Nat.id; auto).
      assert (Hkn : (k <= NN)%nat).
      { assert (INR k < INR NN + 1); [|rewrite <- S_INR in H; apply INR_lt in H; lia].
        rewrite Hk; apply Rle_lt_trans with (x + 1); [lra|]; unfold x; nra. }
      apply Rle_trans with (INR k); [rewrite Hk; lra|].
      rewrite <- (Rsum_count NN k Hkn); apply Rsum_le; intros i Hi.
      destruct (Nat.ltb_spec i k) as [Hik|Hik]; [|destruct (f i); lra].
      rewrite Hlo; [lra|auto|].
      assert (INR i + 1 <= INR k) by (rewrite <- S_INR; apply le_INR; lia).
      assert (INR i <= x) by lra.
      apply Rmult_le_reg_r with (INR NN); auto; rewrite Rmult_assoc, EuN; fold x; lra. }
  assert (L2 : S <= (a + g) * INR NN + 1).
  { set (x := (a + g) * INR NN); destruct (archimed x) as [U1 U2].
    assert (Hx : 0 < x) by (unfold x; nra).
    assert (Uz : (0 <= up x)%Z) by (apply le_IZR; lra).
    set (k := Z.to_nat (up x)).
    assert (Hk : INR k = IZR (up x)) by (unfold k; rewrite INR_IZR_INZ, Z2Nat.id; auto).
    apply Rle_trans with (INR (Nat.min k NN)).
    - rewrite <- (Rsum_count NN (Nat.min k NN) (Nat.le_min_r _ _)); apply Rsum_le; intros i Hi.
      destruct (Nat.ltb_spec i (Nat.min k NN)) as [Hik|Hik]; [destruct (f i); lra|].
      rewrite Hhi; [lra|auto|].
      assert (k <= i)%nat by lia.
      assert (INR k <= INR i) by (apply le_INR; lia).
      apply Rmult_le_reg_r with (INR NN); auto; rewrite Rmult_assoc, EuN; fold x; lra.
    - apply Rle_trans with (INR k); [apply le_INR, Nat.le_min_l|lra]. }
  assert (L1' : (a - g) * INR NN * uu <= S * uu) by (apply Rmult_le_compat_r; lra).
  assert (L2' : S * uu <= ((a + g) * INR NN + 1) * uu) by (apply Rmult_le_compat_r; lra).
  replace ((a - g) * INR NN * uu) with ((a - g) * (uu * INR NN)) in L1' by ring.
  replace (((a + g) * INR NN + 1) * uu) with ((a + g) * (uu * INR NN) + uu) in L2' by ring.
  rewrite EuN in L1', L2'; apply Rabs_le; lra.
Qed.

(** ** Rounding errors of the offset *)
Section Law.
Variable b : f64.
Hypothesis Fb : is_finite b = true.
Hypothesis Hb : 1 < B2R b <= 2.
Let B := B2R b.
Let be := B - 1.

Lemma be_bounds : bpow radix2 (-52) <= be <= 1 /\ is_finite (fsub b f1) = true /\ B2R (fsub b f1) = be.
Proof.
  destruct f1_val as [F1 V1].
  assert (H52 : 1 + bpow radix2 (-52) <= B2R b).
  { assert (E : succ radix2 (SpecFloat.fexp prec emax) 1 = 1 + bpow radix2 (-52)).
    { change 1 with (bpow radix2 0) at 1; rewrite succ_eq_pos by apply bpow_ge_0; rewrite ulp_bpow; reflexivity. }
    rewrite <- E; apply succ_le_lt; [typeclasses eauto|apply (isfloat_IZR 1); lia|apply B2R_isfloat|lra]. }
  split; [unfold be, B; lra|].
  destruct (in_range (fsub b f1) (B2R b - B2R f1)) as [FB VB].
  { apply fsub_correct; auto. }
  { apply (le_1023 _ 3); [lia|]; rewrite V1, Rabs_pos_eq by lra; change (bpow radix2 3) with 8; lra. }
  split; auto; rewrite VB, V1; apply rnd_float; apply sterbenz; [typeclasses eauto|typeclasses eauto|apply B2R_isfloat|apply (isfloat_IZR 1); lia|unfold B; lra].
Qed.

(** The radicand is never negative and its square root is accurate. *)
Lemma root_close u : (u < 2 ^ 53)%N ->
  let r := fsqrt (fsub (fmul b b) (fmul (fmul f4 (fsub b f1)) (f_unit u))) in
  is_finite r = true /\ 0 <= B2R r <= 2 /\ Rabs (B2R r * B2R r - (B * B - 4 * be * B2R (f_unit u))) <= 21 * uu.
Proof.
  intros Hu; cbv zeta.
  destruct be_bounds as ([Hbe1 Hbe2] & FB & VB); pose proof (bpow_gt_0 radix2 (-52)) as H52.
  destruct f4_val as [F4 V4]; destruct (f_unit_val u Hu) as [Fu _]; pose proof (f_unit_bound u Hu) as Bu.
  pose proof uu_pos as Hp; destruct eta_uu as [Hn1 Hn2].
  assert (HBB : B = be + 1) by (unfold be; ring).
  destruct (in_range (fmul f4 (fsub b f1)) (B2R f4 * B2R (fsub b f1))) as [FC VC].
  { apply fmul_correct; auto. }
  { apply (le_1023 _ 4); [lia|]; rewrite V4, VB, Rabs_pos_eq by lra; change (bpow radix2 4) with 16; lra. }
  rewrite V4, VB in VC.
  assert (VC' : B2R (fmul f4 (fsub b f1)) = 4 * be).
  { rewrite VC; apply rnd_float; replace (4 * be) with (be * bpow radix2 2) by (change (bpow radix2 2) with 4; ring).
    apply isfloat_scale; [rewrite <- VB; apply B2R_isfloat|lia]. }
  set (C := fmul f4 (fsub b f1)) in *; set (U := f_unit u) in *.
  assert (HCU : 0 <= 4 * be * B2R U <= 4 * be) by nra.
  destruct (in_range (fmul C U) (B2R C * B2R U)) as [Fv Vv].
  { apply fmul_correct; auto. }
  { apply (le_1023 _ 4); [lia|]; rewrite VC', Rabs_pos_eq by lra; change (bpow radix2 4) with 16; lra. }
  rewrite VC' in Vv; set (v := fmul C U) in *.
  assert (Ev : Rabs (B2R v - 4 * be * B2R U) <= uu * 4 + bpow radix2 (-1075)).
  { rewrite Vv; eapply Rle_trans; [apply rnd_error_abs|]; rewrite Rabs_pos_eq by lra.
    apply Rplus_le_compat_r, Rmult_le_compat_l; lra. }
  assert (Hv : 0 <= B2R v <= 4 * be).
  { rewrite Vv; split; [apply rnd_pos; lra|]. apply rnd_le_float; [rewrite <- VC'; apply B2R_isfloat|lra]. }
  assert (HB2 : 4 * be <= B * B <= 4) by (rewrite HBB; split; [pose proof (Rle_0_sqr (be - 1)) as Q; unfold Rsqr in Q; lra|nra]).
  destruct (in_range (fmul b b) (B2R b * B2R b)) as [Fs Vs].
  { apply fmul_correct; auto. }
  { apply (le_1023 _ 4); [lia|]; fold B; rewrite Rabs_pos_eq by lra; change (bpow radix2 4) with 16; lra. }
  fold B in Vs; set (s := fmul b b) in *.
  assert (Es : Rabs (B2R s - B * B) <= uu * 4 + bpow radix2 (-1075)).
  { rewrite Vs; eapply Rle_trans; [apply rnd_error_abs|]; rewrite Rabs_pos_eq by lra.
    apply Rplus_le_compat_r, Rmult_le_compat_l; lra. }
  assert (Hs : 4 * be <= B2R s <= 4).
  { rewrite Vs; split; [apply rnd_ge_float; [rewrite <- VC'; apply B2R_isfloat|lra]|].
    apply rnd_le_float; [apply (isfloat_IZR 4); lia|lra]. }
  destruct (in_range (fsub s v) (B2R s - B2R v)) as [Fd Vd].
  { apply fsub_correct; auto. }
  { apply (le_1023 _ 4); [lia|]; rewrite Rabs_pos_eq by lra; change (bpow radix2 4) with 16; lra. }
  set (d := fsub s v) in *.
  assert (Ed : Rabs (B2R d - (B2R s - B2R v)) <= uu * 4 + bpow radix2 (-1075)).
  { rewrite Vd; eapply Rle_trans; [apply rnd_error_abs|]; rewrite Rabs_pos_eq by lra.
    apply Rplus_le_compat_r, Rmult_le_compat_l; lra. }
  assert (Hd : 0 <= B2R d <= 4).
  { rewrite Vd; split; [apply rnd_pos; lra|apply rnd_le_float; [apply (isfloat_IZR 4); lia|lra]]. }
  destruct (fsqrt_val d Fd) as [Fr Vr]; [lra|]; set (r := fsqrt d) in *.
  set (q := sqrt (B2R d)) in *.
  assert (Hq : 0 <= q <= 2).
  { split; [apply sqrt_pos|]; unfold q; replace 2 with (sqrt 4); [apply sqrt_le_1_alt; lra|].
    replace 4 with (2 * 2) by lra; apply sqrt_square; lra. }
  assert (Hqq : q * q = B2R d) by (apply sqrt_sqrt; lra).
  assert (Er : Rabs (B2R r - q) <= uu * 2 + bpow radix2 (-1075)).
  { rewrite Vr; eapply Rle_trans; [apply rnd_error_abs|]; rewrite Rabs_pos_eq by lra.
    apply Rplus_le_compat_r, Rmult_le_compat_l; lra. }
  assert (Hr : 0 <= B2R r <= 2).
  { rewrite Vr; split; [apply rnd_pos; lra|apply rnd_le_float; [apply (isfloat_IZR 2); lia|lra]]. }
  split; auto; split; auto.
  replace (B2R r * B2R r - (B * B - 4 * be * B2R U)) with
    ((B2R r - q) * (B2R r + q) + ((B2R d - (B2R s - B2R v)) + (B2R s - B * B) - (B2R v - 4 * be * B2R U))) by (rewrite <- Hqq; ring).
  assert (E1 : Rabs ((B2R r - q) * (B2R r + q)) <= (uu * 2 + bpow radix2 (-1075)) * 4).
  { rewrite Rabs_mult, (Rabs_pos_eq (B2R r + q)) by lra; apply Rmult_le_compat; [apply Rabs_pos|lra|exact Er|lra]. }
  apply Rabs_le_inv in E1, Ed, Es, Ev; apply Rabs_le; lra.
Qed.

Lemma close_step m a v v' c z : 0 <= m -> 0 <= c -> Rabs (v - a) <= c * Rabs a + z ->
  Rabs (v' - m * v) <= uu * Rabs (m * v) + bpow radix2 (-1075) ->
  Rabs (v' - m * a) <= (uu + c + uu * c) * Rabs (m * a) + (m * z * (1 + uu) + bpow radix2 (-1075)).
Proof.
  intros Hm Hc H1 H2; pose proof uu_pos as Hu.
  replace (v' - m * a) with ((v' - m * v) + m * (v - a)) by ring.
  eapply Rle_trans; [apply Rabs_triang|]; rewrite !Rabs_mult, !(Rabs_pos_eq m) by auto; rewrite Rabs_mult, (Rabs_pos_eq m) in H2 by auto.
  assert (Hv : Rabs v <= Rabs a + (c * Rabs a + z)).
  { replace v with (a + (v - a)) at 1 by ring; eapply Rle_trans; [apply Rabs_triang|lra]. }
  assert (m * Rabs v <= m * (Rabs a + (c * Rabs a + z))) by (apply Rmult_le_compat_l; auto).
  assert (uu * (m * Rabs v) <= uu * (m * (Rabs a + (c * Rabs a + z)))) by (apply Rmult_le_compat_l; lra).
  assert (m * Rabs (v - a) <= m * (c * Rabs a + z)) by (apply Rmult_le_compat_l; auto).
  replace ((uu + c + uu * c) * (m * Rabs a) + (m * z * (1 + uu) + bpow radix2 (-1075))) with
    (uu * (m * (Rabs a + (c * Rabs a + z))) + bpow radix2 (-1075) + m * (c * Rabs a + z)) by ring.
  lra.
Qed.

Lemma close_weaken v a c z c' z' : c <= c' -> z <= z' -> Rabs (v - a) <= c * Rabs a + z -> Rabs (v - a) <= c' * Rabs a + z'.
Proof. intros Hc Hz H; pose proof (Rabs_pos a); assert (c * Rabs a <= c' * Rabs a) by (apply Rmult_le_compat_r; auto); lra. Qed.

(** The value whose integer part is subtracted from the length. *)
Definition linear_value (n : nat) (u : N) : f64 :=
  fdiv (fdiv (fmul (f_of_nat n) (fsub b (fsqrt (fsub (fmul b b) (fmul (fmul f4 (fsub b f1)) (f_unit u)))))) f2) (fsub b f1).

Lemma value_close n u : (1 <= n)%nat -> (Z.of_nat n <= 2 ^ 53)%Z -> (u < 2 ^ 53)%N ->
  exists r, 0 <= r <= 2 /\ Rabs (r * r - (B * B - 4 * be * B2R (f_unit u))) <= 21 * uu /\
  is_finite (linear_value n u) = true /\
  Rabs (B2R (linear_value n u) - INR n * (B - r) / (2 * be)) <= 5 * uu * Rabs (INR n * (B - r) / (2 * be)) + bpow radix2 (-1000).
Proof.
  intros Hn1 Hn2 Hu; unfold linear_value; cbv zeta.
  destruct (root_close u Hu) as (Fr & Hr & Er); set (r := fsqrt _) in *; exists (B2R r); split; auto; split; auto.
  destruct be_bounds as ([Hbe1 Hbe2] & FB & VB); pose proof (bpow_gt_0 radix2 (-52)) as H52.
  pose proof uu_pos as Hp; pose proof uu_small as Hps; destruct eta_uu as [Hy1 Hy2]; destruct f2_val as [F2 V2].
  assert (H1n : 1 <= INR n <= bpow radix2 53).
  { change 1 with (INR 1); split; [apply le_INR; auto|rewrite INR_IZR_INZ; change (bpow radix2 53) with (IZR (2 ^ 53)); apply IZR_le; auto]. }
  assert (Vn : is_finite (f_of_nat n) = true /\ B2R (f_of_nat n) = INR n).
  { unfold f_of_nat; destruct (f_of_Z_exact (Z.of_nat n)) as [F V]; [lia|]; split; auto; rewrite V; symmetry; apply INR_IZR_INZ. }
  destruct Vn as [Fn Vn].
  destruct (in_range (fsub b r) (B2R b - B2R r)) as [Fw Vw].
  { apply fsub_correct; auto. }
  { apply (le_1023 _ 4); [lia|]; apply Rabs_le; change (bpow radix2 4) with 16; lra. }
  fold B in Vw; set (W := B - B2R r) in *; set (w := fsub b r) in *.
  assert (HW : Rabs W <= 2) by (apply Rabs_le; unfold W, B; lra).
  assert (E1 : Rabs (B2R w - W) <= uu * Rabs W + 0).
  { rewrite Vw; unfold W, Rminus at 2 3 4; rewrite Rplus_0_r; apply rnd_plus_error; [apply B2R_isfloat|].
    apply generic_format_opp, B2R_isfloat. }
  assert (Hw : Rabs (B2R w) <= 4).
  { replace (B2R w) with (W + (B2R w - W)) by ring; eapply Rle_trans; [apply Rabs_triang|]; pose proof (Rabs_pos W); nra. }
  assert (Hx0 : Rabs (INR n * B2R w) <= bpow radix2 55).
  { rewrite Rabs_mult, (Rabs_pos_eq (INR n)) by lra; change 55%Z with (53 + 2)%Z; rewrite bpow_plus; change (bpow radix2 2) with 4.
    apply Rmult_le_compat; [lra|apply Rabs_pos|lra|lra]. }
  destruct (in_range (fmul (f_of_nat n) w) (B2R (f_of_nat n) * B2R w)) as [Fx Vx].
  { apply fmul_correct; auto. }
  { rewrite Vn; apply (le_1023 _ 55); [lia|auto]. }
  rewrite Vn in Vx; set (x := fmul (f_of_nat n) w) in *.
  assert (E2 : Rabs (B2R x - INR n * W) <= 9 / 4 * uu * Rabs (INR n * W) + bpow radix2 (-1075)).
  { eapply close_weaken; [| |apply (close_step (INR n) W (B2R w) (B2R x) uu 0); [lra|lra|exact E1|rewrite Vx; apply rnd_error_abs]]; nra. }
  assert (Bx : Rabs (B2R x) <= bpow radix2 55).
  { rewrite Vx; apply rnd_abs_le; [lia|auto]. }
  destruct (in_range (fdiv x f2) (B2R x / B2R f2)) as [Fh Vh].
  { apply fdiv_correct; auto; rewrite V2; lra. }
  { rewrite V2; apply (le_1023 _ 55); [lia|]; unfold Rdiv; rewrite Rabs_mult, (Rabs_pos_eq (/ 2)) by lra; pose proof (Rabs_pos (B2R x)); lra. }
  rewrite V2 in Vh; set (h := fdiv x f2) in *.
  assert (E3 : Rabs (B2R h - / 2 * (INR n * W)) <= 7 / 2 * uu * Rabs (/ 2 * (INR n * W)) + 2 * bpow radix2 (-1075)).
  { eapply close_weaken; [| |apply (close_step (/ 2) (INR n * W) (B2R x) (B2R h) (9 / 4 * uu) (bpow radix2 (-1075)));
      [lra|lra|exact E2|rewrite Vh, Rmult_comm; apply rnd_error_abs]]; nra. }
  assert (Bh : Rabs (B2R h) <= bpow radix2 55).
  { rewrite Vh; apply rnd_abs_le; [lia|]. unfold Rdiv; rewrite Rabs_mult, (Rabs_pos_eq (/ 2)) by lra; pose proof (Rabs_pos (B2R x)); lra. }
  assert (Hib : 0 < / be <= bpow radix2 52).
  { split; [apply Rinv_0_lt_compat; lra|]. replace 52%Z with (- (-52))%Z by lia; rewrite bpow_opp; apply Rinv_le; auto. }
  destruct (in_range (fdiv h (fsub b f1)) (B2R h / B2R (fsub b f1))) as [Fy Vy].
  { apply fdiv_correct; auto; rewrite VB; lra. }
  { rewrite VB; apply (le_1023 _ 107); [lia|]; unfold Rdiv; rewrite Rabs_mult, (Rabs_pos_eq (/ be)) by lra.
    change 107%Z with (55 + 52)%Z; rewrite bpow_plus; apply Rmult_le_compat; [apply Rabs_pos|lra|auto|lra]. }
  rewrite VB in Vy; set (y := fdiv h (fsub b f1)) in *.
  split; auto.
  replace (INR n * W / (2 * be)) with (/ be * (/ 2 * (INR n * W))) by (field; lra).
  assert (Hz : / be * (2 * bpow radix2 (-1075)) * (1 + uu) + bpow radix2 (-1075) <= bpow radix2 (-1000)).
  { assert (E10 : bpow radix2 52 * bpow radix2 (-1075) = bpow radix2 (-1023)) by (rewrite <- bpow_plus; reflexivity).
    assert (E11 : bpow radix2 (-1023) * 8 = bpow radix2 (-1020)) by (change 8 with (bpow radix2 3); rewrite <- bpow_plus; reflexivity).
    assert (bpow radix2 (-1020) <= bpow radix2 (-1000)) by (apply bpow_le; lia).
    assert (bpow radix2 (-1075) <= bpow radix2 (-1023)) by (apply bpow_le; lia).
    assert (/ be * bpow radix2 (-1075) <= bpow radix2 52 * bpow radix2 (-1075)) by (apply Rmult_le_compat_r; lra).
    assert (0 < / be * bpow radix2 (-1075)) by (apply Rmult_lt_0_compat; lra).
    replace (/ be * (2 * bpow radix2 (-1075)) * (1 + uu)) with (/ be * bpow radix2 (-1075) * (2 * (1 + uu))) by ring.
    assert (/ be * bpow radix2 (-1075) * (2 * (1 + uu)) <= / be * bpow radix2 (-1075) * 4) by (apply Rmult_le_compat_l; lra).
    lra. }
  eapply close_weaken; [|exact Hz|apply (close_step (/ be) (/ 2 * (INR n * W)) (B2R h) (B2R y) (7 / 2 * uu) (2 * bpow radix2 (-1075)));
      [lra|lra|exact E3|rewrite Vy, Rmult_comm; apply rnd_error_abs]].
  nra.
Qed.

Lemma offset_thresholds n u k : (1 <= k <= n)%nat -> (Z.of_nat n <= 2 ^ 53)%Z -> (u < 2 ^ 53)%N ->
  let t := INR k / INR n in
  let F := B * t - be * (t * t) in
  (B2R (f_unit u) <= F - 20 * uu / be -> (linear_offset n b (f_unit u) < k)%nat) /\
  (F + 20 * uu / be <= B2R (f_unit u) -> (k <= linear_offset n b (f_unit u))%nat).
Proof.
  intros Hk Hn Hu t F.
  destruct (value_close n u) as (r & Hr & Er & Fy & Ey); [lia|auto|auto|].
  unfold linear_offset; fold (linear_value n u); rewrite f_to_usize_val by auto.
  set (y := linear_value n u) in *; set (U := B2R (f_unit u)) in *.
  destruct be_bounds as ([Hbe1 Hbe2] & _); pose proof (bpow_gt_0 radix2 (-52)) as H52.
  pose proof uu_pos as Hp; pose proof uu_small as Hps.
  assert (HBB : B = be + 1) by (unfold be; ring).
  assert (H1k : 1 <= INR k) by (change 1 with (INR 1); apply le_INR; lia).
  assert (Hkn : INR k <= INR n) by (apply le_INR; lia).
  assert (Ht : 0 < t <= 1).
  { unfold t; split; [apply Rmult_lt_0_compat; [lra|apply Rinv_0_lt_compat; lra]|].
    apply Rmult_le_reg_r with (INR n); [lra|]; unfold Rdiv; rewrite Rmult_assoc, Rinv_l by lra; lra. }
  assert (Etn : t * INR n = INR k) by (unfold t; field; lra).
  assert (Hbt : 0 < be * t <= 1) by nra.
  set (c := B - 2 * (be * t)).
  assert (Hc : 0 <= c <= 2) by (unfold c; nra).
  assert (EF : B * B - 4 * be * F = c * c) by (unfold c, F; ring).
  assert (Hzeta : bpow radix2 (-1000) <= uu * / 1024).
  { replace (/ 1024) with (bpow radix2 (-10)) by reflexivity; rewrite <- bpow_plus; apply bpow_le; lia. }
  pose proof (bpow_gt_0 radix2 (-1000)) as Hz0.
  apply Rabs_le_inv in Er; apply Rabs_le_inv in Ey.
  set (Y := INR n * (B - r) / (2 * be)) in *.
  assert (EY : Y * (2 * be) = INR n * (B - r)) by (unfold Y; field; lra).
  assert (Egb : 4 * be * (20 * uu / be) = 80 * uu) by (field; lra).
  split; intros HU.
  - assert (H1 : 4 * be * U <= 4 * be * (F - 20 * uu / be)) by (apply Rmult_le_compat_l; lra).
    assert (H2 : c * c + 59 * uu <= r * r) by lra.
    assert (H3 : c + 12 * (be * t) * uu <= r).
    { apply Rsqr_incr_0; [|nra|lra]; unfold Rsqr.
      replace ((c + 12 * (be * t) * uu) * (c + 12 * (be * t) * uu)) with
        (c * c + 24 * (c * (be * t)) * uu + 144 * ((be * t) * (be * t)) * (uu * uu)) by ring.
      assert (c * (be * t) <= 2 * 1) by (apply Rmult_le_compat; lra).
      assert ((be * t) * (be * t) <= 1 * 1) by (apply Rmult_le_compat; lra).
      assert (uu * uu <= / 1024 * uu) by (apply Rmult_le_compat_r; lra).
      assert (24 * (c * (be * t)) * uu <= 48 * uu) by (apply Rmult_le_compat_r; lra).
      assert (144 * (be * t * (be * t)) * (uu * uu) <= 144 * (/ 1024 * uu)) by (apply Rmult_le_compat; nra).
      lra. }
    assert (H4 : B - r <= 2 * be * t * (1 - 6 * uu)) by (unfold c in H3; lra).
    assert (H5 : INR n * (B - r) <= INR n * (2 * be * t * (1 - 6 * uu))) by (apply Rmult_le_compat_l; lra).
    assert (H6 : Y <= INR k * (1 - 6 * uu)).
    { apply Rmult_le_reg_r with (2 * be); [lra|]; rewrite EY, <- Etn; lra. }
    assert (H7 : B2R y < INR k).
    { destruct (Rle_or_lt 0 Y) as [H0|H0].
      - rewrite (Rabs_pos_eq Y) in Ey by auto.
        assert (5 * uu * Y <= 5 * uu * INR k) by (apply Rmult_le_compat_l; nra).
        assert (uu <= uu * INR k) by nra. lra.
      - rewrite (Rabs_left Y) in Ey by auto.
        assert (5 * uu * - Y <= 1 * - Y) by (apply Rmult_le_compat_r; lra). lra. }
    assert (Ztrunc (B2R y) < Z.of_nat k)%Z; [|lia].
    destruct (Rle_or_lt 0 (B2R y)) as [H0|H0].
    + rewrite Ztrunc_floor by auto; apply lt_IZR; eapply Rle_lt_trans; [apply Zfloor_lb|]; rewrite <- INR_IZR_INZ; auto.
    + apply Z.le_lt_trans with 0%Z; [|lia]. change 0%Z with (Ztrunc 0) at 1 || idtac.
      rewrite <- (Ztrunc_IZR 0); apply Ztrunc_le; lra.
  - assert (H1 : 4 * be * (F + 20 * uu / be) <= 4 * be * U) by (apply Rmult_le_compat_l; lra).
    assert (H2 : r * r <= c * c - 59 * uu) by lra.
    assert (Hr0 : 0 <= r * r) by nra.
    assert (Hc0 : 14 * (be * t) * uu <= c).
    { apply Rsqr_incr_0; [|nra|lra]; unfold Rsqr.
      replace (14 * (be * t) * uu * (14 * (be * t) * uu)) with (196 * ((be * t) * (be * t)) * (uu * uu)) by ring.
      assert ((be * t) * (be * t) <= 1 * 1) by (apply Rmult_le_compat; lra).
      assert (uu * uu <= / 1024 * uu) by (apply Rmult_le_compat_r; lra).
      assert (196 * (be * t * (be * t)) * (uu * uu) <= 196 * (/ 1024 * uu)) by (apply Rmult_le_compat; nra).
      lra. }
    assert (H3 : r <= c - 14 * (be * t) * uu).
    { apply Rsqr_incr_0; [|lra|lra]; unfold Rsqr.
      replace ((c - 14 * (be * t) * uu) * (c - 14 * (be * t) * uu)) with
        (c * c - 28 * (c * (be * t)) * uu + 196 * ((be * t) * (be * t)) * (uu * uu)) by ring.
      assert (c * (be * t) <= 2 * 1) by (apply Rmult_le_compat; lra).
      assert (28 * (c * (be * t)) * uu <= 56 * uu) by (apply Rmult_le_compat_r; lra).
      assert (0 <= 196 * (be * t * (be * t)) * (uu * uu)) by nra.
      lra. }
    assert (H4 : 2 * be * t * (1 + 7 * uu) <= B - r) by (unfold c in H3; lra).
    assert (H5 : INR n * (2 * be * t * (1 + 7 * uu)) <= INR n * (B - r)) by (apply Rmult_le_compat_l; lra).
    assert (H6 : INR k * (1 + 7 * uu) <= Y).
    { apply Rmult_le_reg_r with (2 * be); [lra|]; rewrite EY, <- Etn; lra. }
    assert (H7 : INR k <= B2R y).
    { assert (H0 : 0 <= Y) by nra; rewrite (Rabs_pos_eq Y) in Ey by auto.
      assert ((1 - 5 * uu) * (INR k * (1 + 7 * uu)) <= (1 - 5 * uu) * Y) by (apply Rmult_le_compat_l; lra).
      replace ((1 - 5 * uu) * (INR k * (1 + 7 * uu))) with (INR k + INR k * uu * (2 - 35 * uu)) in H by ring.
      assert (INR k * uu * 1 <= INR k * uu * (2 - 35 * uu)) by (apply Rmult_le_compat_l; nra).
      assert (uu <= uu * INR k) by nra. lra. }
    assert (Z.of_nat k <= Ztrunc (B2R y))%Z; [|unfold usize_max; lia].
    rewrite <- (Ztrunc_IZR (Z.of_nat k)); apply Ztrunc_le; rewrite <- INR_IZR_INZ; auto.
Qed.
End Law.

Section Shares.
Context {I : Type} (io : individual_ops I) (fexp : f64 -> f64).

Lemma n53_uu : uu * INR (N.to_nat (2 ^ 53)) = 1.
Proof. rewrite n53_INR; apply uu_53. Qed.

Lemma linear_prob_sum (b : f64) (p : population I) (P : nat * I -> bool) (Q : nat -> bool) :
  (forall i x, P (i, x) = Q i) ->
  let n := length (individuals p) in
  prob (select io fexp (Linear b) p) P =
  Rsum (N.to_nat (2 ^ 53)) (fun u => let off := linear_offset n b (f_unit (N.of_nat u)) in
    if (off <? n)%nat && Q (n - off - 1)%nat then 1 else 0) / INR (N.to_nat (2 ^ 53)).
Proof.
  intros HP n; cbn [select]; unfold linear_select; rewrite prob_expect, expect_bind; unfold gen_f64; cbn [expect].
  unfold Rdiv; apply Rmult_eq_compat_r; apply Rsum_ext; intros u _; fold n; cbv zeta; unfold massert.
  destruct (Nat.ltb_spec (linear_offset n b (f_unit (N.of_nat u))) n) as [Ho|Ho]; cbn [bind expect andb]; auto.
  destruct (nth_error_lt (individuals p) (n - linear_offset n b (f_unit (N.of_nat u)) - 1)) as [x Hx]; [unfold n in *; lia|].
  rewrite (idx_some _ _ _ Hx); cbn [bind expect]; rewrite HP; reflexivity.
Qed.

Definition off_below (b : f64) (n k : nat) : R :=
  Rsum (N.to_nat (2 ^ 53)) (fun u => if (linear_offset n b (f_unit (N.of_nat u)) <? k)%nat then 1 else 0) / INR (N.to_nat (2 ^ 53)).

Lemma off_below_share (b : f64) (n k : nat) : is_finite b = true -> 1 < B2R b <= 2 -> (k <= n)%nat -> (1 <= n)%nat -> (Z.of_nat n <= 2 ^ 53)%Z ->
  let t := INR k / INR n in
  Rabs (off_below b n k - (B2R b * t - (B2R b - 1) * (t * t))) <= 21 * uu / (B2R b - 1).
Proof.
  intros Fb Hb Hk Hn1 Hn t; unfold off_below.
  destruct (be_bounds b Fb Hb) as ([Hbe1 Hbe2] & _); pose proof (bpow_gt_0 radix2 (-52)) as H52; pose proof uu_pos as Hp.
  assert (Hi : 1 <= / (B2R b - 1)) by (rewrite <- Rinv_1; apply Rinv_le; lra).
  assert (Hg : 0 < 20 * uu / (B2R b - 1)) by (unfold Rdiv; apply Rmult_lt_0_compat; lra).
  assert (Hg1 : 20 * uu / (B2R b - 1) + uu <= 21 * uu / (B2R b - 1)).
  { assert (uu * 1 <= uu * / (B2R b - 1)) by (apply Rmult_le_compat_l; lra). unfold Rdiv; lra. }
  destruct (Nat.eq_dec k 0) as [->|Hk0].
  { assert (Et : t = 0) by (unfold t; cbn; unfold Rdiv; ring). rewrite Et.
    rewrite (Rsum_ext _ _ (fun _ => 0)) by reflexivity; rewrite Rsum_const.
    generalize (INR (N.to_nat (2 ^ 53))); intros Nr.
    replace (Nr * 0 / Nr - (B2R b * 0 - (B2R b - 1) * (0 * 0))) with 0 by (unfold Rdiv; ring).
    rewrite Rabs_R0; lra. }
  assert (Hn' : 1 <= INR n) by (change 1 with (INR 1); apply le_INR; auto).
  assert (H1k : 1 <= INR k) by (change 1 with (INR 1); apply le_INR; lia).
  assert (Hkn : INR k <= INR n) by (apply le_INR; lia).
  assert (Ht : 0 < t <= 1).
  { unfold t; split; [apply Rmult_lt_0_compat; [lra|apply Rinv_0_lt_compat; lra]|].
    apply Rmult_le_reg_r with (INR n); [lra|]; unfold Rdiv; rewrite Rmult_assoc, Rinv_l by lra; lra. }
  eapply Rle_trans; [|exact Hg1].
  apply (Rsum_threshold _ (fun u => (linear_offset n b (f_unit (N.of_nat u)) <? k)%nat)).
  - apply n53_uu.
  - split; [nra|]. assert (0 <= (1 - t) * (1 - (B2R b - 1) * t)) by (apply Rmult_le_pos; nra). nra.
  - exact Hg.
  - intros i Hi' H; apply Nat.ltb_lt.
    destruct (offset_thresholds b Fb Hb n (N.of_nat i) k) as [T _]; [lia|auto|lia|]; apply T.
    destruct (f_unit_val (N.of_nat i)) as [_ ->]; [lia|]. rewrite nat_N_Z, <- INR_IZR_INZ; exact H.
  - intros i Hi' H; apply Nat.ltb_ge.
    destruct (offset_thresholds b Fb Hb n (N.of_nat i) k) as [_ T]; [lia|auto|lia|]; apply T.
    destruct (f_unit_val (N.of_nat i)) as [_ ->]; [lia|]. rewrite nat_N_Z, <- INR_IZR_INZ; exact H.
Qed.

Lemma shrink48 x : 0 < x -> 21 * uu / x <= bpow radix2 (-48) / x.
Proof.
  intros Hx; unfold Rdiv; apply Rmult_le_compat_r; [left; apply Rinv_0_lt_compat; auto|].
  replace (bpow radix2 (-48)) with (bpow radix2 (-53) * 32); [pose proof uu_pos; lra|].
  change 32 with (bpow radix2 5); rewrite <- bpow_plus; reflexivity.
Qed.

Lemma shrink47 x y z : 0 < x -> Rabs y <= 21 * uu / x -> Rabs z <= 21 * uu / x -> Rabs (y - z) <= bpow radix2 (-47) / x.
Proof.
  intros Hx Hy Hz; unfold Rminus; eapply Rle_trans; [apply Rabs_triang|]; rewrite Rabs_Ropp.
  pose proof (shrink48 x Hx) as H.
  replace (bpow radix2 (-47)) with (bpow radix2 (-48) * 2); [unfold Rdiv in *; lra|].
  change 2 with (bpow radix2 1); rewrite <- bpow_plus; reflexivity.
Qed.

Lemma linear_cumulative (b : f64) (p : population I) (k : nat) :
  let n := length (individuals p) in
  is_finite b = true -> 1 < B2R b <= 2 -> (1 <= n)%nat -> (Z.of_nat n <= 2 ^ 53)%Z -> (k <= n)%nat ->
  let t := INR k / INR n in
  Rabs (prob (select io fexp (Linear b) p) (fun r => (n - k <=? fst r)%nat) - (B2R b * t - (B2R b - 1) * (t * t)))
    <= bpow radix2 (-48) / (B2R b - 1).
Proof.
  intros n Fb Hb Hn1 Hn Hk t.
  eapply Rle_trans; [|apply shrink48; lra].
  rewrite (linear_prob_sum b p _ (fun i => (n - k <=? i)%nat)) by reflexivity; fold n.
  rewrite (Rsum_ext _ _ (fun u => if (linear_offset n b (f_unit (N.of_nat u)) <? k)%nat then 1 else 0)).
  - apply (off_below_share b n k); auto.
  - intros u _; cbv zeta; set (o := linear_offset _ _ _).
    destruct (Nat.ltb_spec o n), (Nat.ltb_spec o k); destruct (Nat.leb_spec (n - k) (n - o - 1)); cbn [andb]; auto; lia.
Qed.

Lemma linear_share (b : f64) (p : population I) (i : nat) :
  let n := length (individuals p) in
  is_finite b = true -> 1 < B2R b <= 2 -> (Z.of_nat n <= 2 ^ 53)%Z -> (i < n)%nat ->
  Rabs (prob (select io fexp (Linear b) p) (fun r => (fst r =? i)%nat) -
        (B2R b * INR n - (B2R b - 1) * (2 * INR (n - 1 - i) + 1)) / (INR n * INR n))
    <= bpow radix2 (-47) / (B2R b - 1).
Proof.
  intros n Fb Hb Hn Hi.
  assert (Hn1 : (1 <= n)%nat) by lia.
  assert (Hn' : 1 <= INR n) by (change 1 with (INR 1); apply le_INR; auto).
  set (j := (n - 1 - i)%nat).
  rewrite (linear_prob_sum b p _ (fun i' => (i' =? i)%nat)) by reflexivity; fold n.
  rewrite (Rsum_ext _ _ (fun u => (if (linear_offset n b (f_unit (N.of_nat u)) <? S j)%nat then 1 else 0) -
                                  (if (linear_offset n b (f_unit (N.of_nat u)) <? j)%nat then 1 else 0))).
  2:{ intros u _; cbv zeta; set (o := linear_offset _ _ _).
      destruct (Nat.ltb_spec o n), (Nat.ltb_spec o (S j)), (Nat.ltb_spec o j); destruct (Nat.eqb_spec (n - o - 1) i); cbn [andb]; unfold j in *; try lra; lia. }
  rewrite Rsum_minus; unfold Rdiv at 1; rewrite Rmult_minus_distr_r.
  pose proof (off_below_share b n (S j) Fb Hb ltac:(unfold j; lia) Hn1 Hn) as H1.
  pose proof (off_below_share b n j Fb Hb ltac:(unfold j; lia) Hn1 Hn) as H2.
  unfold off_below, Rdiv at 1 in H1; unfold off_below, Rdiv at 1 in H2; cbv zeta in H1, H2.
  set (P1 := _ * _) in H1 at 1; set (P2 := _ * _) in H2 at 1.
  match goal with |- Rabs (?x - _) <= _ => change x with (P1 - P2) end.
  clearbody P1 P2.
  rewrite S_INR in H1.
  match type of H1 with Rabs (_ - ?f1) <= _ => match type of H2 with Rabs (_ - ?f2) <= _ =>
    replace (P1 - P2 - (B2R b * INR n - (B2R b - 1) * (2 * INR j + 1)) / (INR n * INR n)) with ((P1 - f1) - (P2 - f2)) by (field; lra) end end.
  apply shrink47; auto; lra.
Qed.

Lemma linear_panic_rare (b : f64) (p : population I) :
  let n := length (individuals p) in
  is_finite b = true -> 1 < B2R b <= 2 -> (1 <= n)%nat -> (Z.of_nat n <= 2 ^ 53)%Z ->
  1 - bpow radix2 (-48) / (B2R b - 1) <= prob (select io fexp (Linear b) p) (fun _ => true).
Proof.
  intros n Fb Hb Hn1 Hn.
  pose proof (linear_cumulative b p n Fb Hb Hn1 Hn (le_n _)) as H; cbv zeta in H.
  assert (Hn' : 1 <= INR n) by (change 1 with (INR 1); apply le_INR; auto).
  fold n in H; replace (INR n / INR n) with 1 in H by (field; lra).
  rewrite (linear_prob_sum b p _ (fun _ => true)) by reflexivity.
  rewrite (linear_prob_sum b p _ (fun i => (n - n <=? i)%nat)) in H by reflexivity.
  fold n in H |- *; rewrite Nat.sub_diag in H; cbv zeta in H |- *; cbn [Nat.leb] in H.
  apply Rabs_le_inv in H; lra.
Qed.
End Shares.

Lemma three_halves : is_finite (f_lit 3 2) = true /\ B2R (f_lit 3 2) = 3 / 2.
Proof.
  unfold f_lit; destruct (f_of_Z_exact 3) as [F1 V1]; [lia|]; destruct (f_of_Z_exact 2) as [F2 V2]; [lia|].
  destruct (in_range (fdiv (f_of_Z 3) (f_of_Z 2)) (IZR 3 / IZR 2)) as [F V].
  - rewrite <- V1, <- V2; apply fdiv_correct; auto; rewrite V2; lra.
  - apply (le_1023 _ 2); [lia|]; rewrite Rabs_pos_eq by lra; change (bpow radix2 2) with 4; lra.
  - split; auto; rewrite V; apply rnd_float; apply half_float; [apply (isfloat_IZR 3); lia|].
    apply Rle_trans with (bpow radix2 0); [apply bpow_le; lia|change (bpow radix2 0) with 1; lra].
Qed.

Lemma linear_share_example :
  let p := ex_popn ex_io [1; 2; 5]%nat in let b := f_lit 3 2 in
  is_finite b = true /\ 1 < B2R b <= 2 /\ length (individuals p) = 3%nat /\
  (B2R b * INR 3 - (B2R b - 1) * (2 * INR (3 - 1 - 2) + 1)) / (INR 3 * INR 3) = 4 / 9 /\
  (B2R b * INR 3 - (B2R b - 1) * (2 * INR (3 - 1 - 0) + 1)) / (INR 3 * INR 3) = 2 / 9.
Proof.
  cbv zeta; destruct three_halves as [F ->]; cbn [length individuals ex_popn]; rewrite F.
  repeat split; try lra; cbn [Nat.sub INR]; lra.
Qed.
