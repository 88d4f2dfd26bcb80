(** * PLinear: linear selection (C37), src/operators/selection.rs:466-476. *)
From Coq Require Import List Bool Arith NArith ZArith Reals Lia Lra Psatz.
From Flocq Require Import Core BinarySingleNaN Sterbenz Mult_error Relative.
From Verif Require Import Rnd LRnd F64 LF64 MStats MPopulation MSelection SpecF PSelection PSelection2.
Import ListNotations.
Local Open Scope R_scope.

(** ** Operations in range *)
Lemma in_range z r : rounded_to z r -> Rabs r <= bpow radix2 1023 -> is_finite z = true /\ B2R z = rnd r.
Proof.
  intros (_ & _ & Hf & Hv) H; apply rnd_lt_big in H.
  assert (F : is_finite z = true) by (apply Hf; auto). auto.
Qed.

Lemma le_1023 r k : (k <= 1023)%Z -> Rabs r <= bpow radix2 k -> Rabs r <= bpow radix2 1023.
Proof. intros Hk H; eapply Rle_trans; [exact H|apply bpow_le; lia]. Qed.

Lemma fsqrt_val x : is_finite x = true -> 0 <= B2R x -> is_finite (fsqrt x) = true /\ B2R (fsqrt x) = rnd (sqrt (B2R x)).
Proof.
  intros Fx Hx; unfold fsqrt; destruct (Bsqrt_correct prec emax _ _ mode_NE x) as (H1 & H2 & _).
  split; [rewrite H2|exact H1].
  destruct x as [s|s| |[|] m e H]; cbn in *; try discriminate; auto.
  exfalso; apply (Rle_not_lt _ _ Hx); apply F2R_lt_0; cbn; lia.
Qed.

(** A check that computes. *)
Definition linear_check (b : f64) : bool :=
  let B := fsub b f1 in
  let W := linear_factor b largest_draw in
  is_finite b && fle f1 b && fle b f4 && fle (f_lit 1 (2 ^ 52)) B &&
  fle f0 (fsub (fmul b b) (fmul (fmul f4 B) largest_draw)) &&
  is_finite W && fle (fmul f2 B) (fmul f2 W) && fle W (fmul f2 (fmul f2 B)) &&
  fle (fmul (fmul f2 B) (f_lit 1 (2 ^ 52))) (fsub (fmul f2 B) W).

Lemma finite_fle x y : is_finite x = true -> is_finite y = true -> fle x y = true -> B2R x <= B2R y.
Proof. intros Fx Fy H; apply fle_spec in H as (_ & _ & H); rewrite !key_finite in H by auto; auto. Qed.

Lemma u_max_val : is_finite largest_draw = true /\ B2R largest_draw = 1 - bpow radix2 (-53).
Proof.
  destruct (f_unit_val (2 ^ 53 - 1)) as [F V]; [reflexivity|]; split; auto; unfold largest_draw; rewrite V.
  change (Z.of_N (2 ^ 53 - 1)) with (2 ^ 53 - 1)%Z; rewrite minus_IZR.
  change (IZR (2 ^ 53)) with (bpow radix2 53); rewrite Rmult_minus_distr_r, (Rmult_comm (bpow radix2 53)), bpow53; lra.
Qed.

Lemma f_lit52 : is_finite (f_lit 1 (2 ^ 52)) = true /\ B2R (f_lit 1 (2 ^ 52)) = bpow radix2 (-52).
Proof.
  unfold f_lit; destruct (f_of_Z_exact 1) as [F1 V1]; [lia|]; destruct (f_of_Z_exact (2 ^ 52)) as [F2 V2]; [lia|].
  assert (Hr : (IZR 1 / IZR (2 ^ 52)) = bpow radix2 (-52)).
  { change (IZR (2 ^ 52)) with (bpow radix2 52); unfold Rdiv; rewrite <- bpow_opp, Rmult_1_l; reflexivity. }
  destruct (in_range (fdiv (f_of_Z 1) (f_of_Z (2 ^ 52))) (IZR 1 / IZR (2 ^ 52))) as [F V].
  - rewrite <- V1, <- V2; apply fdiv_correct; auto; rewrite V2; apply IZR_neq; lia.
  - rewrite Hr, Rabs_pos_eq by apply bpow_ge_0; apply bpow_le; lia.
  - split; auto; rewrite V, Hr; apply rnd_float, isfloat_bpow; lia.
Qed.

Lemma half_float r : isfloat r -> bpow radix2 (-1021) <= r -> isfloat (r / 2).
Proof.
  intros Hr H; replace (r / 2) with (r * bpow radix2 (-1)) by (cbn; lra).
  apply mult_bpow_exact_FLT; [exact Hr|].
  assert (mag radix2 r > -1021)%Z; [|change (SpecFloat.emin prec emax) with (-1074)%Z; unfold prec; lia].
  apply Z.lt_gt, mag_gt_bpow; rewrite Rabs_pos_eq; auto.
  apply Rle_trans with (bpow radix2 (-1021)); auto; apply bpow_ge_0.
Qed.

Section Check.
Variable b : f64.
Let B := fsub b f1.
Let Wm := linear_factor b largest_draw.
Hypothesis Hcheck : linear_check b = true.

Lemma check_parts :
  is_finite b = true /\ 1 <= B2R b <= 4 /\ is_finite B = true /\ bpow radix2 (-52) <= B2R B <= 4 /\
  is_finite Wm = true.
Proof.
  unfold linear_check in Hcheck; fold B Wm in Hcheck; rewrite !andb_true_iff in Hcheck.
  destruct Hcheck as ((((((((Fb & H1) & H4) & HB) & Hd) & FW) & HS1) & HS2) & HM).
  destruct f1_val as [F1 V1]; destruct f4_val as [F4 V4]; destruct f_lit52 as [F52 V52].
  apply finite_fle in H1; auto; apply finite_fle in H4; auto; rewrite V1 in H1; rewrite V4 in H4.
  destruct (in_range B (B2R b - B2R f1)) as [FB VB].
  { apply fsub_correct; auto. }
  { apply (le_1023 _ 3); [lia|]; rewrite V1, Rabs_pos_eq by lra; change (bpow radix2 3) with 8; lra. }
  apply finite_fle in HB; auto; rewrite V52 in HB.
  repeat split; auto; try lra.
  rewrite VB, V1; apply rnd_le_float; [apply (isfloat_IZR 4); lia|lra].
Qed.

Lemma check_bound : B2R Wm <= 2 * B2R B * (1 - bpow radix2 (-52)) /\ 0 <= B2R Wm.
Proof.
  destruct check_parts as (Fb & Hb & FB & HB & FW).
  pose proof Hcheck as HC; unfold linear_check in HC; fold B Wm in HC; rewrite !andb_true_iff in HC.
  destruct HC as (((_ & HS1) & HS2) & HM).
  destruct f2_val as [F2 V2]; destruct f_lit52 as [F52 V52].
  pose proof (bpow_gt_0 radix2 (-52)) as H52.
  assert (Hdouble : forall v : f64, is_finite v = true -> Rabs (B2R v) <= bpow radix2 10 ->
    is_finite (fmul f2 v) = true /\ B2R (fmul f2 v) = 2 * B2R v).
  { intros v Fv Hv; destruct (in_range (fmul f2 v) (B2R f2 * B2R v)) as [F V].
    - apply fmul_correct; auto.
    - apply (le_1023 _ 11); [lia|]; rewrite V2, Rabs_mult, (Rabs_pos_eq 2) by lra.
      change (bpow radix2 11) with 2048; change (bpow radix2 10) with 1024 in Hv; lra.
    - split; auto; rewrite V, V2; apply rnd_float; rewrite Rmult_comm; change 2 with (bpow radix2 1); apply isfloat_scale; [apply B2R_isfloat|lia]. }
  assert (H10 : bpow radix2 10 = 1024) by reflexivity.
  destruct (Hdouble B FB) as [F2B V2B]; [rewrite Rabs_pos_eq by lra; lra|].
  destruct (Hdouble (fmul f2 B) F2B) as [F4B V4B]; [rewrite V2B, Rabs_pos_eq by lra; lra|].
  assert (HW1 : Rabs (B2R Wm) <= bpow radix2 10).
  { apply finite_fle in HS2; auto; rewrite V4B, V2B in HS2.
    destruct (Rle_lt_dec 0 (B2R Wm)); [rewrite Rabs_pos_eq by lra; lra|].
    apply fle_spec in HS1 as (_ & _ & HS1).
    destruct (fmul_correct f2 Wm F2 FW) as (_ & K & _).
    rewrite (key_finite _ F2B), V2B, K in HS1.
    assert (ovf (rnd (B2R f2 * B2R Wm)) <= 0) by (apply ovf_neg, rnd_neg; rewrite V2; lra). lra. }
  destruct (Hdouble Wm FW HW1) as [F2W V2W].
  apply finite_fle in HS1; auto; apply finite_fle in HS2; auto; rewrite V2B, V2W in HS1; rewrite V4B, V2B in HS2.
  assert (Hex : isfloat (B2R (fmul f2 B) - B2R Wm)).
  { apply sterbenz; [typeclasses eauto|typeclasses eauto|apply B2R_isfloat|apply B2R_isfloat|rewrite V2B; lra]. }
  destruct (in_range (fsub (fmul f2 B) Wm) (B2R (fmul f2 B) - B2R Wm)) as [FD VD].
  { apply fsub_correct; auto. }
  { apply (le_1023 _ 10); [lia|]; rewrite V2B; apply Rabs_le; lra. }
  rewrite (rnd_float _ Hex), V2B in VD.
  destruct (in_range (fmul (fmul f2 B) (f_lit 1 (2 ^ 52))) (B2R (fmul f2 B) * B2R (f_lit 1 (2 ^ 52)))) as [FE VE].
  { apply fmul_correct; auto. }
  { apply (le_1023 _ 10); [lia|]; rewrite V2B, V52, Rabs_pos_eq by nra.
    assert (bpow radix2 (-52) <= 1) by (change 1 with (bpow radix2 0); apply bpow_le; lia). nra. }
  apply finite_fle in HM; auto; rewrite VD, VE, V52, V2B in HM.
  rewrite rnd_float in HM.
  2: { apply mult_bpow_exact_FLT; [rewrite <- V2B; apply B2R_isfloat|].
       assert (Hmag : (-52 < mag radix2 (2 * B2R B))%Z) by (apply mag_gt_bpow; rewrite Rabs_pos_eq by lra; lra).
       revert Hmag; generalize (mag_val radix2 _ (mag radix2 (2 * B2R B))); intros z Hz.
       change (SpecFloat.emin prec emax) with (-1074)%Z; change prec with 53%Z; lia. }
  split; lra.
Qed.

Lemma check_margin : linear_margin b.
Proof.
  destruct check_parts as (Fb & Hb & FB & HB & FW); destruct check_bound as [Hm _].
  assert (H1 : 1 < B2R b).
  { destruct (Rlt_le_dec 1 (B2R b)) as [|Hle]; auto; exfalso.
    destruct f1_val as [F1 V1]; destruct (in_range B (B2R b - B2R f1)) as [_ VB].
    { apply fsub_correct; auto. }
    { apply (le_1023 _ 3); [lia|]; rewrite V1; apply Rabs_le; change (bpow radix2 3) with 8; lra. }
    assert (B2R B <= 0) by (rewrite VB, V1; apply rnd_neg; lra). pose proof (bpow_gt_0 radix2 (-52)); lra. }
  pose proof Hcheck as HC; unfold linear_check in HC; fold B Wm in HC; rewrite !andb_true_iff in HC.
  destruct HC as ((((((((_ & _) & _) & _) & Hd) & _) & _) & _) & _).
  split; [exact Fb|split; [lra|split; [|exact Hm]]].
  apply fle_spec in Hd as (_ & _ & Hd).
  change (key f0) with 0 in Hd. unfold linear_radicand; fold B.
  assert (FD : is_finite (fsub (fmul b b) (fmul (fmul f4 B) largest_draw)) = true).
  { unfold Wm, linear_factor, linear_radicand in FW; fold B in FW.
    assert (Fs : is_finite (fsqrt (fsub (fmul b b) (fmul (fmul f4 B) largest_draw))) = true).
    { destruct (fsqrt (fsub (fmul b b) (fmul (fmul f4 B) largest_draw))) as [s|s| |s m ee H]; auto; exfalso; clear - FW;
      unfold fsub in FW; destruct b as [s'|s'| |s' m' e' H']; cbn in *; try discriminate; destruct s', s; discriminate. }
    destruct (fsub (fmul b b) (fmul (fmul f4 B) largest_draw)) as [s|[|]| |s m ee H]; auto; discriminate. }
  rewrite (key_finite _ FD) in Hd; exact Hd.
Qed.
End Check.

Section Bias.
Variable b : f64.
Let B := fsub b f1.
Let Wm := linear_factor b largest_draw.
Hypothesis Fb0 : is_finite b = true.
Hypothesis Hb0 : 1 < B2R b <= 4.
Hypothesis Hd0 : 0 <= B2R (linear_radicand b largest_draw).

Lemma parts : is_finite b = true /\ 1 <= B2R b <= 4 /\ is_finite B = true /\ bpow radix2 (-52) <= B2R B <= 4.
Proof.
  destruct f1_val as [F1 V1].
  destruct (in_range B (B2R b - B2R f1)) as [FB VB].
  { apply fsub_correct; auto. }
  { apply (le_1023 _ 3); [lia|]; rewrite V1, Rabs_pos_eq by lra; change (bpow radix2 3) with 8; lra. }
  rewrite V1 in VB.
  assert (H52 : 1 + bpow radix2 (-52) <= B2R b).
  { assert (E : succ radix2 (SpecFloat.fexp prec emax) 1 = 1 + bpow radix2 (-52)).
    { change 1 with (bpow radix2 0) at 1; rewrite succ_eq_pos by apply bpow_ge_0; rewrite ulp_bpow; reflexivity. }
    rewrite <- E; apply succ_le_lt; [typeclasses eauto|apply (isfloat_IZR 1); lia|apply B2R_isfloat|lra]. }
  split; [exact Fb0|split; [lra|split; [exact FB|rewrite VB; split]]].
  - apply rnd_ge_float; [apply isfloat_bpow; lia|lra].
  - apply rnd_le_float; [apply (isfloat_IZR 4); lia|lra].
Qed.

Lemma w_mono u : (u < 2 ^ 53)%N -> is_finite (linear_factor b (f_unit u)) = true /\ B2R (linear_factor b (f_unit u)) <= B2R Wm.
Proof.
  intros Hu; destruct parts as (Fb & Hb & FB & HB).
  pose proof Hd0 as Hd; unfold linear_radicand in Hd.
  destruct f4_val as [F4 V4].
  pose proof (bpow_gt_0 radix2 (-52)) as H52.
  destruct (f_unit_val u Hu) as [Fu _]; pose proof (f_unit_bound u Hu) as Bu; destruct u_max_val as [Fm Vm].
  rewrite <- Vm in Bu; pose proof (bpow_gt_0 radix2 (-53)) as H53.
  assert (Bm : 0 <= B2R largest_draw <= 1) by lra.
  unfold Wm, linear_factor, linear_radicand; fold B in Hd |- *.
  destruct (in_range (fmul f4 B) (B2R f4 * B2R B)) as [FC VC].
  { apply fmul_correct; auto. }
  { apply (le_1023 _ 4); [lia|]; rewrite V4, Rabs_pos_eq by lra; change (bpow radix2 4) with 16; lra. }
  set (C := fmul f4 B) in *.
  assert (HC : 0 <= B2R C <= 16).
  { rewrite VC, V4; split; [apply rnd_pos; lra|apply rnd_le_float; [apply (isfloat_IZR 16); lia|lra]]. }
  assert (Hq : forall v : f64, is_finite v = true -> 0 <= B2R v <= 1 ->
    is_finite (fmul C v) = true /\ B2R (fmul C v) = rnd (B2R C * B2R v) /\ 0 <= B2R (fmul C v) <= 16).
  { intros v Fv Hv; assert (0 <= B2R C * B2R v <= 16) by nra.
    destruct (in_range (fmul C v) (B2R C * B2R v)) as [Fq Vq].
    { apply fmul_correct; auto. }
    { apply (le_1023 _ 4); [lia|]; rewrite Rabs_pos_eq by lra; change (bpow radix2 4) with 16; lra. }
    split; auto; split; auto; rewrite Vq; split; [apply rnd_pos; lra|apply rnd_le_float; [apply (isfloat_IZR 16); lia|lra]]. }
  assert (Hbb : 0 <= B2R b * B2R b <= 16) by nra.
  destruct (in_range (fmul b b) (B2R b * B2R b)) as [Fbb Vbb].
  { apply fmul_correct; auto. }
  { apply (le_1023 _ 4); [lia|]; rewrite Rabs_pos_eq by lra; change (bpow radix2 4) with 16; lra. }
  set (b2 := fmul b b) in *.
  assert (Hb2 : 0 <= B2R b2 <= 16).
  { rewrite Vbb; split; [apply rnd_pos; lra|apply rnd_le_float; [apply (isfloat_IZR 16); lia|lra]]. }
  destruct (Hq (f_unit u) Fu ltac:(lra)) as (Fq & Vq & Hq1).
  destruct (Hq largest_draw Fm Bm) as (Fqm & Vqm & Hqm1).
  set (q := fmul C (f_unit u)) in *; set (qm := fmul C largest_draw) in *.
  assert (Hqq : B2R q <= B2R qm) by (rewrite Vq, Vqm; apply rnd_mono; nra).
  assert (Hsub : forall v : f64, is_finite v = true -> 0 <= B2R v <= 16 ->
    is_finite (fsub b2 v) = true /\ B2R (fsub b2 v) = rnd (B2R b2 - B2R v) /\ B2R (fsub b2 v) <= 16).
  { intros v Fv Hv; destruct (in_range (fsub b2 v) (B2R b2 - B2R v)) as [Fd Vd].
    { apply fsub_correct; auto. }
    { apply (le_1023 _ 4); [lia|]; apply Rabs_le; change (bpow radix2 4) with 16; lra. }
    split; auto; split; auto; rewrite Vd; apply rnd_le_float; [apply (isfloat_IZR 16); lia|lra]. }
  destruct (Hsub q Fq Hq1) as (Fd & Vd & Hd1); destruct (Hsub qm Fqm Hqm1) as (Fdm & Vdm & Hdm1).
  set (d := fsub b2 q) in *; set (dm := fsub b2 qm) in *.
  assert (Hdd : B2R dm <= B2R d) by (rewrite Vd, Vdm; apply rnd_mono; lra).
  assert (Hsq : forall v : f64, is_finite v = true -> 0 <= B2R v <= 16 ->
    is_finite (fsqrt v) = true /\ B2R (fsqrt v) = rnd (sqrt (B2R v)) /\ 0 <= B2R (fsqrt v) <= 4).
  { intros v Fv Hv; destruct (fsqrt_val v Fv) as [Fs Vs]; [lra|]. split; auto; split; auto.
    assert (0 <= sqrt (B2R v) <= 4).
    { split; [apply sqrt_pos|]. replace 4 with (sqrt 16); [apply sqrt_le_1_alt; lra|].
      replace 16 with (4 * 4) by lra; apply sqrt_square; lra. }
    rewrite Vs; split; [apply rnd_pos; lra|apply rnd_le_float; [apply (isfloat_IZR 4); lia|lra]]. }
  destruct (Hsq d Fd ltac:(lra)) as (Fs & Vs & Hs); destruct (Hsq dm Fdm ltac:(lra)) as (Fsm & Vsm & Hsm).
  set (s := fsqrt d) in *; set (sm := fsqrt dm) in *.
  assert (Hss : B2R sm <= B2R s) by (rewrite Vs, Vsm; apply rnd_mono, sqrt_le_1_alt; lra).
  assert (Hfin : forall v : f64, is_finite v = true -> 0 <= B2R v <= 4 ->
    is_finite (fsub b v) = true /\ B2R (fsub b v) = rnd (B2R b - B2R v)).
  { intros v Fv Hv; apply in_range; [apply fsub_correct; auto|].
    apply (le_1023 _ 4); [lia|]; apply Rabs_le; change (bpow radix2 4) with 16; lra. }
  destruct (Hfin s Fs Hs) as [Fw Vw]; destruct (Hfin sm Fsm Hsm) as [Fwm Vwm].
  split; auto; rewrite Vw, Vwm; apply rnd_mono; lra.
Qed.

Lemma two_errors (e fn : R) : 0 < e < /4 -> 0 < fn -> fn * (1 - 2 * e) * (1 + e) * (1 + e) < fn.
Proof.
  intros He Hf; replace (fn * (1 - 2 * e) * (1 + e) * (1 + e)) with (fn * (1 - e * e * (3 + 2 * e))) by ring.
  assert (0 < e * e * (3 + 2 * e)) by (apply Rmult_lt_0_compat; [apply Rmult_lt_0_compat|]; lra). nra.
Qed.

Lemma err_up r : bpow radix2 (-1022) <= r -> rnd r <= r * (1 + bpow radix2 (-53)).
Proof.
  intros H; pose proof (bpow_gt_0 radix2 (-1022)); assert (E : Rabs (rnd r - r) <= Rabs r * bpow radix2 (-53)) by (apply rnd_error; rewrite Rabs_pos_eq; lra).
  rewrite (Rabs_pos_eq r) in E by lra; apply Rabs_le_inv in E; lra.
Qed.

Lemma w_range u : (u < 2 ^ 53)%N -> -4 <= B2R (linear_factor b (f_unit u)) <= 4.
Proof.
    intros Hu; destruct (w_mono u Hu) as [Fw _]; destruct parts as (Fb & Hb & FB & HB).
    pose proof (bpow_gt_0 radix2 (-52)) as H52; pose proof (bpow_gt_0 radix2 (-53)) as H53.
    unfold linear_factor, linear_radicand; fold B.
    destruct (f_unit_val u Hu) as [Fu _]; pose proof (f_unit_bound u Hu) as Bu.
    destruct f4_val as [F4 V4].
    destruct (in_range (fmul f4 B) (B2R f4 * B2R B)) as [FC VC].
    { apply fmul_correct; auto. }
    { apply (le_1023 _ 4); [lia|]; rewrite V4, Rabs_pos_eq by lra; change (bpow radix2 4) with 16; lra. }
    assert (HC : 0 <= B2R (fmul f4 B) <= 16).
    { rewrite VC, V4; split; [apply rnd_pos; lra|apply rnd_le_float; [apply (isfloat_IZR 16); lia|lra]]. }
    set (C := fmul f4 B) in *.
    assert (Hcv : 0 <= B2R C * B2R (f_unit u) <= 16) by nra.
    destruct (in_range (fmul C (f_unit u)) (B2R C * B2R (f_unit u))) as [Fq Vq].
    { apply fmul_correct; auto. }
    { apply (le_1023 _ 4); [lia|]; rewrite Rabs_pos_eq by lra; change (bpow radix2 4) with 16; lra. }
    assert (Hq : 0 <= B2R (fmul C (f_unit u)) <= 16).
    { rewrite Vq; split; [apply rnd_pos; lra|apply rnd_le_float; [apply (isfloat_IZR 16); lia|lra]]. }
    set (q := fmul C (f_unit u)) in *.
    assert (Hbb : 0 <= B2R b * B2R b <= 16) by nra.
    destruct (in_range (fmul b b) (B2R b * B2R b)) as [Fbb Vbb].
    { apply fmul_correct; auto. }
    { apply (le_1023 _ 4); [lia|]; rewrite Rabs_pos_eq by lra; change (bpow radix2 4) with 16; lra. }
    assert (Hb2 : 0 <= B2R (fmul b b) <= 16).
    { rewrite Vbb; split; [apply rnd_pos; lra|apply rnd_le_float; [apply (isfloat_IZR 16); lia|lra]]. }
    set (b2 := fmul b b) in *.
    destruct (in_range (fsub b2 q) (B2R b2 - B2R q)) as [Fd Vd].
    { apply fsub_correct; auto. }
    { apply (le_1023 _ 4); [lia|]; apply Rabs_le; change (bpow radix2 4) with 16; lra. }
    assert (Hd1 : B2R (fsub b2 q) <= 16) by (rewrite Vd; apply rnd_le_float; [apply (isfloat_IZR 16); lia|lra]).
    unfold linear_factor, linear_radicand in Fw; fold B C b2 q in Fw.
    set (d := fsub b2 q) in *.
    assert (Fs : is_finite (fsqrt d) = true).
    { destruct (fsqrt d) as [s|s| |s m ee H]; auto; exfalso; clear - Fw Fb;
      unfold fsub in Fw; destruct b as [s'|s'| |s' m' e' H']; cbn in *; discriminate. }
    assert (Vs : B2R (fsqrt d) = rnd (sqrt (B2R d))).
    { unfold fsqrt; destruct (Bsqrt_correct prec emax _ _ mode_NE d) as (H1 & _ & _); exact H1. }
    assert (Hs : 0 <= B2R (fsqrt d) <= 4).
    { assert (0 <= sqrt (B2R d) <= 4).
      { split; [apply sqrt_pos|]. replace 4 with (sqrt 16); [apply sqrt_le_1_alt; lra|].
        replace 16 with (4 * 4) by lra; apply sqrt_square; lra. }
      rewrite Vs; split; [apply rnd_pos; lra|apply rnd_le_float; [apply (isfloat_IZR 4); lia|lra]]. }
    destruct (in_range (fsub b (fsqrt d)) (B2R b - B2R (fsqrt d))) as [_ V].
    { apply fsub_correct; auto. }
    { apply (le_1023 _ 4); [lia|]; apply Rabs_le; change (bpow radix2 4) with 16; lra. }
    rewrite V; split; [apply rnd_ge_float; [apply (isfloat_IZR (-4)); lia|lra]|apply rnd_le_float; [apply (isfloat_IZR 4); lia|lra]].
Qed.

(** The offset does not decrease with the draw. *)
Lemma offset_mono n u : (1 <= n)%nat -> fits_usize n -> (u < 2 ^ 53)%N -> (linear_offset n b (f_unit u) <= linear_offset n b largest_draw)%nat.
Proof.
  intros Hn Hf Hu; destruct parts as (Fb & Hb & FB & HB).
  destruct (w_mono u Hu) as [Fw Hw]; pose proof (w_range u Hu) as Hr.
  destruct (w_mono (2 ^ 53 - 1) eq_refl) as [FW _]; pose proof (w_range (2 ^ 53 - 1) eq_refl) as HR.
  fold largest_draw in FW, HR; unfold Wm in Hw.
  unfold linear_offset; fold (linear_radicand b (f_unit u)) (linear_radicand b largest_draw).
  fold (linear_factor b (f_unit u)) (linear_factor b largest_draw); fold B.
  set (w := linear_factor b (f_unit u)) in *; set (w' := linear_factor b largest_draw) in *.
  destruct (f_of_nat_finite n Hf) as [Fn Vn]; pose proof (f_of_nat_ge1 n Hn Hf) as Hg.
  set (fn := f_of_nat n) in *.
  assert (Hfn64 : B2R fn <= bpow radix2 64).
  { rewrite Vn; apply rnd_le_float; [apply isfloat_bpow; lia|].
    rewrite INR_IZR_INZ; change (bpow radix2 64) with (IZR (2 ^ 64)); apply IZR_le; unfold fits_usize, usize_max in Hf; lia. }
  assert (Hm67 : bpow radix2 67 = bpow radix2 64 * 8) by (change 67%Z with (64 + 3)%Z; rewrite bpow_plus; reflexivity).
  pose proof (bpow_gt_0 radix2 64) as H64; pose proof (bpow_gt_0 radix2 67) as H67.
  assert (H1 : forall x : f64, is_finite x = true -> -4 <= B2R x <= 4 -> is_finite (fmul fn x) = true /\ B2R (fmul fn x) = rnd (B2R fn * B2R x) /\
    - bpow radix2 67 <= B2R (fmul fn x) <= bpow radix2 67).
  { intros x Fx Hx; destruct (in_range (fmul fn x) (B2R fn * B2R x)) as [Fm Vm].
    - apply fmul_correct; auto.
    - apply (le_1023 _ 67); [lia|]; rewrite Hm67, Rabs_mult, (Rabs_pos_eq (B2R fn)) by lra.
      apply Rmult_le_compat; try lra; [apply Rabs_pos|apply Rabs_le; lra].
    - assert (Hfb : isfloat (bpow radix2 67)) by (apply isfloat_bpow; lia).
      split; auto; split; auto.
      rewrite Vm; split; [apply rnd_ge_float; [apply generic_format_opp; auto|]|apply rnd_le_float; auto]; rewrite Hm67; nra. }
  destruct (H1 w Fw Hr) as (Fm & Vm & Rm); destruct (H1 w' FW HR) as (Fm' & Vm' & Rm').
  assert (Hm : B2R (fmul fn w) <= B2R (fmul fn w')) by (rewrite Vm, Vm'; apply rnd_mono; nra).
  set (m := fmul fn w) in *; set (m' := fmul fn w') in *; clear H1 Vm Vm'.
  destruct f2_val as [F2 V2].
  assert (H2 : forall x : f64, is_finite x = true -> - bpow radix2 67 <= B2R x <= bpow radix2 67 ->
    is_finite (fdiv x f2) = true /\ B2R (fdiv x f2) = rnd (B2R x / 2) /\ - bpow radix2 67 <= B2R (fdiv x f2) <= bpow radix2 67).
  { intros x Fx Hx; destruct (in_range (fdiv x f2) (B2R x / B2R f2)) as [Fh Vh].
    - apply fdiv_correct; auto; rewrite V2; lra.
    - apply (le_1023 _ 67); [lia|]; rewrite V2; apply Rabs_le; lra.
    - rewrite V2 in Vh; split; auto; split; auto.
      assert (Hfb : isfloat (bpow radix2 67)) by (apply isfloat_bpow; lia).
      rewrite Vh; split; [apply rnd_ge_float; [apply generic_format_opp; auto|lra]|apply rnd_le_float; auto; lra]. }
  destruct (H2 m Fm Rm) as (Fh & Vh & Rh); destruct (H2 m' Fm' Rm') as (Fh' & Vh' & Rh').
  assert (Hh : B2R (fdiv m f2) <= B2R (fdiv m' f2)) by (rewrite Vh, Vh'; apply rnd_mono; lra).
  set (h := fdiv m f2) in *; set (h' := fdiv m' f2) in *; clear H2 Vh Vh'.
  pose proof (bpow_gt_0 radix2 (-52)) as H52.
  assert (HBi : B2R B <> 0) by lra.
  assert (H3 : forall x : f64, is_finite x = true -> - bpow radix2 67 <= B2R x <= bpow radix2 67 ->
    is_finite (fdiv x B) = true /\ B2R (fdiv x B) = rnd (B2R x / B2R B)).
  { intros x Fx Hx; apply in_range; [apply fdiv_correct; auto|].
    apply (le_1023 _ 120); [lia|].
    assert (K : bpow radix2 67 <= bpow radix2 120 * B2R B).
    { apply Rle_trans with (bpow radix2 120 * bpow radix2 (-52)); [rewrite <- bpow_plus; apply bpow_le; lia|].
      apply Rmult_le_compat_l; [apply bpow_ge_0|lra]. }
    apply Rabs_le; split; apply (Rmult_le_reg_r (B2R B)); try lra; unfold Rdiv; rewrite Rmult_assoc, Rinv_l, Rmult_1_r by auto; lra. }
  destruct (H3 h Fh Rh) as (Fv & Vv); destruct (H3 h' Fh' Rh') as (Fv' & Vv').
  rewrite !f_to_usize_val by auto.
  assert (Hto : forall a c : Z, (a <= c)%Z -> (Z.to_nat a <= Z.to_nat c)%nat) by (intros; lia).
  apply Hto; apply Z.min_le_compat_r, Ztrunc_le; rewrite Vv, Vv'; apply rnd_mono.
  apply Rmult_le_compat_r; [left; apply Rinv_0_lt_compat; lra|exact Hh].
Qed.

Hypothesis Hmargin : B2R Wm <= 2 * B2R B * (1 - bpow radix2 (-52)).

Lemma offset_lt n u : (1 <= n)%nat -> fits_usize n -> (u < 2 ^ 53)%N -> (linear_offset n b (f_unit u) < n)%nat.
Proof.
  intros Hn Hf Hu; destruct parts as (Fb & Hb & FB & HB).
  destruct (w_mono u Hu) as [Fw Hw]; pose proof Hmargin as Hm.
  unfold linear_offset; fold (linear_radicand b (f_unit u)); fold (linear_factor b (f_unit u)); fold B.
  set (w := linear_factor b (f_unit u)) in *.
  destruct (f_of_nat_finite n Hf) as [Fn Vn]; pose proof (f_of_nat_ge1 n Hn Hf) as Hg.
  set (fn := f_of_nat n) in *.
  pose proof (bpow_gt_0 radix2 (-52)) as H52; pose proof (bpow_gt_0 radix2 (-53)) as H53.
  assert (E52 : bpow radix2 (-52) = 2 * bpow radix2 (-53)) by (change (-52)%Z with (1 + -53)%Z; rewrite bpow_plus; cbn [bpow radix2]; reflexivity).
  assert (H53s : bpow radix2 (-53) < / 4) by (change (/ 4) with (bpow radix2 (-2)); apply bpow_lt; lia).
  set (e := bpow radix2 (-53)) in *.
  assert (Hfn64 : B2R fn <= bpow radix2 64).
  { rewrite Vn; apply rnd_le_float; [apply isfloat_bpow; lia|].
    rewrite INR_IZR_INZ; change (bpow radix2 64) with (IZR (2 ^ 64)); apply IZR_le; unfold fits_usize, usize_max in Hf; lia. }
  assert (H3 : bpow radix2 3 = 8) by reflexivity.
  assert (Hwl : -4 <= B2R w) by apply (w_range u Hu).
  assert (Hwu : B2R w <= 8).
  { eapply Rle_trans; [exact Hw|]; nra. }
  (* the product *)
  set (X := 2 * B2R B * (1 - 2 * e)) in *; rewrite E52 in Hm; fold X in Hm.
  assert (HX : B2R B <= X) by (unfold X; nra).
  assert (Hm67 : bpow radix2 67 = bpow radix2 64 * 8) by (change 67%Z with (64 + 3)%Z; rewrite bpow_plus; reflexivity).
  destruct (in_range (fmul fn w) (B2R fn * B2R w)) as [Fm Vm].
  { apply fmul_correct; auto. }
  { apply (le_1023 _ 67); [lia|]; rewrite Hm67, Rabs_mult, (Rabs_pos_eq (B2R fn)) by lra.
    apply Rmult_le_compat; try lra; [apply Rabs_pos|apply Rabs_le; lra]. }
  assert (Hm1 : B2R (fmul fn w) <= rnd (B2R fn * X)) by (rewrite Vm; apply rnd_mono; nra).
  assert (Hm1' : - bpow radix2 67 <= B2R (fmul fn w) <= bpow radix2 67).
  { assert (Hfb : isfloat (bpow radix2 67)) by (apply isfloat_bpow; lia).
    pose proof (bpow_gt_0 radix2 64).
    rewrite Vm; split; [apply rnd_ge_float; [apply generic_format_opp; auto|]|apply rnd_le_float; auto]; rewrite Hm67; nra. }
  set (m := fmul fn w) in *.
  destruct f2_val as [F2 V2].
  destruct (in_range (fdiv m f2) (B2R m / B2R f2)) as [Fh Vh].
  { apply fdiv_correct; auto; rewrite V2; lra. }
  { apply (le_1023 _ 67); [lia|]; rewrite V2; apply Rabs_le; pose proof (bpow_gt_0 radix2 67); lra. }
  rewrite V2 in Vh; set (h := fdiv m f2) in *.
  assert (HfX : bpow radix2 (-52) <= B2R fn * X) by nra.
  assert (Hrx : bpow radix2 (-52) <= rnd (B2R fn * X)) by (apply rnd_ge_float; [apply isfloat_bpow; lia|auto]).
  assert (H1021 : bpow radix2 (-1021) <= bpow radix2 (-52)) by (apply bpow_le; lia).
  assert (H1022 : bpow radix2 (-1022) <= bpow radix2 (-53)) by (apply bpow_le; lia). fold e in H1022.
  assert (Hh1 : B2R h <= rnd (B2R fn * X) / 2).
  { rewrite Vh; apply rnd_le_float; [apply half_float; [apply rnd_isfloat|lra]|lra]. }
  assert (Hh2 : B2R h <= B2R fn * X * (1 + e) / 2).
  { eapply Rle_trans; [exact Hh1|]; assert (rnd (B2R fn * X) <= B2R fn * X * (1 + e)) by (apply err_up; lra); lra. }
  assert (Hh3 : - bpow radix2 67 <= B2R h).
  { rewrite Vh; apply rnd_ge_float; [apply generic_format_opp, isfloat_bpow; lia|]; pose proof (bpow_gt_0 radix2 67); lra. }
  assert (HBi : B2R B <> 0) by lra.
  assert (Hz : B2R h / B2R B <= B2R fn * (1 - 2 * e) * (1 + e)).
  { apply (Rmult_le_reg_r (B2R B)); [lra|]; unfold Rdiv; rewrite Rmult_assoc, Rinv_l, Rmult_1_r by auto.
    eapply Rle_trans; [exact Hh2|]; unfold X; right; field. }
  assert (Hz0 : 0 < B2R fn * (1 - 2 * e) * (1 + e)) by (repeat apply Rmult_lt_0_compat; lra).
  assert (Hzl : - bpow radix2 120 <= B2R h / B2R B).
  { apply (Rmult_le_reg_r (B2R B)); [lra|]; unfold Rdiv; rewrite Rmult_assoc, Rinv_l, Rmult_1_r by auto.
    apply Rle_trans with (- bpow radix2 67); auto.
    assert (bpow radix2 67 <= bpow radix2 120 * B2R B); [|lra].
    apply Rle_trans with (bpow radix2 120 * bpow radix2 (-52)); [rewrite <- bpow_plus; apply bpow_le; lia|].
    apply Rmult_le_compat_l; [apply bpow_ge_0|lra]. }
  assert (Hz1 : B2R fn * (1 - 2 * e) * (1 + e) <= B2R fn) by nra.
  destruct (in_range (fdiv h B) (B2R h / B2R B)) as [Fv Vv].
  { apply fdiv_correct; auto. }
  { apply (le_1023 _ 120); [lia|]; apply Rabs_le; split; [lra|].
    apply Rle_trans with (bpow radix2 64); [lra|apply bpow_le; lia]. }
  assert (Hv : B2R (fdiv h B) < B2R fn).
  { rewrite Vv; eapply Rle_lt_trans; [apply rnd_mono; exact Hz|].
    assert (Hlow : bpow radix2 (-1022) <= B2R fn * (1 - 2 * e) * (1 + e)).
    { apply Rle_trans with (bpow radix2 (-1)); [apply bpow_le; lia|]. change (bpow radix2 (-1)) with (/ 2).
      assert (/ 2 <= (1 - 2 * e) * (1 + e)) by nra. nra. }
    eapply Rle_lt_trans; [apply err_up; exact Hlow|]. fold e; apply two_errors; lra. }
  rewrite Vn in Hv; apply float_lt_rnd in Hv; [|apply B2R_isfloat].
  assert (Hle : (f_to_usize (fdiv h B) <= Z.to_nat (Z.of_nat n - 1))%nat).
  { apply f_to_usize_le; auto.
    - apply finite_not_nan; auto.
    - unfold fits_usize in Hf; lia.
    - rewrite minus_IZR, <- INR_IZR_INZ; lra. }
  lia.
Qed.
End Bias.

Section Lin.
Context {I : Type} (io : individual_ops I) (fexp : f64 -> f64).

Lemma linear_must b (p : population I) :
  linear_margin b -> individuals p <> [] -> fits_usize (length (individuals p)) ->
  must (select io fexp (Linear b) p) (entry p).
Proof.
  intros (Fb & Hb & Hd & Hm) Hp Hf; cbn [select]; unfold linear_select.
  assert (Hn : (1 <= length (individuals p))%nat) by (destruct (individuals p); cbn; [congruence|lia]).
  apply must_bind, must_gen_f64; intros u Hu.
  pose proof (offset_lt b Fb Hb Hd Hm _ u Hn Hf Hu) as Ho; cbv zeta.
  apply must_bind, must_massert; split; [apply Nat.ltb_lt; auto|].
  destruct (nth_error_lt (individuals p) (length (individuals p) - linear_offset (length (individuals p)) b (f_unit u) - 1)) as [x Hx]; [lia|].
  rewrite (idx_some _ _ _ Hx); cbn; exact Hx.
Qed.

(** If the largest draw selects, every draw does. *)
Lemma linear_largest b (p : population I) (k : N -> M (nat * I)) r :
  is_finite b = true -> 1 < B2R b <= 4 -> 0 <= B2R (linear_radicand b largest_draw) ->
  individuals p <> [] -> fits_usize (length (individuals p)) ->
  select io fexp (Linear b) p = Draw (2 ^ 53) k -> k (2 ^ 53 - 1)%N = Ret r ->
  must (select io fexp (Linear b) p) (entry p).
Proof.
  intros Fb Hb Hd Hp Hf Hk Hr.
  assert (Hn : (1 <= length (individuals p))%nat) by (destruct (individuals p); cbn; [congruence|lia]).
  assert (Ho : (linear_offset (length (individuals p)) b largest_draw < length (individuals p))%nat).
  { cbn [select] in Hk; unfold linear_select, gen_f64 in Hk; cbn [bind] in Hk; injection Hk as <-.
    revert Hr; fold largest_draw; unfold massert.
    destruct (Nat.ltb_spec (linear_offset (length (individuals p)) b largest_draw) (length (individuals p))); auto; discriminate. }
  cbn [select]; unfold linear_select.
  apply must_bind, must_gen_f64; intros u Hu.
  pose proof (offset_mono b Fb Hb Hd _ u Hn Hf Hu) as Hm; cbv zeta.
  apply must_bind, must_massert; split; [apply Nat.ltb_lt; lia|].
  destruct (nth_error_lt (individuals p) (length (individuals p) - linear_offset (length (individuals p)) b (f_unit u) - 1)) as [x Hx]; [lia|].
  rewrite (idx_some _ _ _ Hx); cbn; exact Hx.
Qed.

(** The biases 1.15, 1.2, 1.25, 1.3, 1.4, 1.5, 1.6, 1.7, 1.75, 1.8, 1.9, 2, 2.5 *)
Definition sound_biases : list f64 :=
  map (fun pq => f_lit (fst pq) (snd pq))
    [(115, 100); (12, 10); (125, 100); (13, 10); (14, 10); (15, 10); (16, 10); (17, 10); (175, 100); (18, 10); (19, 10); (2, 1); (25, 10)]%Z.

Lemma sound_check : forallb linear_check sound_biases = true.
Proof. vm_compute; reflexivity. Qed.

Lemma sound_margin num den :
  In (num, den) [(115, 100); (12, 10); (125, 100); (13, 10); (14, 10); (15, 10); (16, 10); (17, 10);
                 (175, 100); (18, 10); (19, 10); (2, 1); (25, 10)]%Z -> linear_margin (f_lit num den).
Proof.
  intros Hin; apply check_margin; pose proof sound_check as H; rewrite forallb_forall in H; apply H.
  unfold sound_biases; apply in_map_iff; exists (num, den); split; auto.
Qed.

Lemma offset_1_1 : (linear_offset 10 (f_lit 11 10) (f_unit (2 ^ 53 - 1)) = 10)%nat.
Proof. vm_compute; reflexivity. Qed.
End Lin.
