(** * PInterp: proofs about the interpolation functions of src/lib.rs (C55). *)
From Coq Require Import List Bool Arith NArith ZArith Reals Lia Lra.
From Flocq Require Import Core BinarySingleNaN.
From Verif Require Import Rnd LRnd F64 LF64 MStats MPopulation MSelection MModel MAlgorithms SpecF PSelection PLinear.
Import ListNotations.
Open Scope R_scope.

Lemma unit_closed_spec r : in_unit_closed r = true <-> is_finite r = true /\ 0 <= B2R r <= 1.
Proof.
  unfold in_unit_closed; rewrite andb_true_iff, !fle_spec.
  destruct f1_val as [F1 V1]; rewrite (key_finite f1), V1 by auto; change (key f0) with 0%R.
  assert (1 < big) by (change 1 with (bpow radix2 0); apply bpow_lt; lia).
  split.
  - intros ((_ & Hn & H0) & (_ & _ & H1)).
    assert (F : is_finite r = true) by (apply key_finite_iff; auto; lra).
    rewrite key_finite in * by auto; auto.
  - intros [F H0]; rewrite key_finite by auto; pose proof (finite_not_nan r F).
    repeat split; auto; lra.
Qed.

(** ** usize *)
Lemma interpolate_is_bound n ratio : fits_usize n -> in_unit_halfopen ratio = true ->
  interpolate_usize 0 n ratio = Ret (elitist_bound n ratio).
Proof.
  intros Hf Hr; apply halfopen_spec in Hr as [Fr Hr]; unfold interpolate_usize, elitist_bound; cbn [Nat.leb massert bind].
  rewrite Nat.sub_0_r; f_equal.
  destruct (f_of_nat_finite n Hf) as [Fn Vn].
  assert (Hb : 0 <= B2R (f_of_nat n) <= bpow radix2 64).
  { rewrite Vn; split; [apply rnd_pos, pos_INR|]; apply rnd_le_float; [apply isfloat_bpow; lia|].
    rewrite INR_IZR_INZ; change (bpow radix2 64) with (IZR (2 ^ 64)); apply IZR_le; unfold fits_usize, usize_max in Hf; lia. }
  destruct (in_range _ _ (fmul_correct _ _ Fn Fr)) as [Fm Vm].
  { apply (le_1023 _ 64); [lia|]; rewrite Rabs_pos_eq; nra. }
  assert (Hm : 0 <= B2R (fmul (f_of_nat n) ratio) <= bpow radix2 64).
  { rewrite Vm; split; [apply rnd_pos; nra|]; apply rnd_le_float; [apply isfloat_bpow; lia|nra]. }
  assert (F0 : is_finite (f_of_nat 0) = true) by reflexivity.
  assert (V0 : B2R (f_of_nat 0) = 0) by reflexivity.
  destruct (in_range _ _ (fadd_correct _ _ F0 Fm)) as [Fa Va].
  { apply (le_1023 _ 64); [lia|]; rewrite V0, Rabs_pos_eq; lra. }
  rewrite V0, Rplus_0_l, (rnd_float _ (B2R_isfloat _)) in Va.
  destruct (f_floor_val _ Fm) as [Ff Vf].
  rewrite !f_to_usize_val by auto; rewrite Va, Vf, Ztrunc_IZR, Ztrunc_floor by lra; reflexivity.
Qed.

(** ** f64 *)
Lemma rnd_half x : 0 <= x <= 1 -> Rabs (rnd x - x) <= bpow radix2 (-54).
Proof.
  intros Hx; destruct (Req_dec x 1) as [->|H1].
  { rewrite rnd_float; [rewrite Rminus_diag_eq, Rabs_R0 by auto; apply bpow_ge_0|].
    change 1 with (bpow radix2 0); apply isfloat_bpow; lia. }
  eapply Rle_trans; [apply error_le_half_ulp; auto with typeclass_instances|].
  destruct (Req_dec x 0) as [->|H0].
  { unfold ulp; rewrite Req_bool_true by auto.
    destruct (negligible_exp_spec' (SpecFloat.fexp prec emax)) as [[_ Hn]|(n & E & Hn)].
    - specialize (Hn (-2000)%Z); unfold SpecFloat.fexp, SpecFloat.emin, prec, emax in Hn; lia.
    - rewrite E; assert (SpecFloat.fexp prec emax n = -1074)%Z.
      { unfold SpecFloat.fexp, SpecFloat.emin, prec, emax in *; lia. }
      rewrite H; apply Rle_trans with (bpow radix2 (-1074)); [pose proof (bpow_gt_0 radix2 (-1074)); lra|apply bpow_le; lia]. }
  rewrite ulp_neq_0 by auto; unfold cexp.
  assert (mag radix2 x <= 0)%Z.
  { apply mag_le_bpow; auto; rewrite Rabs_pos_eq by lra; change (bpow radix2 0) with 1; lra. }
  apply Rle_trans with (/2 * bpow radix2 (-53)).
  - apply Rmult_le_compat_l; [lra|]; apply bpow_le; unfold SpecFloat.fexp, SpecFloat.emin, prec, emax.
    revert H; generalize (mag radix2 x : Z); intros; lia.
  - change (/2) with (bpow radix2 (-1)); rewrite <- bpow_plus; apply bpow_le; lia.
Qed.

Lemma rnd_above_one x : x <= 1 + bpow radix2 (-54) -> rnd x <= 1.
Proof.
  intros H; eapply Rle_trans; [apply rnd_mono, H|].
  assert (F1 : generic_format radix2 (SpecFloat.fexp prec emax) 1).
  { change 1 with (bpow radix2 0); apply isfloat_bpow; lia. }
  apply round_N_le_midp; auto with typeclass_instances.
  rewrite succ_eq_pos by lra.
  change 1 with (bpow radix2 0) at 4; rewrite ulp_bpow.
  change (SpecFloat.fexp prec emax (0 + 1))%Z with (-52)%Z.
  assert (bpow radix2 (-54) < bpow radix2 (-53)) by (apply bpow_lt; lia).
  assert (bpow radix2 (-52) = 2 * bpow radix2 (-53)) by (change 2 with (bpow radix2 1); rewrite <- bpow_plus; reflexivity).
  lra.
Qed.

(** Finite, in [0,1], and the three steps *)
Section Interp.
Variables mn mx : f64.
Hypotheses (Fn : is_finite mn = true) (Fx : is_finite mx = true) (Hn : 0 <= B2R mn <= 1) (Hx : 0 <= B2R mx <= 1).

Lemma small_range r : Rabs r <= 2 -> Rabs r <= bpow radix2 1023.
Proof. intros H; apply (le_1023 _ 1); [lia|exact H]. Qed.

Definition span : R := rnd (B2R mx - B2R mn).
Lemma span_val : is_finite (fsub mx mn) = true /\ B2R (fsub mx mn) = span.
Proof. apply in_range; [apply fsub_correct; auto|]; apply small_range, Rabs_le; lra. Qed.

Lemma isfloat_1 : isfloat 1.
Proof. change 1 with (bpow radix2 0); apply isfloat_bpow; lia. Qed.

Lemma span_bound : -1 <= span <= 1.
Proof.
  unfold span; split.
  - apply rnd_ge_float; [|lra]; change (-1) with (- (1)); apply generic_format_opp, isfloat_1.
  - apply rnd_le_float; [apply isfloat_1|lra].
Qed.

Lemma interp_val ratio : is_finite ratio = true -> 0 <= B2R ratio <= 1 ->
  is_finite (interpolate_f64 mn mx ratio) = true /\
  B2R (interpolate_f64 mn mx ratio) = rnd (B2R mn + rnd (span * B2R ratio)).
Proof.
  intros Fr Hr; destruct span_val as [Fd Vd]; pose proof span_bound as Hd; unfold interpolate_f64.
  destruct (in_range _ _ (fmul_correct _ _ Fd Fr)) as [Fm Vm].
  { rewrite Vd; apply small_range, Rabs_le; nra. }
  rewrite Vd in Vm.
  assert (Hm : -1 <= rnd (span * B2R ratio) <= 1).
  { split; [apply rnd_ge_float; [|nra]; change (-1) with (- (1)); apply generic_format_opp, isfloat_1|].
    apply rnd_le_float; [apply isfloat_1|nra]. }
  rewrite <- Vm; apply in_range; [apply fadd_correct; auto|]; apply small_range, Rabs_le; rewrite Vm; lra.
Qed.

Lemma interp_bounds ratio : is_finite ratio = true -> 0 <= B2R ratio <= 1 ->
  let v := B2R (interpolate_f64 mn mx ratio) in
  0 <= v <= 1 /\ (B2R mn <= B2R mx -> B2R mn <= v) /\ (B2R mx <= B2R mn -> v <= B2R mn).
Proof.
  intros Fr Hr; cbv zeta; destruct (interp_val ratio Fr Hr) as [_ ->]; pose proof span_bound as Hsb.
  destruct (Rle_lt_dec (B2R mn) (B2R mx)) as [Hle|Hlt].
  - assert (Hs0 : 0 <= span) by (apply rnd_pos; lra).
    assert (Ht0 : 0 <= rnd (span * B2R ratio)) by (apply rnd_pos; nra).
    assert (Ht1 : rnd (span * B2R ratio) <= span) by (apply rnd_le_float; [apply rnd_isfloat|nra]).
    assert (Hlow : B2R mn <= rnd (B2R mn + rnd (span * B2R ratio))) by (apply rnd_ge_float; [apply B2R_isfloat|lra]).
    split; [split; [lra|]|split; [auto|]].
    + apply rnd_above_one; assert (Hs : span <= rnd (1 - B2R mn)) by (apply rnd_mono; lra).
      assert (He : Rabs (rnd (1 - B2R mn) - (1 - B2R mn)) <= bpow radix2 (-54)) by (apply rnd_half; lra).
      apply Rabs_le_inv in He; lra.
    + intros H; assert (E : B2R mn = B2R mx) by lra.
      assert (span = 0) by (unfold span; rewrite E, Rminus_diag_eq by auto; apply rnd_0).
      rewrite H0, Rmult_0_l, rnd_0, Rplus_0_r; apply rnd_le_float; [apply B2R_isfloat|lra].
  - assert (Hs0 : span <= 0) by (apply rnd_neg; lra).
    assert (Ht0 : rnd (span * B2R ratio) <= 0) by (apply rnd_neg; nra).
    assert (Ht1 : span <= rnd (span * B2R ratio)) by (apply rnd_ge_float; [apply rnd_isfloat|nra]).
    assert (Hup : rnd (B2R mn + rnd (span * B2R ratio)) <= B2R mn) by (apply rnd_le_float; [apply B2R_isfloat|lra]).
    split; [split; [|lra]|split; [lra|auto]].
    apply rnd_pos; assert (- B2R mn <= span); [|lra].
    apply rnd_ge_float; [apply generic_format_opp, B2R_isfloat|lra].
Qed.

Lemma interp_mono r1 r2 : is_finite r1 = true -> is_finite r2 = true -> 0 <= B2R r1 -> B2R r1 <= B2R r2 -> B2R r2 <= 1 ->
  (B2R mn <= B2R mx -> B2R (interpolate_f64 mn mx r1) <= B2R (interpolate_f64 mn mx r2)) /\
  (B2R mx <= B2R mn -> B2R (interpolate_f64 mn mx r2) <= B2R (interpolate_f64 mn mx r1)).
Proof.
  intros F1 F2 H0 H1 H2; destruct (interp_val r1 F1) as [_ ->]; [lra|]; destruct (interp_val r2 F2) as [_ ->]; [lra|].
  split; intros H; apply rnd_mono, Rplus_le_compat_l, rnd_mono.
  - assert (0 <= span) by (apply rnd_pos; lra); nra.
  - assert (span <= 0) by (apply rnd_neg; lra); nra.
Qed.

Lemma interp_zero ratio : is_finite ratio = true -> B2R ratio = 0 -> B2R (interpolate_f64 mn mx ratio) = B2R mn.
Proof.
  intros Fr Hr; destruct (interp_val ratio Fr) as [_ ->]; [lra|]; rewrite Hr, Rmult_0_r, rnd_0, Rplus_0_r.
  apply rnd_float, B2R_isfloat.
Qed.

(** At most one rounding step past the end *)
Lemma interp_over ratio : is_finite ratio = true -> 0 <= B2R ratio <= 1 -> B2R mn <= B2R mx ->
  B2R (interpolate_f64 mn mx ratio) <= B2R mx + bpow radix2 (-53).
Proof.
  intros Fr Hr Hle; destruct (interp_val ratio Fr Hr) as [_ ->]; pose proof span_bound as Hsb.
  assert (Hs0 : 0 <= span) by (apply rnd_pos; lra).
  assert (Ht1 : rnd (span * B2R ratio) <= span) by (apply rnd_le_float; [apply rnd_isfloat|nra]).
  assert (He : Rabs (span - (B2R mx - B2R mn)) <= bpow radix2 (-54)) by (apply rnd_half; lra).
  apply Rabs_le_inv in He.
  assert (H53 : bpow radix2 (-53) = 2 * bpow radix2 (-54)) by (change 2 with (bpow radix2 1); rewrite <- bpow_plus; reflexivity).
  pose proof (bpow_gt_0 radix2 (-54)) as Hp.
  set (s := B2R mn + rnd (span * B2R ratio)).
  assert (Hs : s <= B2R mx + bpow radix2 (-54)) by (unfold s; lra).
  destruct (Rle_lt_dec s 1) as [H1|H1].
  - assert (0 <= s) by (unfold s; assert (0 <= rnd (span * B2R ratio)) by (apply rnd_pos; nra); lra).
    pose proof (rnd_half s ltac:(lra)) as Hh; apply Rabs_le_inv in Hh; lra.
  - assert (rnd s <= 1) by (apply rnd_above_one; lra); lra.
Qed.
End Interp.

Lemma interp_exceeds : exists mn mx, in_unit_closed mn = true /\ in_unit_closed mx = true /\ fle mn mx = true /\
  flt mx (interpolate_f64 mn mx f1) = true.
Proof. exists (f_lit 3 100), (f_lit 3 10); vm_compute; auto. Qed.
