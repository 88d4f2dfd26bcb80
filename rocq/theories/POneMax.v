(** * POneMax: the OneMax model (C68, C69, C76). *)
From Coq Require Import List Bool Arith NArith ZArith Reals Lia Lra Permutation.
From Flocq Require Import Core BinarySingleNaN.
From Verif Require Import Rnd LRnd F64 LF64 MStats MOperators MCrossover MMutation MPopulation MSelection MModel MAlgorithms MOneMax
  Spec SpecF SpecA SpecK PCrossoverAll PMutation PPopulation PModel PAlgorithms PRun PRun3 PRun4 PKeep.
Import ListNotations.
Local Open Scope nat_scope.

Lemma count_ones_occ g : count_ones g = count_occ Bool.bool_dec g true.
Proof. unfold count_ones; induction g as [|[|] g IH]; cbn; auto; rewrite IH; reflexivity. Qed.

Lemma ones_le g : count_occ Bool.bool_dec g true <= length g.
Proof. induction g as [|[|] g IH]; cbn; lia. Qed.
Lemma ones_all g : count_occ Bool.bool_dec g true = length g <-> Forall (eq true) g.
Proof.
  induction g as [|[|] g IH]; cbn; [split; auto| |].
  - split; [intros H; constructor; auto; apply IH; lia|inversion 1; subst; f_equal; apply IH; auto].
  - pose proof (ones_le g); split; [lia|inversion 1; discriminate].
Qed.
Lemma ones_none g : count_occ Bool.bool_dec g true = 0 <-> Forall (eq false) g.
Proof.
  induction g as [|[|] g IH]; cbn; [split; auto| |].
  - split; [lia|inversion 1; discriminate].
  - split; [intros H; constructor; auto; apply IH; auto|inversion 1; subst; apply IH; auto].
Qed.

Section Fraction.
Local Open Scope R_scope.

Lemma INR_IZR n : INR n = IZR (Z.of_nat n).
Proof. apply INR_IZR_INZ. Qed.

Lemma half_ulp_below1 x : 0 < x < 1 -> Rabs (rnd x - x) <= bpow radix2 (-54).
Proof.
  intros Hx; eapply Rle_trans; [apply error_le_half_ulp; apply fexp64_valid|].
  assert (H : ulp radix2 fexp64 x <= bpow radix2 (-53)).
  { rewrite ulp_neq_0 by lra; unfold cexp; apply bpow_le.
    assert (mag radix2 x <= 0)%Z by (apply mag_le_bpow; [lra|rewrite Rabs_pos_eq by lra; apply Hx]).
    unfold SpecFloat.fexp, SpecFloat.emin, prec, emax; lia. }
  replace (bpow radix2 (-54)) with (/ 2 * bpow radix2 (-53)) by (change (bpow radix2 (-54)) with (/ 18014398509481984); change (bpow radix2 (-53)) with (/ 9007199254740992); lra).
  lra.
Qed.

Lemma frac_n n : (1 <= n)%nat -> (Z.of_nat n <= 2 ^ 53)%Z -> 1 <= INR n <= 9007199254740992.
Proof. intros Hn H53; rewrite INR_IZR; split; [apply (IZR_le 1); lia|change 9007199254740992 with (IZR (2 ^ 53)); apply IZR_le; auto]. Qed.

Variables (k n : nat).
Hypothesis Hk : (k <= n)%nat.
Hypothesis Hn : (1 <= n)%nat.
Hypothesis H53 : (Z.of_nat n <= 2 ^ 53)%Z.

Lemma frac_k : 0 <= INR k <= INR n.
Proof. split; [apply pos_INR|apply le_INR; auto]. Qed.
Lemma frac_unit : 0 <= INR k / INR n <= 1.
Proof. pose proof (frac_n n Hn H53); pose proof frac_k; split; [apply Rmult_le_pos; [lra|left; apply Rinv_0_lt_compat; lra]|apply Rmult_le_reg_r with (INR n); [lra|]; unfold Rdiv; rewrite Rmult_assoc, Rinv_l; lra]. Qed.

Lemma frac_val : is_finite (fdiv (f_of_nat k) (f_of_nat n)) = true /\ B2R (fdiv (f_of_nat k) (f_of_nat n)) = rnd (INR k / INR n).
Proof.
  pose proof (frac_n n Hn H53); pose proof frac_unit as U.
  destruct (f_of_Z_exact (Z.of_nat k)) as [A B]; [lia|]; destruct (f_of_Z_exact (Z.of_nat n)) as [C D]; [lia|].
  fold (f_of_nat k) in A, B; fold (f_of_nat n) in C, D; rewrite <- INR_IZR in B, D.
  destruct (fdiv_correct (f_of_nat k) (f_of_nat n) A) as (_ & _ & E & F); [lra|]; rewrite B, D in *.
  assert (R : is_finite (fdiv (f_of_nat k) (f_of_nat n)) = true).
  { apply E, rnd_lt_big; rewrite Rabs_pos_eq by lra; eapply Rle_trans; [apply U|]; change 1 with (bpow radix2 0); apply bpow_le; lia. }
  auto.
Qed.

Lemma frac_bounds : 0 <= rnd (INR k / INR n) <= 1.
Proof. pose proof frac_unit; split; [apply rnd_pos; lra|]; apply rnd_le_float; [apply (isfloat_IZR 1); lia|lra]. Qed.

Lemma frac_small : (k < n)%nat -> INR k / INR n <= 1 - bpow radix2 (-53).
Proof.
  intros H; pose proof (frac_n n Hn H53); pose proof frac_k; change (bpow radix2 (-53)) with (/ 9007199254740992).
  apply lt_INR in H; assert (INR k + 1 <= INR n) by (rewrite !INR_IZR in *; rewrite <- plus_IZR; apply IZR_le; apply lt_IZR in H; lia).
  apply Rmult_le_reg_r with (INR n); [lra|]; unfold Rdiv; rewrite Rmult_assoc, Rinv_l by lra; nra.
Qed.
Lemma frac_one : rnd (INR k / INR n) = 1 <-> k = n.
Proof.
  pose proof (frac_n n Hn H53) as Bn; split.
  - intros H; destruct (Nat.eq_dec k n) as [|Hne]; auto; exfalso.
    assert (L : (k < n)%nat) by lia; apply frac_small in L.
    assert (isfloat (1 - bpow radix2 (-53))).
    { replace (1 - bpow radix2 (-53)) with (F2R (Float radix2 (2 ^ 53 - 1) (-53))).
      - apply (generic_format_FLT radix2 (-1074) 53); exists (Float radix2 (2 ^ 53 - 1) (-53)); auto; cbn; lia.
      - unfold F2R; cbn [Fnum Fexp]; rewrite minus_IZR; change (bpow radix2 (-53)) with (/ 9007199254740992); change (IZR (2 ^ 53)) with 9007199254740992; lra. }
    assert (rnd (INR k / INR n) <= 1 - bpow radix2 (-53)) by (apply rnd_le_float; auto).
    pose proof (bpow_gt_0 radix2 (-53)); lra.
  - intros ->; unfold Rdiv; rewrite Rinv_r by lra; apply rnd_float, (isfloat_IZR 1); lia.
Qed.
Lemma frac_zero : rnd (INR k / INR n) = 0 <-> k = 0%nat.
Proof.
  pose proof (frac_n n Hn H53) as Bn; split.
  - intros H0; destruct (Nat.eq_dec k 0) as [|Hne]; auto; exfalso.
    assert (1 <= INR k) by (apply (le_INR 1); lia).
    assert (bpow radix2 (-53) <= INR k / INR n).
    { change (bpow radix2 (-53)) with (/ 9007199254740992); apply Rmult_le_reg_r with (INR n); [lra|].
      unfold Rdiv; rewrite Rmult_assoc, Rinv_l by lra; nra. }
    assert (bpow radix2 (-53) <= rnd (INR k / INR n)) by (apply rnd_ge_float; auto; apply isfloat_bpow; lia).
    pose proof (bpow_gt_0 radix2 (-53)); lra.
  - intros ->; unfold Rdiv; cbn [INR]; rewrite Rmult_0_l; apply rnd_0.
Qed.
End Fraction.

Section Strict.
Local Open Scope R_scope.
Lemma frac_strict k k' n : (k < k')%nat -> (k' <= n)%nat -> (Z.of_nat n <= 2 ^ 53)%Z -> rnd (INR k / INR n) < rnd (INR k' / INR n).
Proof.
  intros Hk Hk' H53; assert (Hn : (1 <= n)%nat) by lia; pose proof (frac_n n Hn H53) as Bn.
  assert (Hgap : INR k / INR n + / INR n <= INR k' / INR n).
  { assert (INR k + 1 <= INR k') by (rewrite <- S_INR; apply le_INR; lia).
    unfold Rdiv; pose proof (Rinv_0_lt_compat (INR n)); nra. }
  assert (Hinv : bpow radix2 (-53) <= / INR n).
  { change (bpow radix2 (-53)) with (/ 9007199254740992); apply Rinv_le; lra. }
  destruct (Z.eq_dec (Z.of_nat n) (2 ^ 53)) as [E|E].
  - (* all fractions are floats *)
    assert (X : forall j, (j <= n)%nat -> rnd (INR j / INR n) = INR j / INR n).
    { intros j Hj; apply rnd_float; replace (INR j / INR n) with (F2R (Float radix2 (Z.of_nat j) (-53))).
      - destruct (Nat.eq_dec j n) as [->|Hne].
        + rewrite E; replace (F2R _) with 1; [apply (isfloat_IZR 1); lia|]; unfold F2R; cbn [Fnum Fexp]; change (bpow radix2 (-53)) with (/ 9007199254740992); change (IZR (2 ^ 53)) with 9007199254740992; lra.
        + apply (generic_format_FLT radix2 (-1074) 53); exists (Float radix2 (Z.of_nat j) (-53)); auto; cbn; lia.
      - unfold F2R; cbn [Fnum Fexp]; rewrite !INR_IZR, E; reflexivity. }
    rewrite !X by lia; pose proof (Rinv_0_lt_compat (INR n)); lra.
  - assert (Hlt : bpow radix2 (-53) < / INR n).
    { change (bpow radix2 (-53)) with (/ 9007199254740992); apply Rinv_lt_contravar; [nra|].
      rewrite INR_IZR; change 9007199254740992 with (IZR (2 ^ 53)); apply IZR_lt; lia. }
    assert (Err : forall j, (j <= n)%nat -> Rabs (rnd (INR j / INR n) - INR j / INR n) <= bpow radix2 (-54)).
    { intros j Hj; destruct (Nat.eq_dec j 0) as [->|H0].
      - rewrite (proj2 (frac_zero 0 n Hj Hn H53) eq_refl); cbn [INR]; unfold Rdiv; rewrite Rmult_0_l, Rminus_0_r, Rabs_R0; apply bpow_ge_0.
      - destruct (Nat.eq_dec j n) as [->|H1].
        + rewrite (proj2 (frac_one n n Hj Hn H53) eq_refl); unfold Rdiv; rewrite Rinv_r by lra; rewrite Rminus_diag_eq, Rabs_R0 by auto; apply bpow_ge_0.
        + apply half_ulp_below1; assert (1 <= INR j) by (apply (le_INR 1); lia); assert (INR j < INR n) by (apply lt_INR; lia).
          pose proof (Rinv_0_lt_compat (INR n)); split; [unfold Rdiv; nra|apply Rmult_lt_reg_r with (INR n); [lra|]; unfold Rdiv; rewrite Rmult_assoc, Rinv_l; lra]. }
    pose proof (Err k ltac:(lia)) as E1; pose proof (Err k' Hk') as E2.
    apply Rabs_le_inv in E1; apply Rabs_le_inv in E2.
    assert (bpow radix2 (-54) + bpow radix2 (-54) = bpow radix2 (-53)) by (change (bpow radix2 (-54)) with (/ 18014398509481984); change (bpow radix2 (-53)) with (/ 9007199254740992); lra).
    lra.
Qed.
End Strict.

(** ** C68 *)
Lemma onemax_fitness u x : genome x <> [] -> (Z.of_nat (length (genome x)) <= 2 ^ 53)%Z ->
  exists v, onemax_evaluate u x = Ret (mkOneMax (genome x) v) /\ is_finite v = true /\
    B2R v = round radix2 (FLT_exp (-1074) 53) ZnearestE (INR (count_occ Bool.bool_dec (genome x) true) / INR (length (genome x))) /\
    (0 <= B2R v <= 1)%R /\
    (B2R v = 1%R <-> Forall (eq true) (genome x)) /\ (B2R v = 0%R <-> Forall (eq false) (genome x)).
Proof.
  intros Hne H53; assert (Hn : 1 <= length (genome x)) by (destruct (genome x); [congruence|cbn; lia]).
  pose proof (ones_le (genome x)) as Hk.
  destruct (frac_val _ _ Hk Hn H53) as [A B].
  eexists; split; [reflexivity|]; rewrite count_ones_occ, A, B; split; auto; split; [reflexivity|].
  split; [apply frac_bounds; auto|]; rewrite <- ones_all, <- ones_none; split; [apply frac_one|apply frac_zero]; auto.
Qed.

Lemma onemax_order u x y x' y' : genome x <> [] -> length (genome x) = length (genome y) -> (Z.of_nat (length (genome x)) <= 2 ^ 53)%Z ->
  onemax_evaluate u x = Ret x' -> onemax_evaluate u y = Ret y' ->
  (flt (fitness onemax_ops x') (fitness onemax_ops y') = true <-> count_occ Bool.bool_dec (genome x) true < count_occ Bool.bool_dec (genome y) true) /\
  (feq (fitness onemax_ops x') (fitness onemax_ops y') = true <-> count_occ Bool.bool_dec (genome x) true = count_occ Bool.bool_dec (genome y) true).
Proof.
  intros Hne Hl H53 [= <-] [= <-]; assert (Hn : 1 <= length (genome x)) by (destruct (genome x); [congruence|cbn; lia]).
  cbn [fitness onemax_ops om_fitness]; rewrite !count_ones_occ.
  pose proof (ones_le (genome x)) as Hk; pose proof (ones_le (genome y)) as Hk'; rewrite <- Hl in Hk' |- *.
  set (a := count_occ _ (genome x) true) in *; set (b := count_occ _ (genome y) true) in *; set (n := length (genome x)) in *.
  destruct (frac_val a n Hk Hn H53) as [A B]; destruct (frac_val b n Hk' Hn H53) as [C D].
  rewrite flt_spec, feq_spec, !key_finite, B, D by auto.
  pose proof (finite_not_nan _ A); pose proof (finite_not_nan _ C).
  destruct (lt_eq_lt_dec a b) as [[L|E]|L].
  - pose proof (frac_strict a b n L Hk' H53); split; split; try lia; intros; repeat split; auto; exfalso; destruct H2 as (_ & _ & H2); lra.
  - rewrite E; split; split; try lia; intros; repeat split; auto; exfalso; destruct H1 as (_ & _ & H2); lra.
  - pose proof (frac_strict b a n L Hk H53); split; split; try lia; intros; repeat split; auto; exfalso; destruct H2 as (_ & _ & H2); lra.
Qed.

Lemma onemax_empty u x : genome x = [] ->
  exists v, onemax_evaluate u x = Ret (mkOneMax [] v) /\ is_nan v = true /\ is_valid onemax_ops (mkOneMax [] v) = false.
Proof.
  intros E; unfold onemax_evaluate; rewrite E; eexists; split; [reflexivity|]; split; vm_compute; reflexivity.
Qed.
