(** * PScale: fitness in other units. *)
From Coq Require Import List Bool Arith NArith ZArith Reals Lia Lra Permutation.
From Flocq Require Import Core BinarySingleNaN.
From Verif Require Import Rnd LRnd F64 LF64 Prob LAlike MStats MPopulation MSelection MModel MAlgorithms SpecF SpecO SpecScale PPopulation PIso.
Import ListNotations.
Local Open Scope R_scope.
Local Arguments bpow : simpl never.

(** ** Rounding and powers of two *)
Lemma rnd_times k r : r = 0 \/ (bpow radix2 (-900) <= r /\ bpow radix2 (-900) <= r * bpow radix2 k) ->
  rnd (r * bpow radix2 k) = rnd r * bpow radix2 k.
Proof.
  intros [->|[H1 H2]]; [rewrite Rmult_0_l, !rnd_0; ring|].
  assert (P0 : 0 < bpow radix2 (-900)) by apply bpow_gt_0.
  assert (Hn : r <> 0) by lra.
  assert (M1 : (-900 < mag radix2 r)%Z).
  { apply mag_gt_bpow; rewrite Rabs_pos_eq; lra. }
  assert (M2 : (-900 < mag radix2 (r * bpow radix2 k))%Z).
  { apply mag_gt_bpow; rewrite Rabs_pos_eq; lra. }
  rewrite mag_mult_bpow in M2 by auto.
  assert (C1 : cexp radix2 fexp64 r = (mag radix2 r - 53)%Z).
  { unfold cexp, SpecFloat.fexp, SpecFloat.emin, prec, emax; lia. }
  assert (C2 : cexp radix2 fexp64 (r * bpow radix2 k) = (mag radix2 r - 53 + k)%Z).
  { unfold cexp; rewrite mag_mult_bpow by auto; unfold SpecFloat.fexp, SpecFloat.emin, prec, emax; lia. }
  unfold round, scaled_mantissa; rewrite C1, C2; unfold F2R; cbn [Fnum Fexp].
  rewrite Rmult_assoc, <- bpow_plus.
  replace (k + - (mag radix2 r - 53 + k))%Z with (- (mag radix2 r - 53))%Z by ring.
  rewrite (bpow_plus radix2 (mag radix2 r - 53) k); ring.
Qed.

Definition low (x : R) : Prop := x = 0 \/ bpow radix2 (-800) <= x.
(** Two sums of at most [c] corresponding values *)
Definition two_sums (k c : Z) (x y : f64) : Prop :=
  is_finite x = true /\ is_finite y = true /\ times_power k x y /\ low (B2R x) /\ low (B2R y) /\
  B2R x <= IZR c * bpow radix2 900 /\ B2R y <= IZR c * bpow radix2 900.

Lemma low_pos x : low x -> 0 <= x.
Proof. assert (0 < bpow radix2 (-800)) by apply bpow_gt_0; intros [->|H0]; lra. Qed.
Lemma low_add x y : low x -> low y -> low (x + y).
Proof.
  assert (0 < bpow radix2 (-800)) by apply bpow_gt_0.
  intros [->|Hx] [->|Hy]; [left; ring|right; lra|right; lra|right; lra].
Qed.
Lemma low_rnd x : low x -> low (rnd x).
Proof.
  intros [->|H]; [left; apply rnd_0|right; apply rnd_ge_float; auto].
  apply generic_format_bpow; unfold SpecFloat.fexp, SpecFloat.emin, prec, emax; lia.
Qed.
Lemma isfloat_bound c : (0 <= c <= 2 ^ 53)%Z -> isfloat (IZR c * bpow radix2 900).
Proof.
  intros Hc; destruct (Z.eq_dec c (2 ^ 53)) as [->|Hn].
  - change (IZR (2 ^ 53)) with (bpow radix2 53); rewrite <- bpow_plus.
    apply generic_format_bpow; unfold SpecFloat.fexp, SpecFloat.emin, prec, emax; lia.
  - apply generic_format_FLT with (emin := (-1074)%Z) (prec := 53%Z) || apply (generic_format_FLT radix2 (-1074) 53).
    exists (Float radix2 c 900); [reflexivity|cbn|cbn]; lia.
Qed.
Lemma bound_big c r : (0 <= c <= 2 ^ 53)%Z -> 0 <= r <= IZR c * bpow radix2 900 -> - big < r < big.
Proof.
  intros Hc [H0 H1]; assert (IZR c * bpow radix2 900 <= bpow radix2 53 * bpow radix2 900).
  { apply Rmult_le_compat_r; [apply bpow_ge_0|]; change (bpow radix2 53) with (IZR (2 ^ 53)); apply IZR_le; lia. }
  rewrite <- bpow_plus in H; assert (bpow radix2 (53 + 900) < big) by (apply bpow_lt; lia).
  pose proof big_pos; lra.
Qed.

Lemma two_sums_add k c d x y x' y' : (0 <= c)%Z -> (0 <= d)%Z -> (c + d <= 2 ^ 53)%Z ->
  two_sums k c x y -> two_sums k d x' y' -> two_sums k (c + d) (fadd x x') (fadd y y').
Proof.
  intros Hc Hd Hcd (Fx & Fy & E & Lx & Ly & Bx & By) (Fx' & Fy' & E' & Lx' & Ly' & Bx' & By').
  destruct (fadd_correct x x' Fx Fx') as (_ & _ & G1 & V1), (fadd_correct y y' Fy Fy') as (_ & _ & G2 & V2).
  pose proof (low_add _ _ Lx Lx') as L1; pose proof (low_add _ _ Ly Ly') as L2.
  assert (B1 : rnd (B2R x + B2R x') <= IZR (c + d) * bpow radix2 900).
  { apply rnd_le_float; [apply isfloat_bound; lia|]; rewrite plus_IZR; lra. }
  assert (B2 : rnd (B2R y + B2R y') <= IZR (c + d) * bpow radix2 900).
  { apply rnd_le_float; [apply isfloat_bound; lia|]; rewrite plus_IZR; lra. }
  pose proof (low_pos _ (low_rnd _ L1)); pose proof (low_pos _ (low_rnd _ L2)).
  assert (F1 : is_finite (fadd x x') = true) by (apply G1, (bound_big (c + d)); [lia|lra]).
  assert (F2 : is_finite (fadd y y') = true) by (apply G2, (bound_big (c + d)); [lia|lra]).
  unfold two_sums, times_power; rewrite (V1 F1), (V2 F2); repeat split; auto using low_rnd.
  unfold times_power in E, E'; rewrite E, E'; replace (B2R x * bpow radix2 k + B2R x' * bpow radix2 k) with ((B2R x + B2R x') * bpow radix2 k) by ring.
  apply rnd_times; rewrite Rmult_plus_distr_r, <- E, <- E'.
  assert (bpow radix2 (-900) < bpow radix2 (-800)) by (apply bpow_lt; lia).
  pose proof (bpow_gt_0 radix2 (-800)); pose proof (bpow_gt_0 radix2 k) as Pk.
  destruct L1 as [Z1|L1]; [left; auto|right; split; [lra|]].
  destruct L2 as [Z2|L2]; [|lra]; exfalso.
  assert (0 < (B2R x + B2R x') * bpow radix2 k) by (apply Rmult_lt_0_compat; lra).
  rewrite Rmult_plus_distr_r, <- E, <- E' in *; lra.
Qed.
Lemma two_sums_mono k c d x y : (c <= d)%Z -> two_sums k c x y -> two_sums k d x y.
Proof.
  intros H (A & B & C & D & E & F & G); repeat split; auto;
    (eapply Rle_trans; [eassumption|apply Rmult_le_compat_r; [apply bpow_ge_0|apply IZR_le; auto]]).
Qed.
Lemma two_sums_0 k : two_sums k 0 f0 f0.
Proof.
  destruct f0_val as [F E]; unfold two_sums, times_power, low; rewrite E; repeat split; auto; try lra; left; reflexivity.
Qed.
Lemma two_sums_1 k x y : mild x -> mild y -> times_power k x y -> two_sums k 1 x y.
Proof.
  intros (Fx & Hx) (Fy & Hy) E; unfold two_sums, low; repeat split; auto.
  1,2: destruct Hx, Hy; tauto.
  all: rewrite Rmult_1_l; pose proof (bpow_gt_0 radix2 900); intuition lra.
Qed.

(** ** Sums *)
Lemma two_seq_sums k l l' : Forall2 (two_sums k 1) l l' -> forall c x y, (0 <= c)%Z -> (c + Z.of_nat (length l) <= 2 ^ 53)%Z -> two_sums k c x y ->
  two_sums k (c + Z.of_nat (length l)) (fold_left fadd l x) (fold_left fadd l' y).
Proof.
  intros H; induction H as [|a b l l' Hab H IH]; intros c x y Hc Hn Hxy; [cbn; replace (c + 0)%Z with c by ring; exact Hxy|].
  cbn [fold_left length] in *; replace (c + Z.of_nat (S (length l)))%Z with ((c + 1) + Z.of_nat (length l))%Z by lia.
  apply IH; [lia|lia|]; apply two_sums_add; auto; lia.
Qed.
Lemma two_par_sums k fuel : forall l l', Forall2 (two_sums k 1) l l' -> (Z.of_nat (length l) <= 2 ^ 53)%Z ->
  alike (two_sums k (Z.of_nat (length l))) (par_sum fuel l) (par_sum fuel l').
Proof.
  assert (S : forall l l', Forall2 (two_sums k 1) l l' -> (Z.of_nat (length l) <= 2 ^ 53)%Z -> two_sums k (Z.of_nat (length l)) (seq_sum l) (seq_sum l')).
  { intros l l' H Hn; apply (two_seq_sums k l l' H 0 f0 f0); [lia|lia|apply two_sums_0]. }
  induction fuel as [|fuel IH]; intros l l' H Hn; cbn [par_sum alike]; [apply S; auto|].
  rewrite (Forall2_len _ _ _ H); split; [reflexivity|]; intros i _.
  rewrite <- (Forall2_len _ _ _ H); destruct (i =? 0)%N; [apply S; auto|].
  eapply alike_bind; [apply IH; [apply F2_firstn; eauto|rewrite firstn_length; lia]|]; intros a b Hab.
  eapply alike_bind; [apply IH; [apply F2_skipn; eauto|rewrite skipn_length; lia]|]; intros a' b' Hab'; cbn [alike].
  eapply two_sums_mono; [|apply two_sums_add; [| | |exact Hab|exact Hab']];
    rewrite ?firstn_length, ?skipn_length; lia.
Qed.

(** ** The target *)
Lemma two_targets k u x y : (u < 2 ^ 53)%N -> two_sums k (2 ^ 53) x y ->
  is_finite (fmul (f_unit u) x) = true /\ is_finite (fmul (f_unit u) y) = true /\ times_power k (fmul (f_unit u) x) (fmul (f_unit u) y).
Proof.
  intros Hu (Fx & Fy & E & Lx & Ly & Bx & By).
  destruct (f_unit_val u Hu) as [Fu Vu].
  destruct (fmul_correct _ _ Fu Fx) as (_ & _ & G1 & V1), (fmul_correct _ _ Fu Fy) as (_ & _ & G2 & V2).
  pose proof (bpow_gt_0 radix2 (-53)) as P53; pose proof (low_pos _ Lx); pose proof (low_pos _ Ly).
  assert (Hz : IZR (Z.of_N u) = 0 \/ 1 <= IZR (Z.of_N u)).
  { destruct (Z.eq_dec (Z.of_N u) 0) as [->|]; [left; reflexivity|right; apply IZR_le; lia]. }
  assert (U1 : 0 <= B2R (f_unit u) <= 1).
  { rewrite Vu; split; [apply Rmult_le_pos; [apply IZR_le; lia|lra]|].
    replace 1 with (IZR (2 ^ 53) * bpow radix2 (-53)) by (change (IZR (2 ^ 53)) with (bpow radix2 53); rewrite <- bpow_plus; reflexivity).
    apply Rmult_le_compat_r; [lra|apply IZR_le; lia]. }
  assert (U2 : B2R (f_unit u) = 0 \/ bpow radix2 (-53) <= B2R (f_unit u)).
  { rewrite Vu; destruct Hz as [->|Hz]; [left; ring|right]; rewrite <- (Rmult_1_l (bpow radix2 (-53))) at 1; apply Rmult_le_compat_r; lra. }
  assert (HB : forall z, 0 <= z <= IZR (2 ^ 53) * bpow radix2 900 -> - big < rnd (B2R (f_unit u) * z) < big).
  { intros z Hz1; apply (bound_big (2 ^ 53)); [lia|]; split; [apply rnd_pos, Rmult_le_pos; lra|].
    apply rnd_le_float; [apply isfloat_bound; lia|].
    apply Rle_trans with (1 * z); [apply Rmult_le_compat_r; lra|lra]. }
  assert (F1 : is_finite (fmul (f_unit u) x) = true) by (apply G1, HB; lra).
  assert (F2 : is_finite (fmul (f_unit u) y) = true) by (apply G2, HB; lra).
  split; [exact F1|]; split; [exact F2|]; unfold times_power; rewrite (V1 F1), (V2 F2).
  unfold times_power in E; rewrite E, <- Rmult_assoc; apply rnd_times; rewrite Rmult_assoc, <- E.
  assert (L : forall z, bpow radix2 (-800) <= z -> bpow radix2 (-53) <= B2R (f_unit u) -> bpow radix2 (-900) <= B2R (f_unit u) * z).
  { intros z Hz1 Hz2; apply Rle_trans with (bpow radix2 (-53) * bpow radix2 (-800)).
    - rewrite <- bpow_plus; apply bpow_le; lia.
    - apply Rmult_le_compat; try apply bpow_ge_0; auto. }
  destruct U2 as [Z|U2]; [left; rewrite Z; ring|].
  destruct Lx as [Z|Lx]; [left; rewrite Z; ring|right]; split; [apply L; auto|apply L; auto].
  destruct Ly as [Z|Ly]; auto; exfalso.
  pose proof (bpow_gt_0 radix2 (-800)); pose proof (bpow_gt_0 radix2 k).
  assert (0 < B2R x * bpow radix2 k) by (apply Rmult_lt_0_compat; lra); lra.
Qed.
Lemma two_compare k x y x' y' : is_finite x = true -> is_finite y = true -> is_finite x' = true -> is_finite y' = true ->
  times_power k x y -> times_power k x' y' -> fge x x' = fge y y' /\ fcmp x x' = fcmp y y'.
Proof.
  intros Fx Fy Fx' Fy' E E'; unfold times_power in *; pose proof (bpow_gt_0 radix2 k) as Pk.
  assert (C : fcmp x x' = fcmp y y').
  { unfold fcmp; rewrite !Bcompare_correct by auto; f_equal; rewrite E, E'.
    symmetry; apply Rcompare_mult_r; auto. }
  split; [|exact C]; unfold fge; change (Bleb x' x) with (fle x' x); change (Bleb y' y) with (fle y' y).
  rewrite !fle_fcmp; unfold fcmp; rewrite !Bcompare_correct by auto; rewrite E, E', Rcompare_mult_r by auto; reflexivity.
Qed.
