(** * PSum: floating-point sums, and the exact shares of the roulette and
    Boltzmann wheels (C82). *)
From Coq Require Import List Bool Arith NArith ZArith Reals Lia Lra Permutation.
From Flocq Require Import Core BinarySingleNaN Relative Plus_error.
From Verif Require Import Rnd Prob LRnd LProb F64 LF64 MStats MPopulation MSelection SpecF PSelection PSelection2 ExF.
Import ListNotations.

Local Arguments bpow : simpl never.
Local Open Scope R_scope.

Notation uu := (bpow radix2 (-53)).

Lemma uu_pos : 0 < uu.
Proof. apply bpow_gt_0. Qed.
Lemma uu_small : uu <= / 1024.
Proof. apply Rle_trans with (bpow radix2 (-10)); [apply bpow_le; lia|unfold bpow; cbn; lra]. Qed.
Lemma u_ro_uu : u_ro radix2 53 = uu.
Proof.
  unfold u_ro; change (- (53) + 1)%Z with (1 + -53)%Z; rewrite bpow_plus, bpow_1; cbn [radix_val radix2]; lra.
Qed.

(** Additions have a relative error, also for subnormal results. *)
Lemma rnd_plus_error a b : isfloat a -> isfloat b -> Rabs (rnd (a + b) - (a + b)) <= uu * Rabs (a + b).
Proof.
  intros Ha Hb.
  destruct (FLT_plus_error_N_ex radix2 (-1074) 53 (fun x => negb (Z.even x)) a b Ha Hb) as (e & He & E).
  change (round radix2 (FLT_exp (-1074) 53) ZnearestE (a + b) = (a + b) * (1 + e)) in E.
  change (round radix2 (FLT_exp (-1074) 53) ZnearestE (a + b)) with (rnd (a + b)) in E.
  rewrite E; replace ((a + b) * (1 + e) - (a + b)) with ((a + b) * e) by ring.
  rewrite Rabs_mult, Rmult_comm; apply Rmult_le_compat_r; [apply Rabs_pos|].
  rewrite u_ro_uu in He; pose proof uu_pos.
  apply Rle_trans with (1 := He); apply Rmult_le_reg_r with (1 + uu); [lra|].
  unfold Rdiv; rewrite Rmult_assoc, Rinv_l by lra; nra.
Qed.
Lemma rnd_plus_error_r a b : isfloat a -> isfloat b -> Rabs (rnd (a + b) - (a + b)) <= uu * Rabs (rnd (a + b)).
Proof.
  intros Ha Hb.
  destruct (FLT_plus_error_N_round_ex radix2 (-1074) 53 (fun x => negb (Z.even x)) a b Ha Hb) as (e & He & E).
  change (round radix2 (FLT_exp (-1074) 53) (Znearest (fun x => negb (Z.even x))) (a + b)) with (rnd (a + b)) in E.
  rewrite E at 2; replace (rnd (a + b) - rnd (a + b) * (1 + e)) with (- (rnd (a + b) * e)) by ring.
  rewrite Rabs_Ropp, Rabs_mult, Rmult_comm; apply Rmult_le_compat_r; [apply Rabs_pos|].
  rewrite u_ro_uu in He; auto.
Qed.

(** [grow k] bounds the growth of [k] roundings. *)
Definition grow (k : nat) : R := 1 + 2 * INR k * uu.
Definition few (k : nat) : Prop := INR k * uu <= / 4.

Lemma grow_S k : few (S k) -> grow k * (1 + uu) <= grow (S k).
Proof.
  unfold grow, few; rewrite S_INR; intros H; pose proof uu_pos; pose proof uu_small.
  assert (INR k * uu <= / 4) by lra.
  replace ((1 + 2 * INR k * uu) * (1 + uu)) with (1 + 2 * INR k * uu + uu + 2 * (INR k * uu) * uu) by ring.
  pose proof (Rmult_le_compat_r uu _ _ (Rlt_le _ _ H0) H2); lra.
Qed.
Lemma grow_le k j : (k <= j)%nat -> grow k <= grow j.
Proof. intros H; apply le_INR in H; unfold grow; pose proof uu_pos; nra. Qed.
Lemma few_le k j : (k <= j)%nat -> few j -> few k.
Proof. intros H Hj; apply le_INR in H; unfold few in *; pose proof uu_pos; nra. Qed.
Lemma grow_1 k : 1 <= grow k.
Proof. unfold grow; pose proof (pos_INR k); pose proof uu_pos; nra. Qed.
Lemma grow_2 k : few k -> grow k <= 3 / 2.
Proof. unfold few, grow; intros; lra. Qed.

(** A float [v] approximating the real [s] with [k] roundings of terms of
    total size [a]. *)
Definition approx (v : f64) (s a : R) (k : nat) : Prop :=
  is_finite v = true /\ Rabs s <= a /\ Rabs (B2R v - s) <= (grow k - 1) * a.

Lemma approx_abs v s a k : approx v s a k -> Rabs (B2R v) <= grow k * a.
Proof.
  intros (_ & Hs & H); pose proof (Rabs_triang (B2R v - s) s); replace (B2R v - s + s) with (B2R v) in H0 by ring; lra.
Qed.

Lemma bpow_1022 : 2 * bpow radix2 1022 = bpow radix2 1023.
Proof. change 1023%Z with (1 + 1022)%Z; rewrite bpow_plus, bpow_1; reflexivity. Qed.

Lemma approx_add v w s t a b k : few (S k) -> a + b <= bpow radix2 1022 ->
  approx v s a k -> approx w t b k -> approx (fadd v w) (s + t) (a + b) (S k).
Proof.
  intros Hk Hab Hv Hw; pose proof (approx_abs _ _ _ _ Hv) as Av; pose proof (approx_abs _ _ _ _ Hw) as Aw.
  destruct Hv as (Fv & Hs & Ev), Hw as (Fw & Ht & Ew).
  pose proof (Rabs_pos s); pose proof (Rabs_pos t); pose proof uu_pos; pose proof uu_small.
  pose proof (grow_2 _ (few_le k (S k) ltac:(lia) Hk)) as G2; pose proof (grow_1 k) as G1; pose proof (grow_S k Hk) as GS.
  assert (Hsum : Rabs (B2R v + B2R w) <= grow k * (a + b)).
  { eapply Rle_trans; [apply Rabs_triang|]; lra. }
  destruct (fadd_correct v w Fv Fw) as (_ & _ & Fz & Ez).
  assert (F : is_finite (fadd v w) = true).
  { apply Fz, rnd_lt_big; rewrite <- bpow_1022; apply Rle_trans with (1 := Hsum).
    apply Rle_trans with (2 * (a + b)); [apply Rmult_le_compat_r; lra|lra]. }
  split; [auto|split; [eapply Rle_trans; [apply Rabs_triang|]; lra|]].
  rewrite (Ez F).
  replace (rnd (B2R v + B2R w) - (s + t)) with
    ((rnd (B2R v + B2R w) - (B2R v + B2R w)) + ((B2R v - s) + (B2R w - t))) by ring.
  eapply Rle_trans; [apply Rabs_triang|].
  pose proof (Rabs_triang (B2R v - s) (B2R w - t)).
  pose proof (rnd_plus_error (B2R v) (B2R w) (B2R_isfloat v) (B2R_isfloat w)) as Er.
  assert (uu * Rabs (B2R v + B2R w) <= uu * (grow k * (a + b))) by (apply Rmult_le_compat_l; lra).
  assert (grow k * (1 + uu) * (a + b) <= grow (S k) * (a + b)) by (apply Rmult_le_compat_r; lra).
  lra.
Qed.

Lemma approx_le v s a k j : (k <= j)%nat -> approx v s a k -> approx v s a j.
Proof.
  intros H (F & Hs & E); split; [auto|split; [auto|]]; pose proof (grow_le _ _ H).
  pose proof (Rabs_pos s); eapply Rle_trans; [apply E|]; apply Rmult_le_compat_r; lra.
Qed.

(** Adding a zero is exact. *)
Lemma approx_add0 v w s a k : is_finite w = true -> B2R w = 0 -> approx v s a k -> approx (fadd v w) s a k.
Proof.
  intros Fw Hw (Fv & Hs & E); destruct (fadd_correct v w Fv Fw) as (_ & _ & Fz & Ez).
  rewrite Hw, Rplus_0_r, rnd_float in Fz, Ez by apply B2R_isfloat.
  assert (F : is_finite (fadd v w) = true) by (apply Fz, B2R_bound).
  split; [auto|split; [auto|]]; rewrite (Ez F); auto.
Qed.
Lemma approx_0add v w s a k : is_finite w = true -> B2R w = 0 -> approx v s a k -> approx (fadd w v) s a k.
Proof.
  intros Fw Hw (Fv & Hs & E); destruct (fadd_correct w v Fw Fv) as (_ & _ & Fz & Ez).
  rewrite Hw, Rplus_0_l, rnd_float in Fz, Ez by apply B2R_isfloat.
  assert (F : is_finite (fadd w v) = true) by (apply Fz, B2R_bound).
  split; [auto|split; [auto|]]; rewrite (Ez F); auto.
Qed.

Definition absum (l : list f64) : R := sumR (map (fun x => Rabs (B2R x)) l).
Definition exsum (l : list f64) : R := sumR (map B2R l).

Lemma sumR_app l1 l2 : sumR (l1 ++ l2) = sumR l1 + sumR l2.
Proof. induction l1 as [|x t IH]; cbn [app sumR]; [lra|rewrite IH; lra]. Qed.
Lemma absum_app l1 l2 : absum (l1 ++ l2) = absum l1 + absum l2.
Proof. unfold absum; rewrite map_app; apply sumR_app. Qed.
Lemma exsum_app l1 l2 : exsum (l1 ++ l2) = exsum l1 + exsum l2.
Proof. unfold exsum; rewrite map_app; apply sumR_app. Qed.
Lemma absum_pos l : 0 <= absum l.
Proof. unfold absum; induction l as [|x t IH]; cbn [map sumR]; [lra|]; pose proof (Rabs_pos (B2R x)); lra. Qed.

Lemma grow_0 : grow 0 = 1.
Proof. unfold grow; cbn [INR]; lra. Qed.

Lemma approx_self x : is_finite x = true -> approx x (B2R x) (Rabs (B2R x)) 0.
Proof. intros F; split; [auto|split; [lra|]]; rewrite grow_0, Rminus_diag_eq, Rabs_R0 by auto; lra. Qed.

Lemma fold_approx l : forall v s a k, Forall (fun x => is_finite x = true) l ->
  few (k + length l) -> a + absum l <= bpow radix2 1022 -> approx v s a k ->
  approx (fold_left fadd l v) (s + exsum l) (a + absum l) (k + length l).
Proof.
  induction l as [|x t IH]; intros v s a k Hl Hk Ha Hv.
  - unfold exsum, absum; cbn [map sumR fold_left length]; rewrite !Rplus_0_r, Nat.add_0_r; auto.
  - inversion Hl as [|? ? Hx Ht]; subst; cbn [fold_left length] in *.
    change (exsum (x :: t)) with (B2R x + exsum t); change (absum (x :: t)) with (Rabs (B2R x) + absum t) in *.
    rewrite <- !Rplus_assoc, <- Nat.add_succ_comm; pose proof (absum_pos t).
    apply IH; [auto|rewrite Nat.add_succ_comm; auto|lra|].
    apply approx_add; [apply few_le with (2 := Hk); lia|lra|auto|].
    apply approx_le with 0%nat; [lia|]; apply approx_self; auto.
Qed.

Lemma split_sum_approx l v : split_sum l v ->
  Forall (fun x => is_finite x = true) l -> few (length l) -> absum l <= bpow radix2 1022 ->
  approx v (exsum l) (absum l) (Nat.pred (length l)).
Proof.
  intros H; induction H as [l|l1 l2 a b H1 IH1 H2 IH2]; intros Hf Hk Ha.
  - destruct l as [|x t].
    + split; [reflexivity|]; unfold exsum, absum; cbn [map sumR fold_left length Nat.pred]; rewrite grow_0.
      change (B2R f0) with 0; rewrite Rminus_0_r, Rabs_R0; split; lra.
    + inversion Hf as [|? ? Hx Ht]; subst; cbn [fold_left length Nat.pred].
      change (exsum (x :: t)) with (B2R x + exsum t); change (absum (x :: t)) with (Rabs (B2R x) + absum t) in *.
      apply (fold_approx t _ _ _ 0); [auto|apply few_le with (2 := Hk); apply Nat.le_succ_diag_r|auto|].
      apply approx_0add; [reflexivity|reflexivity|]; apply approx_self; auto.
  - apply Forall_app in Hf as [Hf1 Hf2]; rewrite app_length in *; rewrite absum_app in *; rewrite exsum_app.
    pose proof (absum_pos l1); pose proof (absum_pos l2).
    specialize (IH1 Hf1 ltac:(apply few_le with (2 := Hk); lia) ltac:(lra)).
    specialize (IH2 Hf2 ltac:(apply few_le with (2 := Hk); lia) ltac:(lra)).
    destruct l1 as [|x1 t1].
    { destruct IH1 as (F & _ & E); cbn [length Nat.pred] in E; rewrite grow_0 in E.
      unfold exsum, absum in *; cbn [map sumR length] in *; rewrite !Rplus_0_l.
      apply approx_0add; auto. pose proof (Rabs_pos (B2R a - 0)).
      assert (Z : Rabs (B2R a - 0) = 0) by lra; rewrite Rminus_0_r in Z.
      destruct (Req_dec (B2R a) 0); auto; apply Rabs_no_R0 in H4; lra. }
    destruct l2 as [|x2 t2].
    { destruct IH2 as (F & _ & E); cbn [length Nat.pred] in E; rewrite grow_0 in E.
      unfold exsum, absum in *; cbn [map sumR length] in *; rewrite !Rplus_0_r, Nat.add_0_r.
      apply approx_add0; auto. pose proof (Rabs_pos (B2R b - 0)).
      assert (Z : Rabs (B2R b - 0) = 0) by lra; rewrite Rminus_0_r in Z.
      destruct (Req_dec (B2R b) 0); auto; apply Rabs_no_R0 in H4; lra. }
    cbn [length Nat.pred] in *.
    apply approx_le with (S (Nat.max (length t1) (length t2))); [lia|].
    apply approx_add; [apply few_le with (2 := Hk); lia|auto| |].
    + apply approx_le with (2 := IH1); lia.
    + apply approx_le with (2 := IH2); lia.
Qed.

Lemma Rsum_minus n f g : Rsum n (fun i => f i - g i) = Rsum n f - Rsum n g.
Proof. induction n as [|n IH]; [cbn; lra|]. rewrite !Rsum_S, IH; lra. Qed.

Section Shares.
Context {I : Type} (io : individual_ops I) (fexp : f64 -> f64).
Implicit Types (p : population I) (l : list I).

(** The exact total weight. *)
Definition exact (w : I -> f64) l : R := sumR (map (fun y => B2R (w y)) l).

Lemma exact_exsum w l : exact w l = exsum (map w l).
Proof. unfold exact, exsum; rewrite map_map; reflexivity. Qed.
Lemma exact_absum w l : weights_ok w l -> exact w l = absum (map w l).
Proof.
  unfold exact, absum; rewrite map_map; induction l as [|x t IH]; intros H; cbn [map sumR]; auto.
  rewrite IH by (intros y Hy; apply H; right; auto).
  rewrite Rabs_pos_eq; auto; apply H; left; auto.
Qed.
Lemma exact_pos w l : weights_ok w l -> 0 <= exact w l.
Proof. intros H; rewrite exact_absum by auto; apply absum_pos. Qed.
Lemma weights_firstn w l k : weights_ok w l -> weights_ok w (firstn k l).
Proof. intros H x Hx; apply H; rewrite <- (firstn_skipn k l); apply in_or_app; auto. Qed.
Lemma weights_skipn w l k : weights_ok w l -> weights_ok w (skipn k l).
Proof. intros H x Hx; apply H; rewrite <- (firstn_skipn k l); apply in_or_app; auto. Qed.
Lemma exact_firstn w l k : weights_ok w l -> 0 <= exact w (firstn k l) <= exact w l.
Proof.
  intros H; pose proof (exact_pos _ _ (weights_firstn w l k H)); pose proof (exact_pos _ _ (weights_skipn w l k H)).
  split; auto; rewrite <- (firstn_skipn k l) at 2; unfold exact in *; rewrite map_app, sumR_app; lra.
Qed.
Lemma weights_finite w l : weights_ok w l -> Forall (fun x => is_finite x = true) (map w l).
Proof. intros H; apply Forall_forall; intros v Hv; apply in_map_iff in Hv as (x & <- & Hx); apply H; auto. Qed.

Lemma split_close w l v : weights_ok w l -> few (length l) -> exact w l <= bpow radix2 1022 ->
  split_sum (map w l) v ->
  is_finite v = true /\ Rabs (B2R v - exact w l) <= 2 * INR (length l) * uu * exact w l.
Proof.
  intros Hw Hk Hs H.
  destruct (split_sum_approx _ _ H (weights_finite _ _ Hw)) as (F & _ & E).
  { rewrite map_length; auto. } { rewrite <- exact_absum; auto. }
  split; auto; rewrite <- exact_exsum, <- exact_absum, map_length in E by auto.
  apply Rle_trans with (1 := E); apply Rmult_le_compat_r; [apply exact_pos; auto|].
  pose proof (grow_le (Nat.pred (length l)) (length l) ltac:(lia)); unfold grow in *; lra.
Qed.

Lemma running_close w l k : weights_ok w l -> few (length l) -> exact w l <= bpow radix2 1022 ->
  is_finite (running_sum w l k) = true /\
  Rabs (B2R (running_sum w l k) - exact w (firstn k l)) <= 2 * INR (length l) * uu * exact w l.
Proof.
  intros Hw Hk Hs; pose proof (exact_firstn w l k Hw) as [H1 H2].
  destruct (split_close w (firstn k l) (running_sum w l k)) as [F E].
  - apply weights_firstn; auto.
  - apply few_le with (2 := Hk); rewrite firstn_length; lia.
  - lra.
  - unfold running_sum; apply ss_seq.
  - split; auto; apply Rle_trans with (1 := E).
    assert (INR (length (firstn k l)) <= INR (length l)) by (apply le_INR; rewrite firstn_length; lia).
    pose proof uu_pos; pose proof (pos_INR (length (firstn k l))).
    apply Rmult_le_compat; [|lra| |lra]; [|apply Rmult_le_compat_r; lra].
    apply Rmult_le_pos; lra.
Qed.

(** Cumulative shares. *)
Definition below (k : nat) (r : nat * I) : bool := (fst r <? k)%nat.

Lemma wheel_expect w total l (P : nat -> bool) (c : R) : l <> [] ->
  (forall u j, (u < 2 ^ 53)%N -> (j < length l)%nat -> wheel_picks w l (fmul (f_unit u) total) j -> (if P j then 1 else 0) = c) ->
  prob (u <- gen_f64 ;; wheel_select w total u l) (fun r => P (fst r)) = c.
Proof.
  intros Hl H; rewrite prob_expect, expect_bind; unfold gen_f64; cbn [expect].
  rewrite (Rsum_ext _ _ (fun _ => c)), Rsum_const.
  - rewrite n53_INR; pose proof (bpow_gt_0 radix2 53); field; lra.
  - intros u Hu; destruct (wheel_select_spec w total (f_unit (N.of_nat u)) l Hl) as (j & x & -> & Hx & Hp).
    cbn [expect fst]; apply (H (N.of_nat u)); auto; [lia|]; apply nth_error_Some; congruence.
Qed.

Lemma target_le u total : (u < 2 ^ 53)%N -> is_finite total = true -> 0 <= B2R total ->
  is_nan (fmul (f_unit u) total) = false /\ key (fmul (f_unit u) total) <= B2R total.
Proof.
  intros Hu F H; destruct (f_unit_val u Hu) as [Fu _]; destruct (f_unit_bound u Hu) as [B1 B2].
  destruct (fmul_correct _ _ Fu F) as (N & K & _); split; auto; rewrite K.
  rewrite <- (ovf_small (B2R total)) at 2 by apply B2R_bound; apply ovf_mono, rnd_le_float; [apply B2R_isfloat|].
  pose proof uu_pos; rewrite <- (Rmult_1_l (B2R total)) at 2; apply Rmult_le_compat_r; lra.
Qed.

Lemma below_share w total l k : weights_ok w l -> INR (length l) * uu <= / 16 ->
  bpow radix2 (-899) <= exact w l <= bpow radix2 1022 -> (k <= length l)%nat ->
  split_sum (map w l) total ->
  Rabs (prob (u <- gen_f64 ;; wheel_select w total u l) (below k) - exact w (firstn k l) / exact w l)
    <= 8 * INR (length l) * uu.
Proof.
  intros Hw Hn [HS1 HS2] Hk Ht; unfold below.
  pose proof (bpow_gt_0 radix2 (-899)) as Hp; pose proof uu_pos as Hu.
  assert (Hfew : few (length l)) by (unfold few; lra).
  assert (Hl : l <> []) by (intros ->; cbn in HS1; unfold exact in HS1; cbn [map sumR] in HS1; lra).
  assert (H1 : 1 <= INR (length l)) by (destruct l; [congruence|]; cbn [length]; rewrite S_INR; pose proof (pos_INR (length l)); lra).
  destruct (split_close w l total Hw Hfew HS2 Ht) as [FT ET].
  destruct (running_close w l k Hw Hfew HS2) as [Fc Ec].
  pose proof (exact_firstn w l k Hw) as [HC1 HC2].
  set (S := exact w l) in *; set (C := exact w (firstn k l)) in *; set (n := INR (length l)) in *.
  set (d := 2 * n * uu) in *.
  assert (Hd : 0 < d <= / 8) by (unfold d; split; [nra|lra]).
  assert (HT : S * (7 / 8) <= B2R total).
  { apply Rabs_le_inv in ET; assert (d * S <= / 8 * S) by (apply Rmult_le_compat_r; lra); lra. }
  replace (8 * n * uu) with (4 * d) by (unfold d; ring).
  destruct (Nat.eq_dec k 0) as [E0|E0].
  { assert (C = 0) as -> by (unfold C; rewrite E0; reflexivity).
    rewrite (wheel_expect w total l (fun j => (j <? k)%nat) 0) by (auto; intros u j _ _ _; rewrite E0; reflexivity).
    unfold Rdiv; rewrite Rmult_0_l, Rminus_0_r, Rabs_R0; lra. }
  destruct (Nat.eq_dec k (length l)) as [En|En].
  { assert (C = S) as -> by (unfold C, S; rewrite En, firstn_all; reflexivity).
    rewrite (wheel_expect w total l (fun j => (j <? k)%nat) 1).
    - unfold Rdiv; rewrite Rinv_r, Rminus_diag_eq, Rabs_R0 by (auto; lra); lra.
    - auto.
    - intros u j _ Hj _; rewrite (proj2 (Nat.ltb_lt _ _)) by lia; reflexivity. }
  destruct k as [|i]; [lia|].
  destruct (Rle_or_lt (B2R (running_sum w l (Datatypes.S i))) (B2R total)) as [Hc|Hc].
  - pose proof (wheel_prob w total l i Hw FT) as HP.
    specialize (HP ltac:(assert (bpow radix2 (-900) * 2 = bpow radix2 (-899))
      by (change (-899)%Z with (-900 + 1)%Z; rewrite bpow_plus, bpow_1; reflexivity); lra) ltac:(lia) Fc Hc).
    assert (EP : prob (u <- gen_f64 ;; wheel_select w total u l) (fun r => (fst r <? Datatypes.S i)%nat) =
                 prob (u <- gen_f64 ;; wheel_select w total u l) (fun r => (fst r <=? i)%nat)) by reflexivity.
    rewrite EP; set (P := prob _ _) in *; set (c := B2R (running_sum w l (Datatypes.S i))) in *; set (T := B2R total) in *.
    assert (HT0 : 0 < T) by lra.
    assert (Hq : Rabs (c / T - C / S) <= 16 / 7 * d).
    { replace (c / T - C / S) with (((c - C) + C / S * (S - T)) / T) by (field; lra).
      unfold Rdiv at 1; rewrite Rabs_mult, (Rabs_pos_eq (/ T)) by (left; apply Rinv_0_lt_compat; auto).
      apply Rmult_le_reg_r with T; auto; rewrite Rmult_assoc, Rinv_l, Rmult_1_r by lra.
      eapply Rle_trans; [apply Rabs_triang|]; rewrite Rabs_mult.
      assert (HCS : 0 <= C / S <= 1).
      { split; [apply Rmult_le_pos; [auto|left; apply Rinv_0_lt_compat; lra]|].
        apply Rmult_le_reg_r with S; [lra|]; unfold Rdiv; rewrite Rmult_assoc, Rinv_l, Rmult_1_r by lra; lra. }
      rewrite (Rabs_pos_eq (C / S)) by lra; rewrite (Rabs_minus_sym S T).
      assert (C / S * Rabs (T - S) <= 1 * (d * S)) by (apply Rmult_le_compat; [lra|apply Rabs_pos|lra|exact ET]).
      assert (16 / 7 * d * (S * (7 / 8)) <= 16 / 7 * d * T) by (apply Rmult_le_compat_l; lra).
      lra. }
    replace (P - C / S) with ((P - c / T) + (c / T - C / S)) by ring.
    eapply Rle_trans; [apply Rabs_triang|].
    rewrite (Rabs_pos_eq (P - c / T)) by lra.
    assert (uu <= d / 2) by (unfold d; nra). lra.
  - rewrite (wheel_expect w total l (fun j => (j <? Datatypes.S i)%nat) 1); [|auto|].
    + assert (Hq : 1 - 2 * d <= C / S <= 1).
      { apply Rabs_le_inv in ET; apply Rabs_le_inv in Ec; split.
        - apply Rmult_le_reg_r with S; [lra|]; unfold Rdiv; rewrite Rmult_assoc, Rinv_l, Rmult_1_r by lra; lra.
        - apply Rmult_le_reg_r with S; [lra|]; unfold Rdiv; rewrite Rmult_assoc, Rinv_l, Rmult_1_r by lra; lra. }
      rewrite Rabs_pos_eq by lra; lra.
    + intros u j Hu' Hj Hp'.
      change (j <? Datatypes.S i)%nat with (j <=? i)%nat; rewrite (wheel_le w l _ i j Hw Hp') by lia.
      destruct (target_le u total Hu' FT ltac:(lra)) as [Nt Kt].
      replace (fge _ _) with true; auto; symmetry; apply fge_spec; repeat split; auto.
      * apply finite_not_nan; auto.
      * rewrite (key_finite _ Fc); lra.
Qed.

Lemma firstn_S_exact w l i x : nth_error l i = Some x -> exact w (firstn (S i) l) = exact w (firstn i l) + B2R (w x).
Proof.
  unfold exact; revert i; induction l as [|y t IH]; intros [|i]; cbn [nth_error]; try discriminate.
  - intros E; injection E as ->; cbn [firstn map sumR]; lra.
  - intros E; rewrite !firstn_cons; cbn [map sumR]; rewrite (IH i E); lra.
Qed.

Lemma wheel_share w total l i x : weights_ok w l -> INR (length l) * uu <= / 16 ->
  bpow radix2 (-899) <= exact w l <= bpow radix2 1022 -> nth_error l i = Some x ->
  split_sum (map w l) total ->
  Rabs (prob (u <- gen_f64 ;; wheel_select w total u l) (fun r => (fst r =? i)%nat) - B2R (w x) / exact w l)
    <= INR (length l) * bpow radix2 (-49).
Proof.
  intros Hw Hn HS Hx Ht; assert (Hi : (i < length l)%nat) by (apply nth_error_Some; congruence).
  pose proof (below_share w total l (S i) Hw Hn HS ltac:(lia) Ht) as H1.
  pose proof (below_share w total l i Hw Hn HS ltac:(lia) Ht) as H2.
  set (m := u <- gen_f64 ;; wheel_select w total u l) in *.
  assert (E : prob m (fun r => (fst r =? i)%nat) = prob m (below (S i)) - prob m (below i)).
  { unfold m; rewrite !prob_expect, !expect_bind; unfold gen_f64; cbn [expect]; unfold Rdiv.
    rewrite <- Rmult_minus_distr_r; f_equal.
    rewrite <- (Rsum_minus (N.to_nat (2 ^ 53))); apply Rsum_ext; intros u Hu.
    destruct (wheel_select_spec w total (f_unit (N.of_nat u)) l) as (j & y & -> & Hy & Hp); [intros ->; destruct i; discriminate|].
    cbn [expect fst]; unfold below; cbn [fst].
    destruct (Nat.eqb_spec j i), (Nat.ltb_spec j (S i)), (Nat.ltb_spec j i); try lia; lra. }
  rewrite E; rewrite (firstn_S_exact w l i x Hx) in H1.
  assert (B : INR (length l) * bpow radix2 (-49) = 16 * INR (length l) * uu).
  { change (-49)%Z with (4 + -53)%Z; rewrite bpow_plus; change (bpow radix2 4) with 16; ring. }
  rewrite B.
  replace (prob m (below (S i)) - prob m (below i) - B2R (w x) / exact w l) with
    ((prob m (below (S i)) - (exact w (firstn i l) + B2R (w x)) / exact w l) - (prob m (below i) - exact w (firstn i l) / exact w l))
    by (unfold Rdiv; ring).
  unfold Rminus at 1; eapply Rle_trans; [apply Rabs_triang|]; rewrite Rabs_Ropp; lra.
Qed.

Lemma few16 n : (Z.of_nat n <= 2 ^ 49)%Z -> INR n * uu <= / 16.
Proof.
  intros H; rewrite INR_IZR_INZ; apply IZR_le in H; change (IZR (2 ^ 49)) with (bpow radix2 49) in H.
  pose proof uu_pos; apply Rle_trans with (bpow radix2 49 * uu); [apply Rmult_le_compat_r; lra|].
  rewrite <- bpow_plus; change (bpow radix2 (49 + -53)) with (/ 16); lra.
Qed.

Lemma roulette_shares (t0 : f64) p (i : nat) (x : I) :
  nth_error (individuals p) i = Some x ->
  (forall y, In y (individuals p) -> is_finite (fitness io y) = true /\ 0 <= B2R (fitness io y)) ->
  (Z.of_nat (length (individuals p)) <= 2 ^ 49)%Z ->
  let total := sumR (map (fun y => B2R (fitness io y)) (individuals p)) in
  bpow radix2 (-899) <= total <= bpow radix2 1022 ->
  must (prepare io fexp (RouletteWheel t0) p) (fun s =>
    Rabs (prob (select io fexp s p) (fun r => (fst r =? i)%nat) - B2R (fitness io x) / total)
      <= INR (length (individuals p)) * bpow radix2 (-49)).
Proof.
  intros Hx Hw Hn total HS; eapply must_mono; [|exact (prepare_roulette io fexp t0 p)].
  cbn beta; intros s (v & -> & Hv); apply wheel_share; auto; apply few16; auto.
Qed.

Lemma boltzmann_shares (t c t0 : f64) p (i : nat) (x : I) :
  let scaled := fun y => fexp (fdiv (fitness io y) (fmul t c)) in
  nth_error (individuals p) i = Some x ->
  (forall y, In y (individuals p) -> is_finite (scaled y) = true /\ 0 <= B2R (scaled y)) ->
  (Z.of_nat (length (individuals p)) <= 2 ^ 49)%Z ->
  let total := sumR (map (fun y => B2R (scaled y)) (individuals p)) in
  bpow radix2 (-899) <= total <= bpow radix2 1022 ->
  must (prepare io fexp (Boltzmann t c t0) p) (fun s =>
    Rabs (prob (select io fexp s p) (fun r => (fst r =? i)%nat) - B2R (scaled x) / total)
      <= INR (length (individuals p)) * bpow radix2 (-49)).
Proof.
  intros scaled Hx Hw Hn total HS; eapply must_mono; [|exact (prepare_boltzmann io fexp t c t0 p)].
  cbn beta; intros s (v & -> & Hv); apply (wheel_share scaled); auto; apply few16; auto.
Qed.
End Shares.

Lemma ex_fitness x : (x <= 8)%nat -> is_finite (fitness ex_io x) = true /\ B2R (fitness ex_io x) = INR x.
Proof.
  intros H; cbn [fitness ex_io]; unfold f_of_nat; rewrite INR_IZR_INZ; apply f_of_Z_exact; rewrite Z.abs_eq by lia.
  apply Z.le_trans with 8%Z; [lia|discriminate].
Qed.

Lemma shares_example :
  let p := ex_popn ex_io [1; 2; 5]%nat in
  (forall y, In y (individuals p) -> is_finite (fitness ex_io y) = true /\ 0 <= B2R (fitness ex_io y)) /\
  sumR (map (fun y => B2R (fitness ex_io y)) (individuals p)) = 8 /\ bpow radix2 (-899) <= 8 <= bpow radix2 1022.
Proof.
  cbn [individuals ex_popn map sumR In]; split; [|split].
  - intros y Hy; destruct (ex_fitness y) as [F V]; [lia|]; split; auto; rewrite V; apply pos_INR.
  - rewrite !(fun x H => proj2 (ex_fitness x H)) by lia; cbn [INR]; lra.
  - change 8 with (bpow radix2 3); split; apply bpow_le; lia.
Qed.
