(** * PDrift: repeated duplicate mutation (C120). *)
From Coq Require Import List Bool Arith NArith ZArith Reals Lia Lra Permutation.
From Verif Require Import Rnd LRnd Prob LProb MOperators MMutation Spec SpecM SpecO SpecJ LAlike PMutation PMutationProb PShuffle PSelection2 PModel PConv PConnect PRename2
  MOneMax POneMax PReach3 PConv4 PMix PMix2.
Import ListNotations.
Local Open Scope R_scope.

Lemma ones_upd_ind (b : list bool) j v : (j < length b)%nat -> INR (ones (upd b j v)) = INR (ones b) + ind v - ind (nth j b false).
Proof.
  revert j; induction b as [|x b IH]; intros [|j] Hj; cbn [length] in Hj; try lia; cbn [upd nth].
  - destruct v, x; cbn [count_occ Bool.bool_dec]; unfold ind; repeat (destruct (bool_dec _ _); try discriminate; try congruence); rewrite ?S_INR; lra.
  - specialize (IH j ltac:(lia)); destruct x; cbn [count_occ]; repeat (destruct (bool_dec _ _); try discriminate; try congruence); rewrite ?S_INR; lra.
Qed.

Lemma mean_step_bits (b : list bool) : expect (duplicate_mutation b) (fun r => INR (ones r)) = INR (ones b).
Proof.
  unfold duplicate_mutation; set (n := length b); destruct (Nat.ltb_spec n 2) as [H|Hn]; [reflexivity|].
  unfold random_pair, massert; rewrite (proj2 (Nat.leb_le 2 n)) by lia; cbn [bind].
  rewrite expect_bind, expect_bind, expect_gen_range by lia; rewrite Nat.sub_0_r.
  assert (Hn2 : 2 <= INR n) by (replace 2 with (INR 2) by reflexivity; apply le_INR; lia).
  rewrite (Rsum_ext n _ (fun i => INR (ones b) + ((INR n * / (INR n - 1)) * ind (nth i b false) + - (INR (ones b) / (INR n - 1))))).
  { rewrite Rsum_plus, Rsum_const, Rsum_plus, Rsum_const, Rsum_mult; pose proof (count_sum b) as Ec; fold n in Ec; rewrite Ec; field; lra. }
  intros i Hi; rewrite expect_bind, expect_gen_range by lia; rewrite Nat.sub_0_r; cbn [Nat.add expect].
  assert (E1 : INR (n - 1) = INR n - 1) by (rewrite minus_INR by lia; reflexivity).
  rewrite (Rsum_ext (n - 1) _ (fun j => (fun j => INR (ones b) + ind (nth i b false) - ind (nth j b false)) (if i <=? j then j + 1 else j)%nat)).
  2: { intros j Hj; assert (L : ((if i <=? j then j + 1 else j) < length b)%nat) by (fold n; destruct (_ <=? _)%nat; lia).
       rewrite (idx_some b i (nth i b false)) by (apply nth_error_nth'; auto); cbn [bind]; rewrite set_ok by auto; cbn [expect].
       apply ones_upd_ind; auto. }
  rewrite (skip_sum (n - 1) i (fun j => INR (ones b) + ind (nth i b false) - ind (nth j b false))) by lia; replace (S (n - 1)) with n by lia; cbn beta.
  rewrite (Rsum_ext n _ (fun j => (INR (ones b) + ind (nth i b false)) + (-1) * ind (nth j b false))) by (intros; lra).
  rewrite Rsum_plus, Rsum_const, Rsum_mult; pose proof (count_sum b) as Ec; fold n in Ec; rewrite Ec, E1; field; lra.
Qed.

Section Drift.
Context {G : Type}.
Implicit Types (l r : list G) (h : G -> bool).
Definition cnt h l := length (filter h l).

Lemma ones_map h l : ones (map h l) = cnt h l.
Proof. unfold cnt; induction l as [|x l IH]; [reflexivity|]; cbn [map filter]; destruct (h x); cbn [count_occ length]; repeat (destruct (bool_dec _ _); try discriminate; try congruence). Qed.
Lemma cnt_le h l : (cnt h l <= length l)%nat.
Proof. unfold cnt; induction l as [|x l IH]; cbn; [lia|]; destruct (h x); cbn; lia. Qed.
Lemma cnt_all h l : cnt h l = length l <-> forallb h l = true.
Proof.
  unfold cnt; induction l as [|x l IH]; cbn; [tauto|]; pose proof (cnt_le h l) as H; unfold cnt in H; destruct (h x); cbn; [|split; [lia|discriminate]].
  rewrite <- IH; split; lia.
Qed.
Lemma to_bits h l f : expect (duplicate_mutation l) (fun r => f (map h r)) = expect (duplicate_mutation (map h l)) f.
Proof. apply (expect_alike _ _ _ _ _ (names_mutation h Duplicate l)); [apply (no_pick_mutate Duplicate)|intros a b ->; reflexivity]. Qed.

Lemma mean_step h l : expect (mutate Duplicate l) (fun r => INR (cnt h r)) = INR (cnt h l).
Proof.
  cbn [mutate]; rewrite (expect_ext _ _ (fun r => INR (ones (map h r)))) by (intros; rewrite ones_map; reflexivity).
  rewrite (to_bits h l (fun b => INR (ones b))), mean_step_bits, ones_map; reflexivity.
Qed.
Lemma mean_times h k l : expect (mutate_times Duplicate k l) (fun r => INR (cnt h r)) = INR (cnt h l).
Proof.
  revert l; induction k as [|k IH]; intros l; [reflexivity|]; cbn [mutate_times]; rewrite expect_bind.
  rewrite (expect_ext _ _ (fun r => INR (cnt h r))) by (intros; apply IH); apply mean_step.
Qed.
Lemma times_length s k l : must (mutate_times s k l) (fun r => length r = length l).
Proof.
  revert l; induction k as [|k IH]; intros l; [cbn; auto|]; cbn [mutate_times]; eapply must_bind_intro; [apply mutate_length|].
  cbn; intros r Hr; eapply must_mono; [|apply IH]; cbn; intros; lia.
Qed.
Lemma cnt_total h r : INR (cnt h r) = total (map (fun i => if kind_at h i r then 1 else 0) (seq 0 (length r))).
Proof.
  induction r as [|x r IH]; [reflexivity|]; cbn [length seq map total fold_right]; rewrite <- seq_shift, map_map.
  change (INR (cnt h (x :: r)) = (if h x then 1 else 0) + total (map (fun i => if kind_at h i r then 1 else 0) (seq 0 (length r)))).
  rewrite <- IH; unfold cnt; cbn [filter]; destruct (h x); [cbn [length]; rewrite S_INR|]; lra.
Qed.
Lemma c120_mean h k l : total (map (fun i => prob (mutate_times Duplicate k l) (kind_at h i)) (seq 0 (length l))) = INR (length (filter h l)).
Proof.
  fold (cnt h l); rewrite <- (mean_times h k l).
  rewrite (expect_supp _ (fun r => INR (cnt h r)) (fun r => total (map (fun i => if kind_at h i r then 1 else 0) (seq 0 (length l))))).
  - rewrite (expect_total (mutate_times Duplicate k l) (fun i r => if kind_at h i r then 1 else 0) (seq 0 (length l)) _ (no_pick_times _ _ _) (times_length _ k l)).
    f_equal; apply map_ext; intros i; apply prob_expect.
  - apply no_pick_times.
  - intros r Hr; apply (must_may _ _ _ (times_length _ k l)) in Hr; cbn beta in Hr; rewrite cnt_total, Hr; reflexivity.
Qed.

(** ** Fixation *)
Lemma rises h l : (1 <= cnt h l < length l)%nat -> / INR (length l) <= prob (mutate Duplicate l) (fun r => (cnt h l <? cnt h r)%nat).
Proof.
  intros H; pose proof (duplicate_rises (map h l)) as D; rewrite map_length, ones_map in D; specialize (D H).
  eapply Rle_trans; [exact D|]; right; rewrite !prob_expect, <- (to_bits h l (fun g' => if (cnt h l <? ones g')%nat then 1 else 0)).
  cbn [mutate]; apply expect_ext; intros r; rewrite ones_map; reflexivity.
Qed.
Lemma full_step h l : forallb h l = true -> must (mutate Duplicate l) (fun r => forallb h r = true /\ length r = length l).
Proof.
  intros H; apply must_and; [|apply mutate_length]; cbn [mutate]; destruct (Nat.lt_ge_cases (length l) 2) as [L|L].
  - rewrite (mutate_short Duplicate l L : duplicate_mutation l = Ret l); exact H.
  - eapply must_mono; [|apply duplicate_mutation_spec; auto]; intros r (a & b & _ & _ & _ & Hr).
    rewrite forallb_forall in *; intros x Hx; apply In_nth_error in Hx as (k & Hk); rewrite (Hr k) in Hk; apply H; eapply nth_error_In; eauto.
Qed.
Lemma full_times h k l : forallb h l = true -> must (mutate_times Duplicate k l) (fun r => forallb h r = true).
Proof.
  revert l; induction k as [|k IH]; intros l H; [exact H|]; cbn [mutate_times]; eapply must_bind_intro; [apply full_step; exact H|].
  intros r [Hr _]; apply IH; auto.
Qed.

Lemma inv_bounds n : (1 <= n)%nat -> 0 < / INR n <= 1.
Proof.
  intros H; assert (1 <= INR n) by (apply (le_INR 1); auto); split; [apply Rinv_0_lt_compat; lra|].
  rewrite <- Rinv_1; apply Rinv_le_contravar; lra.
Qed.
Lemma climb h j : forall l, (1 <= cnt h l)%nat -> (length l <= cnt h l + j)%nat ->
  (/ INR (length l)) ^ j <= prob (mutate_times Duplicate j l) (forallb h).
Proof.
  induction j as [|j IH]; intros l H1 Hj.
  - cbn; rewrite (proj1 (cnt_all h l)); [lra|]; pose proof (cnt_le h l); lia.
  - pose proof (cnt_le h l) as Hle; destruct (inv_bounds (length l) ltac:(lia)) as [B1 B2].
    destruct (Nat.eq_dec (cnt h l) (length l)) as [E|E].
    + rewrite (prob_one _ _ (full_times h (S j) l (proj1 (cnt_all h l) E))).
      rewrite <- (pow1 (S j)); apply pow_incr; lra.
    + cbn [mutate_times pow]; rewrite Rmult_comm.
      eapply Rle_trans; [|apply (prob_bind_low (mutate Duplicate l) (fun g' => mutate_times Duplicate j g') (fun r => (cnt h l <? cnt h r)%nat) (forallb h) ((/ INR (length l)) ^ j))].
      * apply Rmult_le_compat_l; [apply pow_le; lra|apply rises; lia].
      * split; [apply pow_le; lra|]; rewrite <- (pow1 j); apply pow_incr; lra.
      * intros r Hr Hc; apply Nat.ltb_lt in Hc; apply (must_may _ _ _ (mutate_length Duplicate l)) in Hr; cbn beta in Hr.
        rewrite <- Hr; apply IH; lia.
Qed.

Section Same.
Context (eqb : G -> G -> bool) (He : eq_ok eqb).

Lemma same_iff r : all_same eqb r = true <-> r = [] \/ exists x, In x r /\ forallb (eqb x) r = true.
Proof.
  destruct r as [|y t]; cbn [all_same]; [tauto|]; rewrite forallb_forall; split.
  - intros H; right; exists y; split; [cbn; auto|]; apply forallb_forall; intros x [<-|Hx]; [apply He; auto|auto].
  - intros [H|(x & _ & H)]; [discriminate|]; rewrite forallb_forall in H; intros z Hz.
    pose proof (proj1 (He x y) (H y (or_introl eq_refl))); subst; apply H; cbn; auto.
Qed.
Definition mixed r : R := if all_same eqb r then 0 else 1.
Lemma mixed_bounds r : 0 <= mixed r <= 1.
Proof. unfold mixed; destruct (all_same eqb r); lra. Qed.
Definition U k l := expect (mutate_times Duplicate k l) mixed.
Lemma U_prob k l : prob (mutate_times Duplicate k l) (all_same eqb) = 1 - U k l.
Proof.
  unfold U; rewrite prob_expect, (expect_ext _ _ (fun r => (-1) * mixed r + 1)) by (intros; unfold mixed; destruct (all_same eqb a); lra).
  rewrite (expect_affine _ _ mixed (-1) 1 (no_pick_times _ _ _) (times_length _ k l)); lra.
Qed.
Lemma U_bounds k l : 0 <= U k l <= 1.
Proof. pose proof (U_prob k l); pose proof (prob_le_one (mutate_times Duplicate k l) (all_same eqb)); pose proof (prob_nonneg (mutate_times Duplicate k l) (all_same eqb)); lra. Qed.
Lemma U_same k l : all_same eqb l = true -> U k l = 0.
Proof.
  intros H; assert (E : prob (mutate_times Duplicate k l) (all_same eqb) = 1); [|rewrite U_prob in E; lra].
  apply prob_one; apply same_iff in H as [->|(x & Hx & H)].
  - eapply must_mono; [|apply times_length]; intros r Hr; destruct r; [reflexivity|discriminate].
  - eapply must_mono; [|apply must_and; [apply full_times, H|apply times_length]]; cbn beta; intros r [Hr Hl]; apply same_iff.
    destruct r as [|y t]; [auto|right; exists x; split; auto]; cbn in Hr; apply andb_true_iff in Hr as [Hr _]; apply He in Hr; subst; cbn; auto.
Qed.
Lemma U_block l : (2 <= length l)%nat -> U (length l - 1) l <= 1 - (/ INR (length l)) ^ (length l - 1).
Proof.
  intros Hn; destruct l as [|x t] eqn:El; [cbn in Hn; lia|]; rewrite <- El in *.
  assert (Hc : (1 <= cnt (eqb x) l)%nat) by (rewrite El; unfold cnt; cbn; rewrite (proj2 (He x x) eq_refl); cbn; lia).
  pose proof (climb (eqb x) (length l - 1) l Hc ltac:(lia)) as H; clear El t.
  assert (H' : prob (mutate_times Duplicate (length l - 1) l) (forallb (eqb x)) <= prob (mutate_times Duplicate (length l - 1) l) (all_same eqb)).
  { rewrite !prob_expect; apply expect_le; [apply no_pick_times|]; intros r Hr; destruct (forallb (eqb x) r) eqn:E; [|destruct (all_same eqb r); lra].
    rewrite (proj2 (same_iff r)); [lra|]; destruct r as [|y u]; [auto|right; exists x; split; auto].
    cbn in E; apply andb_true_iff in E as [E _]; apply He in E; subst; cbn; auto. }
  rewrite U_prob in H'; lra.
Qed.
Lemma rho_bounds n : (1 <= n)%nat -> 0 <= 1 - (/ INR n) ^ (n - 1) <= 1.
Proof.
  intros H; destruct (inv_bounds n H) as [B1 B2]; pose proof (pow_le (/ INR n) (n - 1) ltac:(lra)).
  pose proof (pow_incr (/ INR n) 1 (n - 1) ltac:(lra)) as H1; rewrite pow1 in H1; lra.
Qed.
Lemma U_blocks n q j : (2 <= n)%nat -> forall l, length l = n -> U (q * (n - 1) + j) l <= (1 - (/ INR n) ^ (n - 1)) ^ q.
Proof.
  intros Hn; induction q as [|q IH]; intros l Hl; [cbn [pow]; apply U_bounds|].
  replace (S q * (n - 1) + j)%nat with ((n - 1) + (q * (n - 1) + j))%nat by lia; unfold U; rewrite times_split.
  pose proof (rho_bounds n ltac:(lia)) as B; set (c := 1 - (/ INR n) ^ (n - 1)) in *.
  apply Rle_trans with (expect (mutate_times Duplicate (n - 1) l) (fun r => mixed r * c ^ q)).
  - apply expect_le; [apply no_pick_times|]; intros r Hr; apply (must_may _ _ _ (times_length _ (n - 1) l)) in Hr; cbn beta in Hr.
    change (U (q * (n - 1) + j) r <= mixed r * c ^ q); unfold mixed; destruct (all_same eqb r) eqn:E; [rewrite U_same by auto; lra|].
    rewrite Rmult_1_l; apply IH; lia.
  - rewrite expect_scale by apply no_pick_times; cbn [pow]; apply Rmult_le_compat_r; [apply pow_le; lra|].
    unfold c; rewrite <- Hl; apply U_block; lia.
Qed.
Lemma U_bound k l : (2 <= length l)%nat -> U k l <= still_mixed (length l) k.
Proof.
  intros Hn; unfold still_mixed; rewrite (Nat.div_mod k (length l - 1)) at 1 by lia; rewrite (Nat.mul_comm (length l - 1)); apply U_blocks; auto.
Qed.
Lemma c120_fixes k l : (2 <= length l)%nat -> 1 - still_mixed (length l) k <= prob (mutate_times Duplicate k l) (all_same eqb).
Proof. intros Hn; rewrite U_prob; pose proof (U_bound k l Hn); lra. Qed.

Lemma c120_takeover h k l : (2 <= length l)%nat ->
  INR (length (filter h l)) / INR (length l) - still_mixed (length l) k <= prob (mutate_times Duplicate k l) (forallb h) <= INR (length (filter h l)) / INR (length l).
Proof.
  intros Hn; set (n := length l) in *; assert (Hn0 : 0 < INR n) by (apply lt_0_INR; lia).
  assert (Hs : forall r, may (mutate_times Duplicate k l) r ->
    (if forallb h r then 1 else 0) <= INR (cnt h r) * / INR n + 0 /\ INR (cnt h r) * / INR n + 0 <= (if forallb h r then 1 else 0) + mixed r).
  { intros r Hr; apply (must_may _ _ _ (times_length _ k l)) in Hr; cbn beta in Hr; fold n in Hr; rewrite Rplus_0_r.
    assert (Hb : 0 <= INR (cnt h r) * / INR n <= 1).
    { pose proof (cnt_le h r) as L; rewrite Hr in L; apply le_INR in L; pose proof (pos_INR (cnt h r)); pose proof (Rinv_0_lt_compat _ Hn0); split; [nra|].
      apply Rmult_le_reg_r with (INR n); auto; rewrite Rmult_assoc, Rinv_l by lra; lra. }
    pose proof (mixed_bounds r) as Hm; destruct (forallb h r) eqn:E.
    - apply cnt_all in E; rewrite E, Hr, Rinv_r by lra; lra.
    - split; [lra|]; unfold mixed in *; destruct (all_same eqb r) eqn:Es; [|lra].
      apply same_iff in Es as [->|(x & Hx & Es)]; [cbn in Hr; lia|]; rewrite forallb_forall in Es.
      assert (Hh : h x = false).
      { destruct (h x) eqn:Eh; auto; rewrite <- E; symmetry; apply forallb_forall; intros y Hy; apply Es, He in Hy; congruence. }
      replace (cnt h r) with 0%nat; [cbn; lra|]; unfold cnt; symmetry; apply length_zero_iff_nil.
      destruct (filter h r) as [|y u] eqn:Ef; auto; exfalso; assert (Hy : In y (filter h r)) by (rewrite Ef; cbn; auto).
      apply filter_In in Hy as [Hy Hhy]; apply Es, He in Hy; congruence. }
  assert (Em : INR (cnt h l) / INR n = expect (mutate_times Duplicate k l) (fun r => INR (cnt h r) * / INR n + 0)).
  { rewrite (expect_ext _ _ (fun r => / INR n * INR (cnt h r) + 0)) by (intros; lra).
    rewrite (expect_affine _ _ (fun r => INR (cnt h r)) _ 0 (no_pick_times _ _ _) (times_length _ k l)), mean_times; unfold Rdiv; lra. }
  fold (cnt h l); rewrite Em, prob_expect; split.
  - pose proof (U_bound k l Hn) as HU; fold n in HU; unfold U in HU.
    pose proof (expect_le (mutate_times Duplicate k l) _ _ (no_pick_times _ _ _) (fun r Hr => proj2 (Hs r Hr))) as H; cbn beta in H.
    rewrite (expect_plus _ (fun r => if forallb h r then 1 else 0) mixed) in H by apply no_pick_times; lra.
  - apply expect_le; [apply no_pick_times|]; intros r Hr; apply Hs; auto.
Qed.

Lemma still_mixed_limit n : (2 <= n)%nat -> Un_cv (still_mixed n) 0.
Proof.
  intros Hn eps Heps; unfold still_mixed; destruct (inv_bounds n ltac:(lia)) as [B1 _].
  pose proof (rho_bounds n ltac:(lia)) as B; pose proof (pow_lt (/ INR n) (n - 1) B1) as B3.
  destruct (pow_lt_1_zero (1 - (/ INR n) ^ (n - 1)) ltac:(rewrite Rabs_pos_eq; lra) eps Heps) as (N0 & HN).
  exists (N0 * (n - 1))%nat; intros k Hk; unfold R_dist; rewrite Rminus_0_r; apply HN, Nat.div_le_lower_bound; lia.
Qed.
Lemma c120_limit h l : (2 <= length l)%nat -> Un_cv (fun k => prob (mutate_times Duplicate k l) (forallb h)) (INR (length (filter h l)) / INR (length l)).
Proof.
  intros Hn eps Heps; destruct (still_mixed_limit (length l) Hn eps Heps) as (N0 & HN); exists N0; intros k Hk.
  specialize (HN k Hk); unfold R_dist in *; rewrite Rminus_0_r in HN; pose proof (c120_takeover h k l Hn) as H.
  pose proof (Rle_abs (still_mixed (length l) k)); rewrite Rabs_left1; lra.
Qed.
End Same.
End Drift.

Lemma c120_example :
  (2 <= length [1; 1; 2])%nat /\ eq_ok Nat.eqb /\ length (filter (Nat.eqb 1) [1; 1; 2]%nat) = 2%nat /\
  prob (mutate_times Duplicate 1 [1; 1; 2]%nat) (forallb (Nat.eqb 1)) = / 3 /\
  run (mutate_times Duplicate 2 [1; 2; 3]%nat) [1; 0; 1; 1]%N = Some [2; 2; 2]%nat.
Proof.
  split; [cbn; lia|]; split; [intros a b; apply Nat.eqb_eq|]; split; [reflexivity|]; split; [|reflexivity].
  cbv [mutate_times mutate duplicate_mutation random_pair massert length Nat.ltb Nat.leb bind gen_range Nat.sub N.of_nat Pos.of_succ_nat Pos.succ prob N.to_nat Pos.to_nat Pos.iter_op Rsum map seq fold_right
    Nat.add idx nth_error set upd forallb Nat.eqb andb].
  cbn [INR]; lra.
Qed.
