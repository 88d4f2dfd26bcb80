(** * PConv: how soon a run finds the goal (C92). *)
From Coq Require Import List Bool Arith NArith ZArith Reals Lia Lra Permutation.
From Flocq Require Import Core BinarySingleNaN.
From Verif Require Import Rnd LRnd Prob LProb F64 LF64 MStats MPopulation MSelection MModel MAlgorithms SpecF SpecA SpecK SpecR SpecL
  PMutationProb PSelection PSelection2 PLinear PSelection3 PSum PLinear2 PPopulation PModel PInterp PAlgorithms PAlgorithms2 PRun PRun2 PRun3 PKeep PReach PReach2.
Import ListNotations.
Local Open Scope nat_scope.

(** ** Probabilities *)
Lemma prob_le_one {A} (m : M A) P : (prob m P <= 1)%R.
Proof.
  induction m as [a|e|n k IH|n k IH]; cbn [prob]; try (destruct (P a)); try lra.
  - destruct (N.eq_dec n 0) as [->|Hn]; [cbn; unfold Rdiv; rewrite Rmult_0_l; lra|].
    assert (Hp : (0 < INR (N.to_nat n))%R) by (apply lt_0_INR; lia).
    apply Rmult_le_reg_r with (INR (N.to_nat n)); auto; unfold Rdiv; rewrite Rmult_assoc, Rinv_l by lra.
    rewrite Rmult_1_r, Rmult_1_l, <- (Rmult_1_r (INR (N.to_nat n))), <- (Rsum_const (N.to_nat n) 1); apply Rsum_le; auto.
  - generalize (map (fun i => prob (k (N.of_nat i)) P) (seq 0 (N.to_nat n))) as l.
    induction l as [|h t IHl]; cbn; [lra|]; eapply Rle_trans; [apply Rmin_r|auto].
Qed.

Lemma prob_one {A} (m : M A) P : must m (fun a => P a = true) -> prob m P = 1%R.
Proof.
  intros H; rewrite <- (prob_must m _ H); apply prob_ext_supp; intros a Ha; exact (must_may _ _ _ H Ha).
Qed.

Lemma fold_min_le_one l : (fold_right Rmin 1 l <= 1)%R.
Proof. induction l as [|h t IHl]; cbn; [lra|]; eapply Rle_trans; [apply Rmin_r|auto]. Qed.

Lemma prob_bind_gain {A B} (m : M A) (f : A -> M B) (Rr : A -> Prop) Q P (a b : R) :
  (b <= a <= 1)%R -> must m Rr -> (forall x, Rr x -> (b <= prob (f x) P)%R) ->
  (forall x, Rr x -> Q x = true -> (a <= prob (f x) P)%R) ->
  (b + (a - b) * prob m Q <= prob (bind m f) P)%R.
Proof.
  intros Hab; induction m as [x|e|n k IH|n k IH]; cbn [must bind prob]; intros Hm Hb Ha.
  - destruct (Q x) eqn:E; [specialize (Ha x Hm E); lra|specialize (Hb x Hm); lra].
  - tauto.
  - destruct Hm as [Hn Hm]; assert (Hp : (0 < INR (N.to_nat n))%R) by (apply lt_0_INR; lia).
    apply Rmult_le_reg_r with (INR (N.to_nat n)); auto; unfold Rdiv.
    rewrite (Rmult_assoc (Rsum (N.to_nat n) (fun i => prob (bind (k (N.of_nat i)) f) P))), Rinv_l, Rmult_1_r by lra.
    set (S1 := Rsum _ (fun i => prob (k (N.of_nat i)) Q)).
    replace ((b + (a - b) * (S1 * / INR (N.to_nat n))) * INR (N.to_nat n))%R with (INR (N.to_nat n) * b + (a - b) * S1)%R by (field; lra).
    unfold S1; rewrite <- Rsum_const, <- Rsum_mult, <- Rsum_plus; apply Rsum_le; intros i Hi; apply IH; auto; apply Hm; lia.
  - destruct Hm as [Hn Hm]; apply fold_min_ge.
    + pose proof (fold_min_le_one (map (fun i => prob (k (N.of_nat i)) Q) (seq 0 (N.to_nat n)))) as H.
      apply Rle_trans with (b + (a - b) * 1)%R; [apply Rplus_le_compat_l, Rmult_le_compat_l; lra|lra].
    + apply Forall_forall; intros y Hy; apply in_map_iff in Hy as (i & <- & Hi).
      assert (Hi' : (N.of_nat i < n)%N) by (apply in_seq in Hi; lia).
      eapply Rle_trans; [|apply IH; auto]; apply Rplus_le_compat_l, Rmult_le_compat_l; [lra|].
      apply fold_Rmin_le, in_map_iff; eauto.
Qed.

Lemma prob_bind_low {A B} (m : M A) (f : A -> M B) Q P (a : R) :
  (0 <= a <= 1)%R -> (forall x, may m x -> Q x = true -> (a <= prob (f x) P)%R) ->
  (a * prob m Q <= prob (bind m f) P)%R.
Proof.
  intros Hab; induction m as [x|e|n k IH|n k IH]; cbn [may bind prob]; intros Ha.
  - destruct (Q x) eqn:E; [specialize (Ha x eq_refl E); lra|pose proof (prob_nonneg (f x) P); lra].
  - lra.
  - unfold Rdiv; rewrite <- Rmult_assoc, <- Rsum_mult.
    destruct (N.eq_dec n 0) as [->|Hn]; [cbn; lra|].
    apply Rmult_le_compat_r; [left; apply Rinv_0_lt_compat, lt_0_INR; lia|].
    apply Rsum_le; intros i Hi; apply IH; intros x Hx; apply Ha; exists (N.of_nat i); split; auto; lia.
  - apply fold_min_ge.
    + pose proof (fold_min_le_one (map (fun i => prob (k (N.of_nat i)) Q) (seq 0 (N.to_nat n)))) as H.
      apply Rle_trans with (a * 1)%R; [apply Rmult_le_compat_l; lra|lra].
    + apply Forall_forall; intros y Hy; apply in_map_iff in Hy as (i & <- & Hi).
      assert (Hi' : (N.of_nat i < n)%N) by (apply in_seq in Hi; lia).
      eapply Rle_trans; [|apply IH; intros x Hx; apply Ha; exists (N.of_nat i); auto].
      apply Rmult_le_compat_l; [lra|]; apply fold_Rmin_le, in_map_iff; eauto.
Qed.

Lemma prob_assoc {A B C} (m : M A) (f : A -> M B) (g : B -> M C) P :
  prob (bind (bind m f) g) P = prob (bind m (fun a => bind (f a) g)) P.
Proof.
  induction m as [a|e|n k IH|n k IH]; cbn [bind prob]; auto.
  - f_equal; apply Rsum_ext; intros i _; apply IH.
  - f_equal; apply map_ext; intros i; apply IH.
Qed.

Lemma repeat_some {A} (m : M A) (Q : A -> bool) n : must m (fun _ => True) -> 1 <= n ->
  (prob m Q <= prob (repeatM n m) (existsb Q))%R.
Proof.
  intros Hm Hn; destruct n as [|n]; [lia|]; cbn [repeatM].
  rewrite <- (Rmult_1_l (prob m Q)); apply prob_bind_low; [lra|]; intros x _ Hx.
  rewrite prob_one; [lra|]; eapply must_bind_intro; [apply (must_repeatM n m (fun _ => True)); exact Hm|].
  intros l _; cbn; rewrite Hx; reflexivity.
Qed.

Lemma repeat_some_pow {A} (m : M A) (Q : A -> bool) n : must m (fun _ => True) ->
  (1 - (1 - prob m Q) ^ n <= prob (repeatM n m) (existsb Q))%R.
Proof.
  intros Hm; pose proof (prob_nonneg m Q) as H0; pose proof (prob_le_one m Q) as H1.
  induction n as [|n IH]; cbn [repeatM pow]; [pose proof (prob_nonneg (Ret (@nil A)) (existsb Q)); lra|].
  set (c := ((1 - prob m Q) ^ n)%R) in *.
  assert (Hc : (0 <= c <= 1)%R).
  { unfold c; split; [apply pow_le; lra|]; apply Rle_trans with (1 ^ n)%R; [apply pow_incr; lra|rewrite pow1; lra]. }
  replace (1 - (1 - prob m Q) * c)%R with ((1 - c) + (1 - (1 - c)) * prob m Q)%R by ring.
  apply (prob_bind_gain m _ (fun _ => True)); [lra|auto| |].
  - intros x _; eapply Rle_trans; [exact IH|].
    rewrite <- (Rmult_1_l (prob (repeatM n m) (existsb Q))); apply prob_bind_low; [lra|].
    intros l _ Hl; cbn [prob existsb]; rewrite Hl, orb_true_r; lra.
  - intros x _ Hx; rewrite prob_one; [lra|]; eapply must_bind_intro; [apply (must_repeatM n m (fun _ => True)); exact Hm|].
    intros l _; cbn; rewrite Hx; reflexivity.
Qed.

(** ** The fittest individual is selected often enough *)
Section Last.
Context {I : Type} (io : individual_ops I) (fexp : f64 -> f64).
Implicit Types (p : population I).

Definition is_last p (r : nat * I) : bool := fst r =? length (individuals p) - 1.

Lemma inv_half n N : 1 <= n <= N -> (/ (2 * INR N) <= 1 / INR n)%R.
Proof.
  intros H; assert (1 <= INR n)%R by (apply (le_INR 1); lia); assert (INR n <= INR N)%R by (apply le_INR; lia).
  unfold Rdiv; rewrite Rmult_1_l; apply Rinv_le; lra.
Qed.

Lemma tournament_often size p : size <> 0 -> individuals p <> [] ->
  (1 / INR (length (individuals p)) <= prob (select io fexp (Tournament size) p) (is_last p))%R.
Proof.
  intros Hs Hp; cbn [select]; unfold tournament_select.
  set (n := length (individuals p)).
  assert (Hn : 1 <= n) by (unfold n; destruct (individuals p); [congruence|cbn; lia]).
  rewrite (proj2 (Nat.eqb_neq n 0)) by lia; cbn [negb massert bind].
  destruct size as [|size]; [congruence|].
  assert (Hd : (1 / INR n <= prob (repeatM (S size) (gen_range 0 n)) (existsb (Nat.eqb (n - 1))))%R).
  { eapply Rle_trans; [|apply repeat_some; [|lia]].
    - apply Req_le; rewrite prob_expect, expect_gen_range by lia; rewrite Nat.sub_0_r; f_equal.
      symmetry; rewrite (Rsum_single n (n - 1)); [cbn; rewrite Nat.eqb_refl; auto|lia|].
      intros i Hi Hne; cbn [Nat.add]; rewrite (proj2 (Nat.eqb_neq _ _)); auto.
    - apply must_gen_range; split; [lia|auto]. }
  eapply Rle_trans; [exact Hd|]; rewrite <- (Rmult_1_l (prob _ _)); apply prob_bind_low; [lra|].
  intros ds Hds He.
  assert (Hall : Forall (fun d => d < n) ds).
  { assert (Hm : must (gen_range 0 n) (fun d => d < n)) by (apply must_gen_range; split; lia).
    exact (proj2 (must_may _ _ _ (must_repeatM (S size) _ _ Hm) Hds)). }
  apply existsb_exists in He as (d & Hd1 & E); apply Nat.eqb_eq in E; subst d.
  destruct ds as [|d ds]; [destruct Hd1|]; cbn [unwrap bind].
  assert (E : fold_left Nat.max ds d = n - 1).
  { assert (G : forall l d0, d0 < n -> Forall (fun d => d < n) l -> (d0 = n - 1 \/ In (n - 1) l) -> fold_left Nat.max l d0 = n - 1).
    { induction l as [|h t IH]; intros d0 H1 H2 H3; cbn [fold_left]; [destruct H3 as [H3|[]]; auto|].
      inversion H2; subst; apply IH; auto; [lia|]; destruct H3 as [H3|[H3|H3]]; [left|left|right]; auto; lia. }
    inversion Hall; subst; apply G; auto; destruct Hd1; auto. }
  rewrite E; destruct (nth_error (individuals p) (n - 1)) as [x|] eqn:Ex; [|apply nth_error_None in Ex; fold n in Ex; lia].
  rewrite (idx_some _ _ _ Ex); cbn [bind prob]; unfold is_last; cbn [fst]; fold n; rewrite Nat.eqb_refl; lra.
Qed.

Lemma rank_often p : individuals p <> [] ->
  (1 / INR (length (individuals p)) <= prob (select io fexp Rank p) (is_last p))%R.
Proof.
  intros Hp; cbn [select]; assert (Hn : 1 <= length (individuals p)) by (destruct (individuals p); [congruence|cbn; lia]).
  unfold is_last; rewrite rank_law by lia; set (n := length (individuals p)) in *.
  replace (n - 1 + 1) with n by lia; assert (1 <= INR n)%R by (apply (le_INR 1); lia).
  apply Rmult_le_reg_r with (INR n * (INR n + 1) / 2)%R; [nra|].
  replace (1 / INR n * (INR n * (INR n + 1) / 2))%R with ((INR n + 1) / 2)%R by (field; lra).
  unfold Rdiv at 2; rewrite Rmult_assoc, Rinv_l by nra; lra.
Qed.

Lemma elitist_often ratio p : proper_ratio ratio -> individuals p <> [] -> fits_usize (length (individuals p)) ->
  (1 / INR (length (individuals p)) <= prob (select io fexp (Elitist ratio) p) (is_last p))%R.
Proof.
  intros [F H] Hp Hf; assert (Hn : 1 <= length (individuals p)) by (destruct (individuals p); [congruence|cbn; lia]).
  destruct (elitist_bound_spec (length (individuals p)) ratio Hn Hf F H) as [Hb _].
  unfold is_last; rewrite elitist_uniform by (auto; lia); set (b := elitist_bound _ _) in *.
  unfold Rdiv; rewrite !Rmult_1_l; apply Rinv_le; [apply lt_0_INR; lia|apply le_INR; lia].
Qed.

Lemma linear_often b p : is_finite b = true -> (1 + bpow radix2 (-10) <= B2R b <= 2)%R -> individuals p <> [] ->
  (Z.of_nat (length (individuals p)) <= 2 ^ 20)%Z ->
  (/ (2 * INR (length (individuals p))) <= prob (select io fexp (Linear b) p) (is_last p))%R.
Proof.
  intros Fb Hb Hp Hn20; pose proof (bpow_gt_0 radix2 (-10)) as H10.
  assert (Hn : 1 <= length (individuals p)) by (destruct (individuals p); [congruence|cbn; lia]).
  pose proof (linear_share io fexp b p (length (individuals p) - 1) Fb ltac:(lra) ltac:(lia) ltac:(lia)) as H; cbv zeta in H.
  unfold is_last; set (n := length (individuals p)) in *; replace (n - 1 - (n - 1)) with 0 in H by lia; cbn [INR] in H.
  assert (H1 : (1 <= INR n <= 1048576)%R).
  { split; [apply (le_INR 1); auto|]; rewrite INR_IZR_INZ; apply (IZR_le _ (2 ^ 20)); auto. }
  assert (Hs : (/ INR n <= (B2R b * INR n - (B2R b - 1) * (2 * 0 + 1)) / (INR n * INR n))%R).
  { apply Rmult_le_reg_r with (INR n * INR n)%R; [nra|]; unfold Rdiv; rewrite (Rmult_assoc _ (/ _)), Rinv_l, Rmult_1_r by nra.
    rewrite <- Rmult_assoc, Rinv_l, Rmult_1_l by lra; nra. }
  assert (He : (bpow radix2 (-47) / (B2R b - 1) <= bpow radix2 (-37))%R).
  { apply Rmult_le_reg_r with (B2R b - 1)%R; [lra|]; unfold Rdiv; rewrite Rmult_assoc, Rinv_l, Rmult_1_r by lra.
    replace (bpow radix2 (-47)) with (bpow radix2 (-37) * bpow radix2 (-10))%R by (rewrite <- bpow_plus; reflexivity).
    apply Rmult_le_compat_l; [apply bpow_ge_0|lra]. }
  assert (Hb37 : (bpow radix2 (-37) <= / (2 * INR n))%R).
  { apply Rle_trans with (/ (2 * 1048576))%R; [|apply Rinv_le; lra].
    replace (/ (2 * 1048576))%R with (bpow radix2 (-21)) by (cbn; f_equal; ring); apply bpow_le; lia. }
  assert (Hh : (/ (2 * INR n) + / (2 * INR n) = / INR n)%R) by (field; lra).
  apply Rabs_le_inv in H; lra.
Qed.

Lemma roulette_often t0 p x : last_of p x ->
  (forall y, In y (individuals p) -> is_finite (fitness io y) = true /\ (0 <= B2R (fitness io y) <= B2R (fitness io x))%R) ->
  (bpow radix2 (-899) <= B2R (fitness io x) <= bpow radix2 1000)%R -> (Z.of_nat (length (individuals p)) <= 2 ^ 20)%Z ->
  must (prepare io fexp (RouletteWheel t0) p) (fun s => (exists t, s = RouletteWheel t) /\
    (/ (2 * INR (length (individuals p))) <= prob (select io fexp s p) (is_last p))%R).
Proof.
  intros Hl Hw Hx1 Hn20; destruct (last_nth p x Hl) as [Hx Hn]; pose proof (bpow_gt_0 radix2 (-899)) as H899.
  assert (Hne : individuals p <> []) by (intros E; rewrite E in Hn; cbn in Hn; lia).
  set (total := sumR (map (fun y => B2R (fitness io y)) (individuals p))).
  set (n := length (individuals p)) in *.
  assert (H1 : (1 <= INR n <= 1048576)%R).
  { split; [apply (le_INR 1); auto|]; rewrite INR_IZR_INZ; apply (IZR_le _ (2 ^ 20)); auto. }
  assert (Htot : forall l, (forall y, In y l -> (0 <= B2R (fitness io y) <= B2R (fitness io x))%R) ->
     (0 <= sumR (map (fun y => B2R (fitness io y)) l) <= INR (length l) * B2R (fitness io x))%R).
  { induction l as [|h t IH]; intros H; cbn [map sumR length]; [cbn [INR]; lra|].
    rewrite S_INR; pose proof (H h (or_introl eq_refl)); specialize (IH (fun y Hy => H y (or_intror Hy))); lra. }
  assert (Hlow : (B2R (fitness io x) <= total)%R).
  { destruct Hl as [l El]; unfold total; rewrite El, map_app, sumR_app; cbn [map sumR].
    assert (0 <= sumR (map (fun y => B2R (fitness io y)) l))%R; [|lra].
    apply Htot; intros y Hy; apply Hw; rewrite El; apply in_or_app; auto. }
  assert (Hup : (total <= INR n * B2R (fitness io x))%R) by (apply Htot; intros y Hy; apply Hw; auto).
  pose proof (roulette_shares io fexp t0 p (n - 1) x Hx (fun y Hy => conj (proj1 (Hw y Hy)) (proj1 (proj2 (Hw y Hy)))) ltac:(fold n; lia)) as HS.
  cbv zeta in HS; fold total n in HS.
  assert (Hb : (bpow radix2 (-899) <= total <= bpow radix2 1022)%R).
  { split; [lra|]. apply Rle_trans with (bpow radix2 20 * bpow radix2 1000)%R; [|rewrite <- bpow_plus; apply bpow_le; lia].
    eapply Rle_trans; [exact Hup|]; change (bpow radix2 20) with 1048576%R; apply Rmult_le_compat; lra. }
  specialize (HS Hb).
  eapply must_mono; [|exact (must_and _ _ _ (prepare_roulette io fexp t0 p) HS)].
  intros s [(t & -> & _) HP]; split; [eauto|].
  unfold is_last; fold n.
  assert (Hsh : (/ INR n <= B2R (fitness io x) / total)%R).
  { apply Rmult_le_reg_r with total; [lra|]; unfold Rdiv; rewrite Rmult_assoc, Rinv_l, Rmult_1_r by lra.
    apply Rmult_le_reg_l with (INR n); [lra|]; rewrite <- Rmult_assoc, Rinv_r by lra; lra. }
  assert (He : (INR n * bpow radix2 (-49) <= bpow radix2 (-29))%R).
  { replace (bpow radix2 (-29)) with (bpow radix2 20 * bpow radix2 (-49))%R by (rewrite <- bpow_plus; reflexivity).
    apply Rmult_le_compat_r; [apply bpow_ge_0|]; change (bpow radix2 20) with 1048576%R; lra. }
  assert (Hb29 : (bpow radix2 (-29) <= / (2 * INR n))%R).
  { apply Rle_trans with (/ (2 * 1048576))%R; [|apply Rinv_le; lra].
    replace (/ (2 * 1048576))%R with (bpow radix2 (-21)) by (cbn; f_equal; ring); apply bpow_le; lia. }
  assert (Hh : (/ (2 * INR n) + / (2 * INR n) = / INR n)%R) by (field; lra).
  apply Rabs_le_inv in HP; lra.
Qed.

Lemma rank_often_all s p : rank_sel s -> individuals p <> [] -> (Z.of_nat (length (individuals p)) <= 2 ^ 20)%Z ->
  must (prepare io fexp s p) (fun s1 => s1 = s /\ (/ (2 * INR (length (individuals p))) <= prob (select io fexp s1 p) (is_last p))%R).
Proof.
  intros Hs Hp Hn20; assert (Hn : 1 <= length (individuals p)) by (destruct (individuals p); [congruence|cbn; lia]).
  pose proof (inv_half _ _ (conj Hn (le_n _))) as Hh.
  destruct s as [size| |t c g| |ratio|b|]; cbn [rank_sel] in Hs; try tauto; cbn [prepare must]; (split; [reflexivity|]).
  - eapply Rle_trans; [exact Hh|apply tournament_often; auto].
  - eapply Rle_trans; [exact Hh|apply rank_often; auto].
  - eapply Rle_trans; [exact Hh|apply elitist_often; auto; unfold fits_usize, usize_max; lia].
  - destruct Hs; apply linear_often; auto.
Qed.

Lemma safe_entry s p r : known s -> individuals p <> [] -> fits_usize (length (individuals p)) ->
  may (select io fexp s p) r -> nth_error (individuals p) (fst r) = Some (snd r).
Proof.
  intros [H|[b ->]] Hp Hf Hr; [exact (must_may _ _ _ (select_must io fexp s p H Hp Hf) Hr)|].
  cbn [select] in Hr; unfold linear_select in Hr; apply may_bind in Hr as (u & _ & Hr); cbv zeta in Hr.
  apply may_bind in Hr as ([] & _ & Hr); apply may_bind in Hr as (y & Hy & Hr); cbn in Hr; subst r; cbn [fst snd].
  set (j := _ - _ - 1) in *; clearbody j; unfold idx in Hy; destruct (nth_error (individuals p) j) as [a|] eqn:E.
  + cbn in Hy; subst a; reflexivity.
  + contradiction Hy.
Qed.
End Last.
