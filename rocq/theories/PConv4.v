(** * PConv4: OneMax runs find the optimum (C92). *)
From Coq Require Import List Bool Arith NArith ZArith Reals Lia Lra Permutation.
From Flocq Require Import Core BinarySingleNaN.
From Verif Require Import Rnd LRnd Prob LProb F64 LF64 MStats MOperators MCrossover MMutation MPopulation MSelection MModel MAlgorithms MOneMax
  Spec SpecF SpecA SpecK SpecR SpecL POperatorsRandom PMutationProb PSelection PSelection2 PLinear PPopulation PModel PAlgorithms PRun PRun3 PRun4 PRun5 PKeep POneMax POneMax2
  PReach PReach2 PReach3 PConv PConv2 PConv3.
Import ListNotations.
Local Open Scope nat_scope.

Definition ind (b : bool) : R := if b then 1%R else 0%R.

Lemma skip_sum n i (f : nat -> R) : i <= n -> (Rsum n (fun j => f (if i <=? j then j + 1 else j)%nat) = Rsum (S n) f - f i)%R.
Proof.
  revert i; induction n as [|n IH]; intros i Hi.
  - assert (i = 0) by lia; subst; rewrite Rsum_S, !Rsum_0; lra.
  - destruct (Nat.eq_dec i (S n)) as [->|Hne].
    + rewrite (Rsum_S (S n)); rewrite (Rsum_ext (S n) _ f); [lra|].
      intros j Hj; rewrite (proj2 (Nat.leb_gt _ _)) by lia; reflexivity.
    + rewrite Rsum_S, IH by lia; rewrite (proj2 (Nat.leb_le i n)) by lia; replace (n + 1) with (S n) by lia.
      rewrite (Rsum_S (S n)); lra.
Qed.

Lemma pair_law n (h z : nat -> bool) : 2 <= n -> (forall i, h i && z i = false) ->
  prob (random_pair n) (fun r => h (fst r) && z (snd r)) =
  (Rsum n (fun i => ind (h i)) * Rsum n (fun i => ind (z i)) / (INR n * (INR n - 1)))%R.
Proof.
  intros Hn Hhz; rewrite prob_expect; unfold random_pair, massert.
  rewrite (proj2 (Nat.leb_le 2 n)) by lia; cbn [bind].
  rewrite expect_bind, expect_gen_range by lia; rewrite Nat.sub_0_r.
  assert (Hn2 : (2 <= INR n)%R) by (replace 2%R with (INR 2) by reflexivity; apply le_INR; lia).
  rewrite (Rsum_ext n _ (fun i => ind (h i) * (Rsum n (fun j => ind (z j)) / (INR n - 1)))%R).
  { rewrite Rsum_mult_r; field; lra. }
  intros i Hi; rewrite expect_bind, expect_gen_range by lia; rewrite Nat.sub_0_r; cbn [expect fst snd Nat.add].
  assert (E1 : INR (n - 1) = (INR n - 1)%R) by (rewrite minus_INR by lia; reflexivity).
  rewrite E1; destruct (h i) eqn:Ehi; cbn [andb ind].
  - rewrite (skip_sum (n - 1) i (fun j => if z j then 1%R else 0%R)) by lia; replace (S (n - 1)) with n by lia.
    specialize (Hhz i); rewrite Ehi in Hhz; cbn [andb] in Hhz; rewrite Hhz; unfold ind; lra.
  - rewrite Rsum_const; unfold Rdiv; lra.
Qed.

Lemma count_sum (g : list bool) : Rsum (length g) (fun i => ind (nth i g false)) = INR (ones g).
Proof.
  induction g as [|b g IH] using rev_ind; [reflexivity|].
  rewrite app_length, Nat.add_1_r, Rsum_S, app_nth2, Nat.sub_diag by lia; cbn [nth].
  rewrite (Rsum_ext _ _ (fun i => ind (nth i g false))), IH by (intros i Hi; rewrite app_nth1 by auto; reflexivity).
  rewrite count_occ_app, plus_INR; destruct b; cbn; lra.
Qed.

Lemma count_zeros (g : list bool) : Rsum (length g) (fun i => ind (negb (nth i g true))) = (INR (length g) - INR (ones g))%R.
Proof.
  rewrite <- count_sum, <- (Rmult_1_r (INR (length g))), <- Rsum_const.
  replace (Rsum (length g) (fun _ => 1%R)) with (Rsum (length g) (fun i => ind (negb (nth i g true)) + ind (nth i g false)))%R.
  { rewrite Rsum_plus; lra. }
  apply Rsum_ext; intros i Hi; rewrite (nth_indep g true false Hi); destruct (nth i g false); cbn; lra.
Qed.

(** ** The duplicating mutation climbs *)
Lemma duplicate_rises (g : list bool) : 1 <= ones g < length g ->
  (/ INR (length g) <= prob (duplicate_mutation g) (fun g' => ones g <? ones g'))%R.
Proof.
  intros Hg; set (n := length g) in *; assert (Hn : 2 <= n) by lia.
  unfold duplicate_mutation; fold n; rewrite (proj2 (Nat.ltb_ge n 2)) by lia.
  set (h := fun i => nth i g false); set (z := fun i => negb (nth i g true)).
  assert (Hhz : forall i, h i && z i = false).
  { intros i; unfold h, z; destruct (Nat.lt_ge_cases i n) as [H|H]; [rewrite (nth_indep g true false H); destruct (nth i g false); reflexivity|].
    rewrite (nth_overflow g false) by auto; reflexivity. }
  apply Rle_trans with (1 * prob (random_pair n) (fun r => h (fst r) && z (snd r)))%R.
  - rewrite Rmult_1_l, (pair_law n h z Hn Hhz); unfold h, z, n; rewrite count_sum, count_zeros; fold n.
    assert (H1 : (1 <= INR (ones g))%R) by (apply (le_INR 1); lia).
    assert (H2 : (INR (ones g) + 1 <= INR n)%R) by (rewrite <- S_INR; apply le_INR; lia).
    apply Rmult_le_reg_r with (INR n * (INR n - 1))%R; [nra|].
    unfold Rdiv; rewrite (Rmult_assoc (_ * _)%R), Rinv_l by nra; rewrite <- Rmult_assoc, Rinv_l by lra; nra.
  - apply prob_bind_low; [lra|]; intros [i j] _ H; cbn [fst snd] in H; apply andb_true_iff in H as [Hi Hj]; unfold h, z in *.
    assert (Li : i < n) by (destruct (Nat.lt_ge_cases i n) as [|L]; auto; rewrite nth_overflow in Hi by auto; discriminate).
    assert (Lj : j < n) by (destruct (Nat.lt_ge_cases j n) as [|L]; auto; rewrite nth_overflow in Hj by auto; discriminate).
    assert (Ei : nth_error g i = Some true) by (rewrite (nth_error_nth' g false) by auto; congruence).
    assert (Ej : nth_error g j = Some false) by (rewrite (nth_error_nth' g true) by auto; destruct (nth j g true); [discriminate|reflexivity]).
    rewrite (idx_some _ _ _ Ei); cbn [bind]; rewrite set_ok by auto; cbn [prob]; rewrite ones_upd by auto.
    rewrite (proj2 (Nat.ltb_lt _ _)) by lia; lra.
Qed.

Section OneMax.
Variable n : nat.
Hypothesis Hn : 1 <= n.
Hypothesis H53 : (Z.of_nat n <= 2 ^ 53)%Z.
Definition om_level (x : onemax) : nat := ones (genome x).

Lemma om_ladder : ladder onemax_ops onemax_model (scored n) all_ones om_level 1 n (/ INR n).
Proof.
  split; [|split].
  - intros x y Hx Hy Hle; destruct (Nat.le_gt_cases (om_level x) (om_level y)) as [|H]; auto; exfalso.
    pose proof (scored_lt n Hn H53 y x Hy Hx H) as L; apply flt_spec in L as (_ & _ & L); apply fle_spec in Hle as (_ & _ & K); cbn in K; lra.
  - intros x [Hl _]; unfold om_level; rewrite all_ones_spec, <- ones_all; pose proof (ones_le (genome x)); lia.
  - intros [] x Hx Vx Hlv; pose proof Hx as [Hl _]; unfold om_level in *.
    eapply Rle_trans; [rewrite <- Hl; apply duplicate_rises; lia|].
    unfold variant; cbn [onemax_model m_mutate m_improve m_evaluate]; unfold onemax_mutate; cbn [mutate]; rewrite prob_assoc.
    rewrite <- (Rmult_1_l (prob (duplicate_mutation (genome x)) _)); apply prob_bind_low; [lra|].
    intros g Hg Hr; cbn [bind default_improve prob genome].
    assert (Lg : length g = n).
    { assert (Hm : may (onemax_mutate tt x) (mkOneMax g (om_fitness x))) by (apply may_bind; exists g; split; auto; reflexivity).
      destruct (must_may _ _ _ (om_mutate_must tt x) Hm) as [E _]; cbn in E; congruence. }
    change (1 <= if is_valid onemax_ops (score g) && (ones (genome x) <? ones g) then 1 else 0)%R.
    rewrite (scored_valid n Hn H53 (score g)) by (apply score_scored; auto); rewrite Hr; cbn [andb]; lra.
Qed.
End OneMax.

(** ** Runs *)
Section OneMaxRuns.
Variable n : nat.
Hypothesis Hn : 1 <= n.
Hypothesis H53 : (Z.of_nat n <= 2 ^ 53)%Z.
Context {PS : Type} (fexp : f64 -> f64) (q : ga_params).
Notation GA := (ga_algorithm onemax_ops fexp onemax_model).
Hypothesis Hacc : ga_accepted q.
Hypothesis Hexp : explores q.
Hypothesis Hone : (1 <= INR (ga_population_size q) * B2R (ga_elitism_rate q))%R.
Hypothesis Hst : (rank_based (ga_selection_strategy q) /\ robust_strategy (ga_selection_strategy q)) \/ ga_selection_strategy q = StRouletteWheel.

Definition conv_sel (s : selector onemax) : Prop := (rank_sel s /\ safe_selector s) \/ exists t, s = RouletteWheel t.

Lemma om_often s0 (p : population onemax) x : conv_sel s0 -> well_formed onemax_ops p ->
  (forall y, In y (individuals p) -> is_valid onemax_ops y = true /\ scored n y) ->
  (Z.of_nat (length (individuals p)) <= 2 ^ 20)%Z -> last_of p x -> 1 <= om_level x ->
  must (prepare onemax_ops fexp s0 p) (fun s1 => conv_sel s1 /\
    (/ (2 * INR (length (individuals p))) <= prob (select onemax_ops fexp s1 p) (is_last p))%R).
Proof.
  intros [[Hr Hs]|[t ->]] Hwf Hg Hl20 Hl Hlv.
  - eapply must_mono; [|apply rank_often_all; eauto; apply Hwf]; intros s1 [-> H]; split; auto; left; auto.
  - assert (Hin : In x (individuals p)) by (destruct Hl as [l ->]; apply in_or_app; right; left; reflexivity).
    destruct (scored_val n Hn H53 x (proj2 (Hg x Hin))) as (Fx & _ & Bx).
    eapply must_mono; [|apply (roulette_often onemax_ops fexp t p x Hl); auto].
    + intros s1 [H1 H2]; split; auto; right; auto.
    + intros y Hy; destruct (scored_val n Hn H53 y (proj2 (Hg y Hy))) as (Fy & _ & By); split; auto; split; [apply By|].
      destruct Hwf as (_ & Hnn & Hso & _); pose proof (last_best onemax_ops p x y Hso Hnn Hl Hy) as K.
      rewrite !key_finite in K by auto; exact K.
    + split.
      * apply Rle_trans with (bpow radix2 (-53)); [apply bpow_le; lia|apply (scored_pos n); auto; [apply Hg; auto|]].
        apply (count_occ_In Bool.bool_dec); exact Hlv.
      * apply Rle_trans with 1%R; [apply Bx|change 1%R with (bpow radix2 0); apply bpow_le; lia].
Qed.

Lemma om_conv N g (s : ga_state onemax unit) init (ps : PS) :
  ga_population_size q <= N -> length init <= N -> (Z.of_nat N <= 2 ^ 20)%Z ->
  (forall x, In x init -> length (genome x) = n) -> (exists x, In x init /\ In true (genome x)) ->
  (1 - generations N q (n - 1) (/ INR n) / INR (S g) <=
   prob (evolve_population onemax_ops fexp onemax_model GA (quiet (until all_ones)) (S g) s init q ps) (fun r => existsb all_ones (individuals (r_population r))))%R.
Proof.
  intros H1 H2 H20 Hlen (x & Hx & Ix).
  apply (ga_conv onemax_ops fexp onemax_model (has_length n) (scored n) all_ones om_level 1 n (/ INR n) q N conv_sel); auto.
  - exact om_number.
  - exact om_equal.
  - apply om_total; auto.
  - apply om_keeps.
  - intros ms p b ms' b' [= <- <-]; auto.
  - intros ms y z p; reflexivity.
  - apply om_ladder; auto.
  - apply Rinv_0_lt_compat, lt_0_INR; lia.
  - intros sel Hs; destruct Hst as [[A B]|E]; [left; split; [eapply rank_created; eauto|eapply created_safe; eauto]|].
    right; rewrite E in Hs; injection Hs as <-; eexists; reflexivity.
  - intros sel [[_ H]|[t ->]]; auto; left; exact Logic.I.
  - apply om_often.
  - split; [apply Forall_forall; auto|]; exists x; split; auto; cbn [onemax_model m_evaluate onemax_evaluate must].
    change (is_valid onemax_ops (score (genome x)) = true /\ 1 <= om_level (score (genome x))).
    split; [apply (scored_valid n); auto; apply score_scored; auto|].
    apply (count_occ_In Bool.bool_dec) in Ix; exact Ix.
Qed.

(** The individual returned *)
Lemma om_returned g (s : ga_state onemax unit) init (ps : PS) :
  length init = ga_population_size q ->
  (forall x, In x init -> length (genome x) = n) -> (exists x, In x init /\ In true (genome x)) ->
  (1 - generations (ga_population_size q) q (n - 1) (/ INR n) / INR (S g) <=
   prob (r <- evolve_population onemax_ops fexp onemax_model GA (quiet (until all_ones)) (S g) s init q ps ;;
         x <- take_fittest (r_population r) ;; Ret (x, r)) (fun o => all_ones (fst o)))%R.
Proof.
  intros Hl Hlen Hx; pose proof Hexp as (_ & _ & _ & H20).
  eapply Rle_trans; [apply (om_conv (ga_population_size q) g s init ps); auto; lia|].
  match goal with |- (?u <= _)%R => rewrite <- (Rmult_1_l u) end; apply prob_bind_low; [lra|].
  intros r Hr Hg.
  assert (Hk : forall y, In y (individuals (r_population r)) -> scored n y).
  { destruct (c63_generations _ _ _ _ _ _ _ _ _ _ _ _ _ _ _ _ Hr) as (_ & _ & Hin'); apply nth_error_In in Hin'.
    intros y Hy.
    refine (ga_keeps onemax_ops fexp onemax_model (has_length n) (scored n) _ (S g) s init q ps r (om_keeps n) om_left_alone _ _ _ Hr _ y Hin' Hy);
      try (unfold fits_usize, usize_max; lia).
    apply Forall_forall; auto. }
  assert (Hwf : well_formed onemax_ops (r_population r)).
  { destruct (c63_generations _ _ _ _ _ _ _ _ _ _ _ _ _ _ _ _ Hr) as (_ & _ & Hin').
    refine (proj1 (proj2 (ga_good onemax_ops fexp onemax_model _ (S g) s init q ps r om_left_alone om_number _ _ Hr _ _ Hin')));
      unfold fits_usize, usize_max; lia. }
  destruct (fittest_max onemax_ops _ Hwf) as (x & _ & Ht & Hin & _ & Hmax); rewrite Ht; cbn [bind prob fst].
  apply existsb_exists in Hg as (y & Hy & Gy); apply all_ones_spec in Gy.
  assert (Ax : all_ones x = true); [|rewrite Ax; lra].
  apply all_ones_spec, (scored_max n); auto.
  pose proof (scored_top n Hn H53 y (Hk y Hy) Gy) as Ey; destruct (scored_val n Hn H53 x (Hk x Hin)) as (Fx & _ & Bx); destruct (scored_val n Hn H53 y (Hk y Hy)) as (Fy & _ & _).
  specialize (Hmax y Hy); apply fle_spec in Hmax as (_ & _ & K); cbn [onemax_ops fitness] in K; rewrite !key_finite in K by auto; lra.
Qed.

Lemma om_generations : (0 <= generations (ga_population_size q) q (n - 1) (/ INR n))%R.
Proof.
  destruct Hexp as (Hc & Hm & _); unfold generations; apply Rmult_le_pos; [apply pos_INR|].
  assert (0 < / INR n)%R by (apply Rinv_0_lt_compat, lt_0_INR; lia).
  apply Rmult_le_pos; [apply Rmult_le_pos; [lra|apply pos_INR]|].
  left; apply Rinv_0_lt_compat, Rmult_lt_0_compat; [apply Rmult_lt_0_compat; lra|auto].
Qed.

Lemma om_individual_conv g (s : ga_state onemax unit) seed (ps : PS) :
  length (genome seed) = n -> In true (genome seed) ->
  (1 - generations (ga_population_size q) q (n - 1) (/ INR n) / INR (S g) <=
   prob (evolve_individual onemax_ops fexp onemax_model GA (quiet (until all_ones)) (S g) s seed q ps) (fun o => all_ones (fst o)))%R.
Proof.
  intros Hl Hi; set (G := generations _ _ _ _).
  assert (HG : (0 <= G / INR (S g))%R) by (apply Rmult_le_pos; [apply om_generations|left; apply Rinv_0_lt_compat, lt_0_INR; lia]).
  destruct (Rle_or_lt (1 - G / INR (S g)) 0) as [Hneg|Hpos]; [eapply Rle_trans; [exact Hneg|apply prob_nonneg]|].
  unfold evolve_individual; eapply prob_bind_ge; [lra|apply extend_with_spec; apply om_mutate_must|].
  cbn [alg_initial_population_size ga_algorithm app]; intros init [_ H]; destruct (H ltac:(apply Hacc)) as (news & -> & Hln & HF).
  apply om_returned.
  - cbn [length]; destruct Hacc as (H0 & _); lia.
  - intros x [<-|Hx]; auto; rewrite Forall_forall in HF; destruct (HF x Hx) as [E _]; congruence.
  - exists seed; split; auto; left; reflexivity.
Qed.

Lemma gen_bool_half : prob gen_bool (fun b => b) = (1 / 2)%R.
Proof. unfold gen_bool; cbn [prob]; change (N.to_nat 2) with 2; rewrite !Rsum_S, Rsum_0; cbn; lra. Qed.

Lemma random_has_one : (1 - (1 / 2) ^ n <= prob (onemax_new_random n) (fun x => existsb (fun b => b) (genome x)))%R.
Proof.
  unfold onemax_new_random.
  replace (1 / 2)%R with (1 - prob gen_bool (fun b => b))%R by (rewrite gen_bool_half; lra).
  eapply Rle_trans; [apply repeat_some_pow; cbn; auto|].
  - split; [lia|auto].
  - match goal with |- (?u <= _)%R => rewrite <- (Rmult_1_l u) end; apply prob_bind_low; [lra|].
    intros l _ H; cbn [prob onemax_from genome]; rewrite H; lra.
Qed.

Lemma om_run_conv g (s : ga_state onemax unit) (ps : PS) :
  ((1 - (1 / 2) ^ (n * ga_population_size q)) * (1 - generations (ga_population_size q) q (n - 1) (/ INR n) / INR (S g)) <=
   prob (evolution_run onemax_ops fexp onemax_model GA (quiet (until all_ones)) (S g) s (onemax_new_random n) q ps) (fun o => all_ones (fst o)))%R.
Proof.
  set (G := generations _ _ _ _).
  assert (HG : (0 <= G / INR (S g))%R) by (apply Rmult_le_pos; [apply om_generations|left; apply Rinv_0_lt_compat, lt_0_INR; lia]).
  assert (Hh : forall k, (0 <= (1 / 2) ^ k <= 1)%R).
  { intros k; split; [apply pow_le; lra|]; apply Rle_trans with (1 ^ k)%R; [apply pow_incr; lra|rewrite pow1; lra]. }
  pose proof (Hh (n * ga_population_size q)) as Hhn.
  destruct (Rle_or_lt (1 - G / INR (S g)) 0) as [Hneg|Hpos].
  { eapply Rle_trans; [|apply prob_nonneg]; rewrite <- (Rmult_0_r (1 - (1 / 2) ^ (n * ga_population_size q))); apply Rmult_le_compat_l; lra. }
  unfold evolution_run, extend_population; cbn [alg_initial_population_size ga_algorithm app].
  destruct Hacc as (H0 & _); rewrite (proj2 (Nat.eqb_neq _ _) H0).
  set (has := fun x => existsb (fun b => b) (genome x)).
  assert (Hm : must (onemax_new_random n) (fun x => length (genome x) = n)).
  { unfold onemax_new_random; eapply must_bind_intro; [apply (must_repeatM n gen_bool (fun _ => True)); cbn; split; [lia|auto]|].
    intros l [Hl _]; cbn; auto. }
  rewrite Rmult_comm; eapply Rle_trans; [|apply (prob_bind_low _ _ (existsb has) _ (1 - G / INR (S g))%R); [lra|]].
  - apply Rmult_le_compat_l; [lra|].
    apply Rle_trans with (prob (repeatM (ga_population_size q) (onemax_new_random n)) (existsb has)).
    + eapply Rle_trans; [|apply repeat_some_pow; eapply must_mono; [|exact Hm]; auto].
      rewrite pow_mult; apply Rplus_le_compat_l, Ropp_le_contravar, pow_incr.
      pose proof random_has_one as H; fold has in H; pose proof (prob_le_one (onemax_new_random n) has); lra.
    + match goal with |- (?u <= _)%R => rewrite <- (Rmult_1_l u) end; apply prob_bind_low; [lra|]; intros l _ H; cbn [prob]; rewrite H; lra.
  - intros init Hi He; apply may_bind in Hi as (l & Hl & E); cbn in E; subst l.
    destruct (must_may _ _ _ (must_repeatM _ _ _ Hm) Hl) as [Hlen HF]; rewrite Forall_forall in HF.
    apply om_returned; auto.
    apply existsb_exists in He as (x & Hx & He); exists x; split; auto.
    unfold has in He; apply existsb_exists in He as ([|] & Hb & Eb); [auto|discriminate].
Qed.
End OneMaxRuns.

(** ** Examples *)
Lemma one_percent : (1 <= INR 100 * B2R (f_lit 1 100))%R.
Proof.
  rewrite <- SF2R_B2SF.
  assert (E : B2SF (f_lit 1 100) = SpecFloat.S754_finite false 5764607523034235 (-59)) by (vm_compute; reflexivity).
  rewrite E; cbn [SF2R cond_Zopp]; unfold F2R; cbn [Fnum Fexp].
  rewrite INR_IZR_INZ; change (Z.of_nat 100) with 100%Z.
  apply Rmult_le_reg_r with (bpow radix2 59); [apply bpow_gt_0|].
  rewrite !Rmult_assoc, <- bpow_plus; change (bpow radix2 (-59 + 59)) with 1%R; rewrite Rmult_1_r, Rmult_1_l, <- mult_IZR.
  change (bpow radix2 59) with (IZR (2 ^ 59)); apply IZR_le; vm_compute; discriminate.
Qed.

Lemma c92_example :
  ga_accepted ga_params_default /\ explores ga_params_default /\
  (1 <= INR (ga_population_size ga_params_default) * B2R (ga_elitism_rate ga_params_default))%R /\
  ga_selection_strategy ga_params_default = StRouletteWheel /\
  length (genome (onemax_from [true; false; false])) = 3 /\ In true (genome (onemax_from [true; false; false])).
Proof.
  destruct default_explores as (A & B & C); repeat split; auto; try apply A; try apply B; try exact one_percent.
  left; reflexivity.
Qed.

Lemma c92_ladder_example :
  valid_is_number onemax_ops /\ equal_means_equal_fitness onemax_ops /\
  total_model onemax_model (fun x => length (genome x) = 3) /\
  keeps onemax_model (fun x => length (genome x) = 3) (fun x => length (genome x) = 3 /\ onemax_evaluate tt x = Ret x) /\
  rates_left_alone onemax_model /\ default_survival onemax_ops onemax_model /\
  ladder onemax_ops onemax_model (fun x => length (genome x) = 3 /\ onemax_evaluate tt x = Ret x) all_ones
    (fun x => count_occ Bool.bool_dec (genome x) true) 1 3 (/ 3) /\
  startable_at onemax_ops onemax_model (fun x => length (genome x) = 3) (fun x => count_occ Bool.bool_dec (genome x) true) 1 tt
    [onemax_from [false; true; false]] /\
  rank_based (StTournament 3) /\ robust_strategy (StTournament 3).
Proof.
  split; [exact om_number|]; split; [exact om_equal|]; split; [apply (om_total 3); lia|]; split; [apply (om_keeps 3)|].
  split; [intros ms p b ms' b' [= <- <-]; auto|]; split; [intros ms y z p; reflexivity|]; split.
  - replace 3%R with (INR 3) by (cbn; lra); apply (om_ladder 3); lia.
  - split; [|split; [discriminate|exact Logic.I]].
    split; [constructor; [reflexivity|constructor]|].
    exists (onemax_from [false; true; false]); split; [left; reflexivity|].
    cbn [onemax_model m_evaluate onemax_evaluate must].
    split; [apply (scored_valid 3 ltac:(lia) ltac:(lia) (score [false; true; false])); apply score_scored; reflexivity|cbn; lia].
Qed.
