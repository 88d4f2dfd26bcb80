(** * PConv5: runs of the adaptive algorithm find the goal (C96). *)
From Coq Require Import List Bool Arith NArith ZArith Reals Lia Lra Permutation.
From Flocq Require Import Core BinarySingleNaN.
From Verif Require Import Rnd LRnd Prob LProb F64 LF64 MStats MPopulation MSelection MModel MAlgorithms SpecF SpecA SpecK SpecR SpecL
  PMutationProb PStats PSelection PSelection2 PLinear PSelection3 PPopulation PModel PInterp PAlgorithms PAlgorithms2 PRun PRun2 PRun3 PKeep PReach PReach2
  PConv PConv2.
Import ListNotations.
Local Open Scope nat_scope.

Section Runs.
Context {I : Type} (io : individual_ops I) (fexp : f64 -> f64) {MS : Type} (mdl : model I MS) {PS : Type}.
Notation AGA := (aga_algorithm io fexp mdl).
Implicit Types (p : population I).

Lemma aga_elites q e : proper_ratio (aga_elitism_rate q) -> aga_explores q ->
  elite_count (aga_population_size q) (aga_elitism_rate q) e -> e + 2 <= aga_population_size q.
Proof.
  intros Hr (_ & _ & _ & He & Hn) [_ H]; specialize (H ltac:(lia)).
  assert (Hf : (Zfloor (INR (aga_population_size q) * B2R (aga_elitism_rate q)) <= Z.of_nat (aga_population_size q) - 3)%Z); [|lia].
  rewrite <- (Zfloor_IZR (Z.of_nat (aga_population_size q) - 3)); apply Zfloor_le.
  rewrite minus_IZR, <- INR_IZR_INZ; exact He.
Qed.

Lemma deviation_number p : well_formed io p -> fits_usize (length (individuals p)) ->
  (forall x, In x (individuals p) -> is_finite (fitness io x) = true /\ (Rabs (B2R (fitness io x)) <= bpow radix2 1021)%R) ->
  fle f0 (deviation p) = true.
Proof.
  intros (Hne & _ & _ & Hst) Hf Hb.
  destruct (stats_sane (map (fitness io) (individuals p))) as (mn & mx & avg & var & std & _ & _ & _ & _ & Hs & _ & _ & _ & H0).
  - intros E; apply map_eq_nil in E; auto.
  - rewrite map_length; auto.
  - intros x Hx; apply in_map_iff in Hx as (y & <- & Hy); auto.
  - unfold deviation; rewrite Hst; unfold stats_of, ps_std, ps_var; cbn [p_stats].
    unfold st_std, st_var in Hs.
    destruct (s_count (from_iter f64ops (map (fitness io) (individuals p)))) as [|[|c]]; [discriminate| |]; injection Hs as <-; exact H0.
Qed.

Lemma aga_conv (raw good : I -> Prop) (goal : I -> bool) level low top eps q N (sel_ok : selector I -> Prop) g (s : aga_state I MS) init (ps : PS) :
  valid_is_number io -> equal_means_equal_fitness io ->
  total_model mdl raw -> keeps mdl raw good -> rates_left_alone mdl -> default_survival io mdl ->
  ladder io mdl good goal level low top eps -> (0 < eps)%R -> low <= top ->
  aga_accepted q -> aga_explores q -> (1 <= INR (aga_population_size q) * B2R (aga_elitism_rate q))%R ->
  aga_population_size q <= N -> length init <= N -> (Z.of_nat N <= 2 ^ 20)%Z ->
  (forall sel, create_selector (aga_selection_strategy q) = Ret sel -> sel_ok sel) ->
  (forall sel, sel_ok sel -> safe_selector sel) ->
  (forall s0 p x, sel_ok s0 -> well_formed io p -> (forall y, In y (individuals p) -> is_valid io y = true /\ good y) ->
    (Z.of_nat (length (individuals p)) <= 2 ^ 20)%Z -> last_of p x -> low <= level x ->
    must (prepare io fexp s0 p) (fun s1 => sel_ok s1 /\
      (/ (2 * INR (length (individuals p))) <= prob (select io fexp s1 p) (is_last p))%R)) ->
  startable_at io mdl raw level low (aga_model s) init ->
  diverse_start io mdl good q (aga_model s) init ->
  (1 - aga_generations N q (top - low) eps / INR (S g) <=
   prob (evolve_population io fexp mdl AGA (quiet (until goal)) (S g) s init q ps) (fun r => existsb goal (individuals (r_population r))))%R.
Proof.
  intros Hnum Heq Htot Hk Hrates Hsurv Hlad Heps Hlt Hacc Hexp Hone HN HI HN20 Hcreate Hsafe Hsel (Hraw & x0 & Hx0 & Hv0) Hdiv.
  destruct (aga_configure_ok s q) as (e & sel & He & Hs & Ecfg); auto; [unfold fits_usize, usize_max; lia|].
  set (s1 := mkAga _ _ _ _ _ _ _ _) in Ecfg.
  assert (He1 : 1 <= e) by (eapply one_elite; eauto; lia).
  pose proof (Hcreate _ Hs) as Hok; pose proof (Hsafe _ Hok) as Hsf.
  assert (Hfi : fits_usize (length init)) by (unfold fits_usize, usize_max; lia).
  assert (Hfn : fits_usize (aga_population_size q)) by (unfold fits_usize, usize_max; lia).
  pose proof (aga_elites q e ltac:(apply Hacc) Hexp He) as Hse.
  destruct Hacc as (_ & _ & Rc1 & Rc2 & Rm1 & Rm2 & _); pose proof Hexp as (Hc & Hc1 & Hm & _).
  set (cr := (B2R (snd (aga_crossover_rate_range q)) + bpow radix2 (-53))%R) in *.
  set (mr := B2R (fst (aga_mutation_rate_range q))) in *.
  assert (Hgen : (aga_generations N q (top - low) eps / INR (S g) = INR (top - low) / delta eps cr mr N / INR (S g))%R).
  { f_equal; unfold aga_generations, delta; fold cr mr; field.
    assert (0 < INR N)%R by (apply lt_0_INR; lia); lra. }
  rewrite Hgen.
  pose proof (bpow_gt_0 radix2 (-53)) as B53.
  set (iv := aga_parameter_adjustment_interval q) in *.
  set (usable := fun d : f64 => is_finite d = true /\ flt f0 d = true).
  set (tame := forall x, good x -> is_valid io x = true -> is_finite (fitness io x) = true /\ (Rabs (B2R (fitness io x)) <= bpow radix2 1021)%R).
  apply (climb_run io fexp mdl AGA raw good goal level low top eps cr mr (aga_population_size q) N e
           (aga_inv (aga_population_size q) e safe_selector)
           (fun s' p => aga_interval s' = iv /\ aga_crossover_range s' = aga_crossover_rate_range q /\ aga_mutation_range s' = aga_mutation_rate_range q /\
              sel_ok (parent_selector (aga_breeding s')) /\
              (generation p = 0 -> iv = 0 \/ tame /\ usable (deviation p)) /\
              (generation p <> 0 -> busy cr mr (aga_breeding s') /\ (iv = 0 \/ tame /\ usable (aga_reference_std s'))))) with (s1 := s1);
    auto; try lia; try (split; [lra|apply Rm1 || lra]).
  - destruct Rc2 as (_ & H & _); split; [unfold cr; lra|exact Hc1].
  - intros s0 p H; apply (aga_prep_must io fexp mdl _ _ _ _ raw); auto.
  - intros s0 (_ & E & _); cbn; rewrite E; reflexivity.
  - intros s0 (E & _); exact E.
  - intros s0 (_ & _ & H); exact H.
  - intros s0 p _ (J1 & J2 & J3 & J4 & J5 & J6) (Hwf & Hg & Hlen & Hlow); cbn [alg_prepare aga_algorithm alg_reproduction_parameters fst]; unfold aga_prepare.
    destruct (last_exists p (proj1 Hwf)) as [x Hx]; apply (last_level io mdl good goal level low top eps Hlad p x low) in Hlow; auto.
    assert (Hadj : exists ref c m, aga_adjust s0 p = (ref, c, m) /\ (iv = 0 \/ tame /\ usable ref) /\
              rate c /\ (B2R c <= cr)%R /\ rate m /\ (mr <= B2R m)%R).
    { destruct (Nat.eq_dec (generation p) 0) as [G0|G0].
      - rewrite (adjust_first s0 p G0), J2, J3; do 3 eexists; split; [reflexivity|]; split; [auto|].
        repeat split; try apply Rc2; try apply Rm1; unfold cr, mr; lra.
      - destruct (J6 G0) as [(B1 & B2 & B3 & B4) Hu].
        assert (Hdec : {adjusts (aga_interval s0) (generation p)} + {~ adjusts (aga_interval s0) (generation p)}).
        { destruct (negb (generation p =? 0) && (negb (aga_interval s0 =? 0) && (generation p mod aga_interval s0 =? 0))) eqn:E.
          - left; apply adjusts_test; apply andb_true_iff in E as [E1 E2]; apply negb_true_iff, Nat.eqb_neq in E1; auto.
          - right; intros H; apply adjusts_test in H as [H1 H2]; rewrite H2 in E; apply Nat.eqb_neq in H1; rewrite H1 in E; discriminate. }
        destruct Hdec as [Ha|Ha].
        2:{ rewrite (adjust_no s0 p G0 Ha); do 3 eexists; split; [reflexivity|]; auto 6. }
        destruct Hu as [Hu|[Htame Hu]]; [destruct Ha as (_ & Ha & _); congruence|].
        destruct (aga_adjust s0 p) as [[ref c] m] eqn:E; exists ref, c, m; split; auto.
        assert (Hdv : fle f0 (deviation p) = true).
        { apply deviation_number; auto; [unfold fits_usize, usize_max; lia|]; intros y Hy; apply Htame; apply Hg; auto. }
        destruct (adapted_rates s0 p ref c m) as (E1 & E2 & E3 & E4 & E5 & _); auto; try apply Hu.
        { unfold ranges_ok; rewrite J2, J3; repeat split; try apply Rc1; try apply Rc2; try apply Rm1; apply Rm2. }
        rewrite J2 in E4; rewrite J3 in E5; specialize (E4 Hc); specialize (E5 (proj2 Hm)); fold cr mr in E4, E5.
        split; [right; split; [auto|rewrite E1; exact Hu]|]; split; [exact E2|]; split; [lra|]; split; [exact E3|lra]. }
    destruct Hadj as (ref & c & m & -> & Hu & R1 & R2 & R3 & R4).
    pose proof Htot as (_ & _ & _ & _ & _ & T6).
    eapply must_bind_intro; [eapply must_strengthen; [apply T6|]; intros r Hr Er|].
    { instantiate (1 := fun r => crossover_rate (snd r) = c /\ mutation_rate (snd r) = m /\ parent_selector (snd r) = parent_selector (aga_breeding s0)).
      destruct r as [ms' b']; destruct (Hrates _ _ _ _ _ Hr) as [A B]; cbn [snd] in *; rewrite A, B; auto. }
    intros [ms' b'] (A & B & C); cbn [snd] in *; rewrite C.
    eapply must_bind_intro; [apply (Hsel _ p x J4); auto; lia|].
    intros s2 [D E]; cbn; unfold busy; cbn; rewrite A, B; split; [auto|]; split; [auto|].
    intros p' Hp'; repeat split; auto; try congruence; try apply R1; try apply R3.
  - split; [auto|split; auto].
  - assert (Hi : must (initialize_population io mdl (aga_model s) init) (fun p => True)).
    { eapply must_mono; [|apply (init_must io mdl (aga_population_size q) e (aga_inv (aga_population_size q) e safe_selector) raw ltac:(lia) Htot s1); auto]; auto.
      - split; [auto|split; auto].
      - exists x0; split; auto; eapply must_mono; [|exact Hv0]; intros y [H _]; exact H. }
    assert (Hi2 : must (initialize_population io mdl (aga_model s) init) (fun p => iv = 0 \/ tame /\ usable (deviation p))).
    { destruct Hdiv as [H|[H1 H2]]; [eapply must_mono; [|exact Hi]; auto|eapply must_mono; [|exact H2]; auto]. }
    eapply must_strengthen; [exact Hi2|].
    intros p Hp HJ; assert (generation p = 0) as G0.
    { unfold initialize_population in Hp; apply may_bind in Hp as (ev' & Hev & Hp).
      assert (Hne : filter (is_valid io) ev' <> []) by (intros E; rewrite E in Hp; eapply must_fail_no_may; [apply (new_empty io)|exact Hp]).
      destruct (must_may _ _ _ (new_must io _ Hne) Hp) as (_ & H & _); exact H. }
    repeat split; auto; intros; congruence.
  - split; auto; exists x0; auto.
Qed.

(** Rank-based strategies *)
Lemma aga_rank_conv (raw good : I -> Prop) (goal : I -> bool) level low top eps q g (s : aga_state I MS) init (ps : PS) :
  valid_is_number io -> equal_means_equal_fitness io ->
  total_model mdl raw -> keeps mdl raw good -> rates_left_alone mdl -> default_survival io mdl ->
  ladder io mdl good goal level low top eps -> (0 < eps)%R -> low <= top ->
  aga_accepted q -> aga_explores q -> (1 <= INR (aga_population_size q) * B2R (aga_elitism_rate q))%R ->
  rank_based (aga_selection_strategy q) -> robust_strategy (aga_selection_strategy q) ->
  (Z.of_nat (length init) <= 2 ^ 20)%Z ->
  startable_at io mdl raw level low (aga_model s) init ->
  diverse_start io mdl good q (aga_model s) init ->
  (1 - aga_generations (Nat.max (aga_population_size q) (length init)) q (top - low) eps / INR (S g) <=
   prob (evolve_population io fexp mdl AGA (quiet (until goal)) (S g) s init q ps) (fun r => existsb goal (individuals (r_population r))))%R.
Proof.
  intros Hnum Heq Htot Hk Hrates Hsurv Hlad Heps Hlt Hacc Hexp Hone Hrb Hrob Hi20 Hst Hdiv.
  apply (aga_conv raw good goal level low top eps q _ (fun sel => rank_sel sel /\ safe_selector sel)); auto; try lia.
  - destruct Hexp as (_ & _ & _ & _ & H20); lia.
  - intros sel Hs; split; [eapply rank_created; eauto|eapply created_safe; eauto].
  - intros sel [_ H]; exact H.
  - intros s0 p x [Hr Hs] Hwf _ Hl20 _ _; eapply must_mono; [|apply rank_often_all; eauto; apply Hwf].
    intros s1 [-> H]; auto.
Qed.

(** ... hence almost surely *)
Lemma aga_rank_certain (raw good : I -> Prop) (goal : I -> bool) level low top eps q (s : aga_state I MS) init (ps : PS) :
  valid_is_number io -> equal_means_equal_fitness io ->
  total_model mdl raw -> keeps mdl raw good -> rates_left_alone mdl -> default_survival io mdl ->
  ladder io mdl good goal level low top eps -> (0 < eps)%R -> low <= top ->
  aga_accepted q -> aga_explores q -> (1 <= INR (aga_population_size q) * B2R (aga_elitism_rate q))%R ->
  rank_based (aga_selection_strategy q) -> robust_strategy (aga_selection_strategy q) ->
  (Z.of_nat (length init) <= 2 ^ 20)%Z ->
  startable_at io mdl raw level low (aga_model s) init ->
  diverse_start io mdl good q (aga_model s) init ->
  forall eta, (0 < eta)%R -> exists fuel0, forall fuel, fuel0 <= fuel ->
  (1 - eta <= prob (evolve_population io fexp mdl AGA (quiet (until goal)) fuel s init q ps) (fun r => existsb goal (individuals (r_population r))))%R.
Proof.
  intros Hnum Heq Htot Hk Hrates Hsurv Hlad Heps Hlt Hacc Hexp Hone Hrb Hrob Hi20 Hst Hdiv eta Heta.
  set (G := aga_generations (Nat.max (aga_population_size q) (length init)) q (top - low) eps).
  exists (S (Z.to_nat (up (G / eta)))); intros [|g] Hf; [lia|].
  eapply Rle_trans; [|apply (aga_rank_conv raw good goal level low top eps); auto]; fold G.
  assert (Hi : (G / eta <= INR (S g))%R).
  { apply Rle_trans with (IZR (up (G / eta))); [left; apply archimed|].
    rewrite INR_IZR_INZ; apply IZR_le; lia. }
  assert (Hp : (0 < INR (S g))%R) by (apply lt_0_INR; lia).
  assert (G / INR (S g) <= eta)%R; [|lra].
  apply Rmult_le_reg_r with (INR (S g)); auto; unfold Rdiv; rewrite Rmult_assoc, Rinv_l, Rmult_1_r by lra.
  apply Rmult_le_compat_r with (r := eta) in Hi; [|lra]; unfold Rdiv in Hi; rewrite Rmult_assoc, Rinv_l, Rmult_1_r in Hi by lra; lra.
Qed.
End Runs.
