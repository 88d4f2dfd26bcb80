(** * PConv3: runs of the genetic algorithm find the goal (C92). *)
From Coq Require Import List Bool Arith NArith ZArith Reals Lia Lra Permutation.
From Flocq Require Import Core BinarySingleNaN.
From Verif Require Import Rnd LRnd Prob LProb F64 LF64 MStats MPopulation MSelection MModel MAlgorithms SpecF SpecA SpecK SpecR SpecL
  PMutationProb PSelection PSelection2 PLinear PSelection3 PPopulation PModel PInterp PAlgorithms PAlgorithms2 PRun PRun2 PRun3 PKeep PReach PReach2 PConv PConv2.
Import ListNotations.
Local Open Scope nat_scope.

Section Runs.
Context {I : Type} (io : individual_ops I) (fexp : f64 -> f64) {MS : Type} (mdl : model I MS) {PS : Type}.
Notation GA := (ga_algorithm io fexp mdl).
Implicit Types (p : population I).

Lemma ga_conv (raw good : I -> Prop) (goal : I -> bool) level low top eps q N (sel_ok : selector I -> Prop) g (s : ga_state I MS) init (ps : PS) :
  valid_is_number io -> equal_means_equal_fitness io ->
  total_model mdl raw -> keeps mdl raw good -> rates_left_alone mdl -> default_survival io mdl ->
  ladder io mdl good goal level low top eps -> (0 < eps)%R -> low <= top ->
  ga_accepted q -> explores q -> (1 <= INR (ga_population_size q) * B2R (ga_elitism_rate q))%R ->
  ga_population_size q <= N -> length init <= N -> (Z.of_nat N <= 2 ^ 20)%Z ->
  (forall sel, create_selector (ga_selection_strategy q) = Ret sel -> sel_ok sel) ->
  (forall sel, sel_ok sel -> safe_selector sel) ->
  (forall s0 p x, sel_ok s0 -> well_formed io p -> (forall y, In y (individuals p) -> is_valid io y = true /\ good y) ->
    (Z.of_nat (length (individuals p)) <= 2 ^ 20)%Z -> last_of p x -> low <= level x ->
    must (prepare io fexp s0 p) (fun s1 => sel_ok s1 /\
      (/ (2 * INR (length (individuals p))) <= prob (select io fexp s1 p) (is_last p))%R)) ->
  startable_at io mdl raw level low (ga_model s) init ->
  (1 - generations N q (top - low) eps / INR (S g) <=
   prob (evolve_population io fexp mdl GA (quiet (until goal)) (S g) s init q ps) (fun r => existsb goal (individuals (r_population r))))%R.
Proof.
  intros Hnum Heq Htot Hk Hrates Hsurv Hlad Heps Hlt Hacc Hexp Hone HN HI HN20 Hcreate Hsafe Hsel (Hraw & x0 & Hx0 & Hv0).
  destruct (ga_configure_ok s q) as (e & sel & He & Hs & Ecfg); auto; [unfold fits_usize, usize_max; lia|].
  set (s1 := mkGa _ _ _ _) in Ecfg.
  assert (He1 : 1 <= e) by (eapply one_elite; eauto; lia).
  pose proof (Hcreate _ Hs) as Hok; pose proof (Hsafe _ Hok) as Hsf.
  assert (Hkn : known sel) by (destruct Hsf as [H|(b & H & _)]; [left; auto|right; eauto]).
  assert (Hfi : fits_usize (length init)) by (unfold fits_usize, usize_max; lia).
  assert (Hfn : fits_usize (ga_population_size q)) by (unfold fits_usize, usize_max; lia).
  pose proof (explores_elites q e ltac:(apply Hacc) Hexp He) as Hse.
  destruct Hacc as (_ & _ & Rc & Rm & _); pose proof Hexp as (Hc & Hm & _).
  assert (Hgen : (generations N q (top - low) eps / INR (S g) =
            INR (top - low) / delta eps (B2R (ga_crossover_rate q)) (B2R (ga_mutation_rate q)) N / INR (S g))%R).
  { f_equal; unfold generations, delta; field.
    assert (0 < INR N)%R by (apply lt_0_INR; lia); lra. }
  rewrite Hgen.
  apply (climb_run io fexp mdl GA raw good goal level low top eps (B2R (ga_crossover_rate q)) (B2R (ga_mutation_rate q)) (ga_population_size q) N e
           (ga_inv (ga_population_size q) e safe_selector)
           (fun s' p => crossover_rate (ga_breeding s') = ga_crossover_rate q /\ mutation_rate (ga_breeding s') = ga_mutation_rate q /\
              sel_ok (parent_selector (ga_breeding s')))) with (s1 := s1); auto; try lia; try (split; [apply Rc || apply Hm|apply Hc || apply Rm]).
  - intros s0 p H; apply (ga_prep_must io fexp mdl _ _ _ _ raw); auto.
  - intros s0 (_ & E & _); cbn; rewrite E; reflexivity.
  - intros s0 (E & _); exact E.
  - intros s0 (_ & _ & H); exact H.
  - intros s0 p _ (J3 & J4 & J5) (Hwf & Hg & Hlen & Hlow); cbn [alg_prepare ga_algorithm alg_reproduction_parameters fst]; unfold ga_prepare.
    destruct (last_exists p (proj1 Hwf)) as [x Hx]; apply (last_level io mdl good goal level low top eps Hlad p x low) in Hlow; auto.
    pose proof Htot as (_ & _ & _ & _ & _ & T6).
    eapply must_bind_intro; [eapply must_strengthen; [apply T6|]; intros r Hr Er|].
    { instantiate (1 := fun r => crossover_rate (snd r) = ga_crossover_rate q /\ mutation_rate (snd r) = ga_mutation_rate q /\
        parent_selector (snd r) = parent_selector (ga_breeding s0)).
      destruct r as [ms' b']; destruct (Hrates _ _ _ _ _ Hr) as [A B]; cbn [snd] in *; rewrite A, B; auto. }
    intros [ms' b'] (A & B & C); cbn [snd] in *; rewrite C.
    eapply must_bind_intro; [apply (Hsel _ p x J5); auto; lia|].
    intros s2 [D E]; cbn; unfold busy; cbn; rewrite A, B; repeat split; try apply Rc; try apply Rm; auto; apply Rle_refl.
  - split; [auto|split; auto].
  - eapply must_mono; [|apply (init_must io mdl (ga_population_size q) e (ga_inv (ga_population_size q) e safe_selector) raw ltac:(lia) Htot s1); auto].
    + intros p _; repeat split; auto.
    + split; [auto|split; auto].
    + exists x0; split; auto; eapply must_mono; [|exact Hv0]; intros y [H _]; exact H.
  - split; auto; exists x0; auto.
Qed.

(** Rank-based strategies *)
Lemma ga_rank_conv (raw good : I -> Prop) (goal : I -> bool) level low top eps q g (s : ga_state I MS) init (ps : PS) :
  valid_is_number io -> equal_means_equal_fitness io ->
  total_model mdl raw -> keeps mdl raw good -> rates_left_alone mdl -> default_survival io mdl ->
  ladder io mdl good goal level low top eps -> (0 < eps)%R -> low <= top ->
  ga_accepted q -> explores q -> (1 <= INR (ga_population_size q) * B2R (ga_elitism_rate q))%R ->
  rank_based (ga_selection_strategy q) -> robust_strategy (ga_selection_strategy q) ->
  (Z.of_nat (length init) <= 2 ^ 20)%Z ->
  startable_at io mdl raw level low (ga_model s) init ->
  (1 - generations (Nat.max (ga_population_size q) (length init)) q (top - low) eps / INR (S g) <=
   prob (evolve_population io fexp mdl GA (quiet (until goal)) (S g) s init q ps) (fun r => existsb goal (individuals (r_population r))))%R.
Proof.
  intros Hnum Heq Htot Hk Hrates Hsurv Hlad Heps Hlt Hacc Hexp Hone Hrb Hrob Hi20 Hst.
  apply (ga_conv raw good goal level low top eps q _ (fun sel => rank_sel sel /\ safe_selector sel)); auto; try lia.
  - destruct Hexp as (_ & _ & _ & H20); lia.
  - intros sel Hs; split; [eapply rank_created; eauto|eapply created_safe; eauto].
  - intros sel [_ H]; exact H.
  - intros s0 p x [Hr Hs] Hwf _ Hl20 _ _; eapply must_mono; [|apply rank_often_all; eauto; apply Hwf].
    intros s1 [-> H]; auto.
Qed.

(** ... hence almost surely *)
Lemma ga_rank_certain (raw good : I -> Prop) (goal : I -> bool) level low top eps q (s : ga_state I MS) init (ps : PS) :
  valid_is_number io -> equal_means_equal_fitness io ->
  total_model mdl raw -> keeps mdl raw good -> rates_left_alone mdl -> default_survival io mdl ->
  ladder io mdl good goal level low top eps -> (0 < eps)%R -> low <= top ->
  ga_accepted q -> explores q -> (1 <= INR (ga_population_size q) * B2R (ga_elitism_rate q))%R ->
  rank_based (ga_selection_strategy q) -> robust_strategy (ga_selection_strategy q) ->
  (Z.of_nat (length init) <= 2 ^ 20)%Z ->
  startable_at io mdl raw level low (ga_model s) init ->
  forall eta, (0 < eta)%R -> exists fuel0, forall fuel, fuel0 <= fuel ->
  (1 - eta <= prob (evolve_population io fexp mdl GA (quiet (until goal)) fuel s init q ps) (fun r => existsb goal (individuals (r_population r))))%R.
Proof.
  intros Hnum Heq Htot Hk Hrates Hsurv Hlad Heps Hlt Hacc Hexp Hone Hrb Hrob Hi20 Hst eta Heta.
  set (G := generations (Nat.max (ga_population_size q) (length init)) q (top - low) eps).
  exists (S (Z.to_nat (up (G / eta)))); intros [|g] Hf; [lia|].
  eapply Rle_trans; [|apply (ga_rank_conv raw good goal level low top eps); auto]; fold G.
  assert (Hi : (G / eta <= INR (S g))%R).
  { apply Rle_trans with (IZR (up (G / eta))); [left; apply archimed|].
    rewrite INR_IZR_INZ; apply IZR_le; lia. }
  assert (Hp : (0 < INR (S g))%R) by (apply lt_0_INR; lia).
  assert (G / INR (S g) <= eta)%R; [|lra].
  apply Rmult_le_reg_r with (INR (S g)); auto; unfold Rdiv; rewrite Rmult_assoc, Rinv_l, Rmult_1_r by lra.
  apply Rmult_le_compat_r with (r := eta) in Hi; [|lra]; unfold Rdiv in Hi; rewrite Rmult_assoc, Rinv_l, Rmult_1_r in Hi by lra; lra.
Qed.
End Runs.
