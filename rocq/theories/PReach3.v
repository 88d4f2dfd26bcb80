(** * PReach3: OneMax runs can reach the optimum (C85). *)
From Coq Require Import List Bool Arith NArith ZArith Reals Lia Lra Permutation.
From Flocq Require Import Core BinarySingleNaN.
From Verif Require Import Rnd LRnd Prob F64 LF64 MStats MOperators MCrossover MMutation MPopulation MSelection MModel MAlgorithms MOneMax
  Spec SpecF SpecA SpecK SpecR POperatorsRandom PSelection PSelection2 PLinear PPopulation PModel PAlgorithms PRun PRun3 PRun5 PKeep POneMax POneMax2 PReach PReach2.
Import ListNotations.
Local Open Scope nat_scope.

Notation ones g := (count_occ Bool.bool_dec g true).

Lemma all_ones_spec x : all_ones x = true <-> Forall (eq true) (genome x).
Proof.
  unfold all_ones; rewrite forallb_forall, Forall_forall; split; intros H b Hb; specialize (H b Hb); auto.
Qed.

Lemma om_number : valid_is_number onemax_ops.
Proof. intros x H; apply finite_not_nan; exact H. Qed.

Lemma om_equal : equal_means_equal_fitness onemax_ops.
Proof. intros a b H; apply andb_true_iff in H; apply H. Qed.

Lemma om_hook : default_hook onemax_model.
Proof. intros ms p b; reflexivity. Qed.

Definition scored (n : nat) (x : onemax) : Prop := length (genome x) = n /\ onemax_evaluate tt x = Ret x.

Section Score.
Variable n : nat.
Hypothesis Hn : 1 <= n.
Hypothesis H53 : (Z.of_nat n <= 2 ^ 53)%Z.

Lemma scored_val x : scored n x -> is_finite (om_fitness x) = true /\ B2R (om_fitness x) = rnd (INR (ones (genome x)) / INR n) /\
  (0 <= B2R (om_fitness x) <= 1)%R.
Proof.
  intros [Hl He]; pose proof (ones_le (genome x)) as Hk; rewrite Hl in Hk.
  injection He as He; destruct x as [g v]; cbn [genome om_fitness] in *; injection He as He; rewrite <- He, count_ones_occ, Hl.
  destruct (frac_val _ _ Hk Hn H53) as [A B]; rewrite B; split; auto; split; auto; apply frac_bounds; auto.
Qed.

Lemma scored_lt x y : scored n x -> scored n y -> ones (genome x) < ones (genome y) -> flt (om_fitness x) (om_fitness y) = true.
Proof.
  intros Hx Hy H; destruct (scored_val x Hx) as (A & B & _); destruct (scored_val y Hy) as (C & D & _).
  apply flt_spec; repeat split; try (apply finite_not_nan; auto); rewrite !key_finite, B, D by auto; apply frac_strict; auto.
  destruct Hy as [<- _]; apply ones_le.
Qed.

Lemma scored_pos x : scored n x -> In true (genome x) -> (bpow radix2 (-53) <= B2R (om_fitness x))%R.
Proof.
  intros Hx Hi; destruct (scored_val x Hx) as (_ & -> & _).
  apply (count_occ_In Bool.bool_dec) in Hi; assert (1 <= INR (ones (genome x)))%R by (apply (le_INR 1); lia).
  pose proof (frac_n n Hn H53) as Bn.
  apply rnd_ge_float; [apply isfloat_bpow; lia|].
  change (bpow radix2 (-53)) with (/ 9007199254740992)%R; apply Rmult_le_reg_r with (INR n); [lra|].
  unfold Rdiv; rewrite Rmult_assoc, Rinv_l by lra; nra.
Qed.

Lemma scored_one x : scored n x -> (0 < B2R (om_fitness x))%R -> In true (genome x).
Proof.
  intros Hx Hp; destruct (scored_val x Hx) as (_ & E & _).
  apply (count_occ_In Bool.bool_dec); destruct (ones (genome x)) as [|k]; [|lia].
  rewrite E in Hp; unfold Rdiv in Hp; cbn [INR] in Hp; rewrite Rmult_0_l, rnd_0 in Hp; lra.
Qed.

Lemma scored_max x : scored n x -> B2R (om_fitness x) = 1%R -> Forall (eq true) (genome x).
Proof.
  intros Hx E; destruct (scored_val x Hx) as (_ & V & _); rewrite V in E; destruct Hx as [Hl _].
  pose proof (ones_le (genome x)) as Hk; rewrite Hl in Hk.
  apply frac_one in E; auto; apply ones_all; congruence.
Qed.

Lemma scored_top x : scored n x -> Forall (eq true) (genome x) -> B2R (om_fitness x) = 1%R.
Proof.
  intros Hx E; destruct (scored_val x Hx) as (_ & -> & _); destruct Hx as [Hl _].
  pose proof (ones_le (genome x)) as Hk; rewrite Hl in Hk; apply frac_one; auto; rewrite <- Hl; apply ones_all; auto.
Qed.

Definition score (g : list bool) : onemax := mkOneMax g (fdiv (f_of_nat (count_ones g)) (f_of_nat (length g))).
Lemma score_scored g : length g = n -> scored n (score g).
Proof. intros H; split; auto. Qed.

Lemma evaluated_scored u x y : length (genome x) = n -> may (onemax_evaluate u x) y -> scored n y.
Proof. intros H E; cbn in E; subst y; split; auto. Qed.

Lemma scored_valid x : scored n x -> is_valid onemax_ops x = true.
Proof. intros Hx; apply scored_val; auto. Qed.

Lemma ones_upd g j : nth_error g j = Some false -> ones (upd g j true) = S (ones g).
Proof.
  revert j; induction g as [|b g IH]; intros [|j]; cbn [nth_error upd]; try discriminate.
  - intros [= ->]; reflexivity.
  - intros H; destruct b; cbn [count_occ Bool.bool_dec]; cbn; rewrite IH; auto.
Qed.

Lemma duplicate_climb x : scored n x -> In true (genome x) -> all_ones x = false ->
  exists y, mutation_improves onemax_ops onemax_model tt x y /\ scored n y /\ In true (genome y) /\ ones (genome y) = S (ones (genome x)).
Proof.
  intros Hx Hi Ha; pose proof Hx as [Hl _]; apply In_nth_error in Hi as [i Hi].
  assert (Hf : In false (genome x)).
  { destruct (in_dec Bool.bool_dec false (genome x)) as [|Hno]; auto; exfalso.
    assert (all_ones x = true); [|congruence]. apply forallb_forall; intros [|] Hb; auto. }
  apply In_nth_error in Hf as [j Hj].
  assert (Hij : i <> j) by congruence.
  pose proof (nth_error_some_lt _ _ _ Hi) as Li; pose proof (nth_error_some_lt _ _ _ Hj) as Lj.
  set (g := upd (genome x) j true).
  assert (Hg : scored n (score g)) by (apply score_scored; unfold g; rewrite upd_length; auto).
  assert (Ho : ones g = S (ones (genome x))) by (apply ones_upd; auto).
  exists (score g); split; [|split; [auto|split; [|auto]]].
  - exists (mkOneMax g (om_fitness x)), (mkOneMax g (om_fitness x)); split; [|split; [reflexivity|split; [reflexivity|split; [apply scored_valid; auto|split]]]].
    + cbn [onemax_model m_mutate]; unfold onemax_mutate; cbn [mutate]; unfold duplicate_mutation.
      apply may_bind; exists g; split; [|reflexivity].
      rewrite (proj2 (Nat.ltb_ge _ _)) by lia; cbv zeta; apply may_bind; exists (i, j); split; [apply random_pair_reach; auto|].
      rewrite (idx_some _ _ _ Hi); cbn [bind]; rewrite set_ok by auto; reflexivity.
    + apply scored_lt; auto; cbn [score genome]; lia.
    + intros p; cbn [onemax_model m_can_survive]; unfold default_can_survive.
      assert (L : flt (om_fitness x) (om_fitness (score g)) = true) by (apply scored_lt; auto; cbn [score genome]; lia).
      cbn [may]; apply flt_spec in L as (A & B & C); apply fge_spec; repeat split; auto; cbn [onemax_ops fitness]; lra.
  - apply (count_occ_In Bool.bool_dec); cbn [score genome]; lia.
Qed.

Lemma duplicate_leads x : scored n x -> In true (genome x) -> leads onemax_ops onemax_model tt all_ones x.
Proof.
  remember (n - ones (genome x)) as d eqn:Ed; revert x Ed; induction d as [d IH] using lt_wf_ind; intros x Ed Hx Hi.
  destruct (all_ones x) eqn:E; [apply leads_goal; auto|].
  destruct (duplicate_climb x Hx Hi E) as (y & Hy & Sy & Iy & Oy); apply leads_on with y; auto.
  pose proof (ones_le (genome y)) as Ly; pose proof (proj1 Sy) as Ey; eapply IH; [|reflexivity|auto|auto]; lia.
Qed.

Lemma improved_scored x y : scored n x -> mutation_improves onemax_ops onemax_model tt x y -> scored n y /\ In true (genome y).
Proof.
  intros Hx (a & b & Ha & Hb & Hy & _ & Hlt & _).
  assert (Sy : scored n y).
  { cbn in Hb; subst b; apply (evaluated_scored tt a y); auto.
    pose proof (must_may _ _ _ (om_mutate_must tt x) Ha) as (-> & _); apply Hx. }
  split; auto; apply scored_one; auto.
  destruct (scored_val x Hx) as (Fx & _ & Bx); destruct (scored_val y Sy) as (Fy & _ & _).
  apply flt_spec in Hlt as (_ & _ & Hlt); cbn [onemax_ops fitness] in Hlt; rewrite !key_finite in Hlt by auto; lra.
Qed.

(** ** Runs *)
Context {PS : Type} (fexp : f64 -> f64).
Notation GA := (ga_algorithm onemax_ops fexp onemax_model).

Definition om_sel (s : selector onemax) : Prop := rank_sel s \/ exists t, s = RouletteWheel t.
Definition om_G (p : population onemax) (x : onemax) : Prop :=
  (Z.of_nat (length (individuals p)) <= 2 ^ 20)%Z /\ (forall z, In z (individuals p) -> scored n z) /\ In true (genome x) /\ scored n x.

Lemma om_reach (s : ga_state onemax unit) init q (ps : PS) :
  ga_accepted q -> explores q -> (rank_based (ga_selection_strategy q) \/ ga_selection_strategy q = StRouletteWheel) ->
  (Z.of_nat (length init) <= 2 ^ 20)%Z -> (forall x, In x init -> length (genome x) = n) ->
  (exists x, In x init /\ In true (genome x)) ->
  exists fuel r, may (evolve_population onemax_ops fexp onemax_model GA (quiet (until all_ones)) fuel s init q ps) r /\
    well_formed onemax_ops (r_population r) /\ existsb all_ones (individuals (r_population r)) = true.
Proof.
  intros Hacc Hexp Hst Hl20 Hlen (x0 & Hx0 & Ix0).
  set (ev := map (fun x => score (genome x)) init).
  assert (Hev : forall z, In z ev -> scored n z).
  { intros z Hz; apply in_map_iff in Hz as (x & <- & Hx); apply score_scored; auto. }
  assert (Hsc : In (score (genome x0)) ev) by (apply in_map_iff; eauto).
  destruct (@ga_reach onemax onemax_ops fexp unit onemax_model PS q tt all_ones om_sel om_G) with (s := s) (init := init) (ev := ev) (ps := ps)
    as (fuel & r & Hr); auto using om_number, om_equal, om_hook.
  - intros s' Hs; destruct Hst as [H|H]; [left; eapply rank_created; eauto|right; rewrite H in Hs; injection Hs as <-; eexists; reflexivity].
  - intros s0 p x [Hr|[t ->]] Hwf Hl (G1 & G2 & G3 & G4).
    + destruct (rank_prepared onemax_ops fexp s0 p x Hr Hl G1) as (s1 & A & B & C); exists s1; split; auto; split; auto; left; auto.
    + assert (Hin : In x (individuals p)) by (destruct Hl as [l ->]; apply in_or_app; right; left; reflexivity).
      destruct (scored_val x (G2 x Hin)) as (Fx & _ & Bx).
      destruct (roulette_last onemax_ops fexp t p x Hl) as (t' & A & B); auto.
      * intros y Hy; destruct (scored_val y (G2 y Hy)) as (Fy & _ & By); split; auto; split; [apply By|].
        destruct Hwf as (_ & Hnn & Hso & _); pose proof (last_best onemax_ops p x y Hso Hnn Hl Hy) as K.
        rewrite !key_finite in K by auto; exact K.
      * split; [|apply Bx]; apply Rle_trans with (bpow radix2 (-53)); [apply bpow_le; lia|apply scored_pos; auto].
      * exists (RouletteWheel t'); split; auto; split; auto; right; eauto.
  - intros p p' x y (G1 & G2 & G3 & G4) Hi Hl Hz; destruct Hexp as (_ & _ & _ & H20).
    destruct (improved_scored x y G4 Hi) as [Sy Iy].
    split; [lia|]; split; auto; intros z Hz'; destruct (Hz z Hz') as [H| ->]; auto.
  - destruct (ga_model s); reflexivity.
  - unfold ev; rewrite (mapM_ret _ (fun x => score (genome x))); [reflexivity|intros a _; reflexivity].
  - exists (score (genome x0)); split; auto; apply scored_valid; auto.
  - intros x p Hx _ Hbest.
    assert (Sx : scored n x) by auto.
    assert (Ix : In true (genome x)).
    { apply scored_one; auto; pose proof (scored_pos _ (Hev _ Hsc) Ix0) as Hp.
      specialize (Hbest _ Hsc (scored_valid _ (Hev _ Hsc))); cbn [onemax_ops fitness] in Hbest.
      destruct (scored_val _ (Hev _ Hsc)) as (F0 & _); destruct (scored_val x Sx) as (Fx & _).
      rewrite !key_finite in Hbest by auto; pose proof (bpow_gt_0 radix2 (-53)); lra. }
    split; [apply duplicate_leads; auto|]; intros Hz Hlp _; split; [|split; [|auto]].
    + unfold ev in Hlp; rewrite map_length in Hlp; lia.
    + intros z Hz'; apply Hev, Hz; auto.
  - exists fuel, r; auto.
Qed.

Lemma ga_om_reach (s : ga_state onemax unit) init q (ps : PS) :
  ga_accepted q -> explores q -> (rank_based (ga_selection_strategy q) \/ ga_selection_strategy q = StRouletteWheel) ->
  (Z.of_nat (length init) <= 2 ^ 20)%Z -> (forall x, In x init -> length (genome x) = n) ->
  (exists x, In x init /\ In true (genome x)) ->
  exists fuel r x, may (evolve_population onemax_ops fexp onemax_model GA (quiet (until all_ones)) fuel s init q ps) r /\
    take_fittest (r_population r) = Ret x /\ length (genome x) = n /\ Forall (eq true) (genome x).
Proof.
  intros Hacc Hexp Hst Hl20 Hlen Hx; destruct (om_reach s init q ps) as (fuel & r & Hr & Hwf & Hg); auto.
  destruct (fittest_max onemax_ops _ Hwf) as (x & _ & Ht & Hin & _ & Hmax).
  exists fuel, r, x; split; auto; split; auto.
  assert (Hk : forall y, In y (individuals (r_population r)) -> scored n y).
  { destruct (c63_generations _ _ _ _ _ _ _ _ _ _ _ _ _ _ _ _ Hr) as (_ & _ & Hin'); apply nth_error_In in Hin'.
    intros y Hy; destruct Hexp as (_ & _ & _ & H20).
    refine (ga_keeps onemax_ops fexp onemax_model (has_length n) (scored n) _ fuel s init q ps r (om_keeps n) om_left_alone _ _ _ Hr _ y Hin' Hy);
      try (unfold fits_usize, usize_max; lia).
    apply Forall_forall; auto. }
  apply existsb_exists in Hg as (y & Hy & Gy); apply all_ones_spec in Gy.
  split; [apply Hk; auto|]; apply scored_max; auto.
  pose proof (scored_top y (Hk y Hy) Gy) as Ey; destruct (scored_val x (Hk x Hin)) as (Fx & _ & Bx); destruct (scored_val y (Hk y Hy)) as (Fy & _ & _).
  specialize (Hmax y Hy); apply fle_spec in Hmax as (_ & _ & K); cbn [onemax_ops fitness] in K; rewrite !key_finite in K by auto; lra.
Qed.

Lemma ga_om_individual (s : ga_state onemax unit) seed q (ps : PS) :
  ga_accepted q -> explores q -> (rank_based (ga_selection_strategy q) \/ ga_selection_strategy q = StRouletteWheel) ->
  length (genome seed) = n -> In true (genome seed) ->
  exists fuel x r, may (evolve_individual onemax_ops fexp onemax_model GA (quiet (until all_ones)) fuel s seed q ps) (x, r) /\
    length (genome x) = n /\ Forall (eq true) (genome x).
Proof.
  intros Hacc Hexp Hst Hl Hi.
  assert (Hinit : exists init, may (extend_population_with onemax_model (alg_model GA s) [] (alg_initial_population_size GA q) seed) init /\
            length init = ga_population_size q /\ (forall x, In x init -> length (genome x) = n) /\ In seed init).
  { unfold extend_population_with; cbn [alg_initial_population_size ga_algorithm alg_model app].
    destruct Hacc as (H0 & _); destruct (Nat.eqb_spec (ga_population_size q) 0) as [|_]; [congruence|].
    destruct (Nat.eqb_spec (ga_population_size q) 1) as [->|H1].
    { exists [seed]; split; [reflexivity|]; split; auto; split; [intros x [<-|[]]; auto|left; auto]. }
    destruct (must_exists _ _ (om_mutate_must (ga_model s) seed)) as [m Hm].
    pose proof (must_may _ _ _ (om_mutate_must (ga_model s) seed) Hm) as (El & _).
    exists (seed :: repeat m (ga_population_size q - 1)); split; [|split; [cbn [length]; rewrite repeat_length; lia|split; [|left; auto]]].
    - apply may_bind; exists (repeat m (ga_population_size q - 1)); split; [apply may_repeat; exact Hm|reflexivity].
    - intros x [<-|Hx]; auto; apply repeat_spec in Hx as ->; congruence. }
  destruct Hinit as (init & Hinit & Elen & Hlen & Hseed).
  destruct (ga_om_reach s init q ps) as (fuel & r & x & Hr & Ht & Hx); eauto.
  { rewrite Elen; apply Hexp. }
  exists fuel, x, r; split; auto; unfold evolve_individual; apply may_bind; exists init; split; auto; apply may_bind; exists r; split; auto.
  rewrite Ht; reflexivity.
Qed.
End Score.

(** ** Examples *)
Lemma one_half : is_finite (f_lit 1 2) = true /\ (B2R (f_lit 1 2) = 1 / 2)%R.
Proof.
  unfold f_lit; destruct (f_of_Z_exact 1) as [F1 V1]; [lia|]; destruct (f_of_Z_exact 2) as [F2 V2]; [lia|].
  destruct (in_range (fdiv (f_of_Z 1) (f_of_Z 2)) (IZR 1 / IZR 2)) as [F V].
  - rewrite <- V1, <- V2; apply fdiv_correct; auto; rewrite V2; lra.
  - apply (le_1023 _ 2); [lia|]; rewrite Rabs_pos_eq by lra; change (bpow radix2 2) with 4%R; lra.
  - split; auto; rewrite V; apply rnd_float; apply half_float; [apply (isfloat_IZR 1); lia|].
    apply Rle_trans with (bpow radix2 0); [apply bpow_le; lia|change (bpow radix2 0) with 1%R; lra].
Qed.

Lemma default_explores : ga_accepted ga_params_default /\ explores ga_params_default /\ ga_selection_strategy ga_params_default = StRouletteWheel.
Proof.
  split; [|split; [|reflexivity]].
  - split; [discriminate|]; split; [apply ratio_lit; vm_compute; reflexivity|].
    split; [apply rate_lit; vm_compute; reflexivity|]; split; [apply rate_lit; vm_compute; reflexivity|exact Logic.I].
  - assert (Hlt : forall x y, is_finite x = true -> is_finite y = true -> flt x y = true -> (B2R x < B2R y)%R).
    { intros x y Fx Fy H; apply flt_spec in H as (_ & _ & H); rewrite !key_finite in H; auto. }
    unfold explores; cbn [ga_params_default ga_crossover_rate ga_mutation_rate ga_population_size ga_elitism_rate].
    split; [|split; [|split; [|vm_compute; discriminate]]].
    + assert (E : B2R f1 = 1%R) by (apply f1_val). rewrite <- E; apply Hlt; vm_compute; reflexivity.
    + assert (E : B2R f0 = 0%R) by reflexivity. rewrite <- E; apply Hlt; vm_compute; reflexivity.
    + assert (H : (B2R (f_lit 1 100) < B2R (f_lit 1 2))%R) by (apply Hlt; vm_compute; reflexivity).
      destruct one_half as [_ E]; rewrite E in H; set (v := B2R (f_lit 1 100)) in *; clearbody v.
      rewrite INR_IZR_INZ; change (Z.of_nat 100) with 100%Z; lra.
Qed.

Definition om_climb (tape : list N) :=
  option_map (fun o => (genome (fst o), length (r_trace (snd o))))
    (run (evolve_individual onemax_ops (fun x => x) onemax_model (ga_algorithm onemax_ops (fun x => x) onemax_model)
            (quiet (until all_ones)) 9 (ga_from tt) (onemax_from [true; false; false]) (mkGaParams 4 (f_lit 1 4) (f_lit 1 2) (f_lit 1 2) StRouletteWheel) tt) tape).

Lemma c85_example : In true (genome (onemax_from [true; false; false])) /\
  om_climb [2; 5; 1; 3; 4; 5; 4; 1; 2; 4; 0; 5; 3; 4; 3; 3; 2; 4; 4; 5; 5; 5; 0; 3]%N = Some ([true; true; true], 4).
Proof. split; [left; reflexivity|vm_compute; reflexivity]. Qed.

Lemma c85_climbs : valid_is_number onemax_ops /\ equal_means_equal_fitness onemax_ops /\ default_hook onemax_model /\
  rank_based (StTournament 3) /\
  exists ev, Forall2 (fun x x' => may (m_evaluate onemax_model tt x) x') [onemax_from [false; false]; onemax_from [true; false]] ev /\
    (exists x, In x ev /\ is_valid onemax_ops x = true) /\
    (forall x, In x ev -> is_valid onemax_ops x = true ->
       (forall z, In z ev -> is_valid onemax_ops z = true -> fle (fitness onemax_ops z) (fitness onemax_ops x) = true) ->
       exists y, climbs onemax_ops onemax_model tt x y /\ all_ones y = true).
Proof.
  split; [exact om_number|]; split; [exact om_equal|]; split; [exact om_hook|]; split; [discriminate|].
  assert (Hx : scored 2 (score [true; false])) by (apply score_scored; reflexivity).
  assert (Vx : is_valid onemax_ops (score [true; false]) = true) by (apply (scored_valid 2); auto; lia).
  exists [score [false; false]; score [true; false]]; split; [constructor; [reflexivity|constructor; [reflexivity|constructor]]|].
  split; [exists (score [true; false]); split; [right; left; reflexivity|exact Vx]|].
  intros x [<-|[<-|[]]] _ Hmax.
  - exfalso; specialize (Hmax _ (or_intror (or_introl eq_refl)) Vx).
    assert (E : fle (fitness onemax_ops (score [true; false])) (fitness onemax_ops (score [false; false])) = false) by (vm_compute; reflexivity).
    rewrite E in Hmax; discriminate.
  - destruct (duplicate_climb 2 ltac:(lia) ltac:(lia) _ Hx (or_introl eq_refl) eq_refl) as (y & Hy & Sy & _ & Oy).
    exists y; split; [eapply climbs_on; [apply climbs_here|exact Hy]|].
    apply all_ones_spec, ones_all; destruct Sy as [-> _]; rewrite Oy; reflexivity.
Qed.
