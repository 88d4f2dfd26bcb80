(** * PHist: the history of a run (C78). *)
From Coq Require Import List Bool Arith NArith ZArith Lia Permutation.
From Verif Require Import Rnd LRnd F64 MStats MPopulation MSelection MModel MAlgorithms SpecF SpecA SpecH
  PPopulation PModel PAlgorithms PAlgorithms2 PRun PRun3.
Import ListNotations.
Local Open Scope nat_scope.

Section Hist.
Context {I : Type} (io : individual_ops I) (fexp : f64 -> f64) {MS : Type} (mdl : model I MS).

Lemma select_top_top e (p : population I) acc : select_top e p acc = Ret (acc ++ top e p).
Proof.
  unfold select_top, top; destruct (Nat.eqb_spec e 0) as [->|He]; cbn [negb].
  - rewrite Nat.sub_0_r, skipn_all, app_nil_r; reflexivity.
  - rewrite slice_ok by lia; cbn [bind]; do 2 f_equal; apply firstn_all2; rewrite skipn_length; lia.
Qed.

Lemma may_mapM {A B} (f : A -> M B) l r : may (mapM f l) r -> Forall2 (fun x y => may (f x) y) l r.
Proof.
  revert r; induction l as [|a l IH]; intros r H; cbn [mapM] in H; [cbn in H; subst; constructor|].
  apply may_bind in H as (b & Hb & H); apply may_bind in H as (bs & Hbs & H); cbn in H; subst; constructor; auto.
Qed.

Lemma init_begins ms init p : may (initialize_population io mdl ms init) p -> begins io mdl ms init p /\ generation p = 0.
Proof.
  intros H; pose proof (init_generation io mdl _ _ _ H) as Hg; split; auto.
  unfold initialize_population in H; apply may_bind in H as (ev & Hev & H).
  exists ev; split; [apply may_mapM; auto|].
  assert (Hne : filter (is_valid io) ev <> []) by (intros E; rewrite E in H; eapply must_fail_no_may; [apply (new_empty io)|exact H]).
  destruct (must_may _ _ _ (new_must io _ Hne) H) as ((M1 & M2 & _ & M4 & _) & _); repeat (split; [assumption|]); exact M2.
Qed.

Context {P S0 : Type} (alg : algorithm I MS P S0) (n e : nat) (rates : population I -> f64 * f64 -> f64 * f64 -> Prop)
  (J : S0 -> population I -> Prop) {PS : Type}.
Hypothesis Jprep : forall s p s', J s p -> may (alg_prepare alg s p) s' ->
  (forall p', generation p' = S (generation p) -> J s' p') /\
  let b := fst (alg_reproduction_parameters alg s) in
  exists cr mr b1 sel,
    rates p (crossover_rate b, mutation_rate b) (cr, mr) /\
    may (m_pre_generation mdl (alg_model alg s) p (mkBreeding cr mr (parent_selector b))) (alg_model alg s', b1) /\
    may (prepare io fexp (parent_selector b1) p) sel /\
    alg_reproduction_parameters alg s' = (mkBreeding (crossover_rate b1) (mutation_rate b1) sel, n) /\
    alg_select_elites alg s' = select_top e.

Lemma loop_history (f : PS -> population I -> M (bool * PS)) fuel : forall s p ps tr r,
  J s p -> may (evolve_loop io fexp mdl alg (quiet f) fuel s p ps tr) r ->
  exists t, r_trace r = tr ++ p :: t /\
    chronicle io fexp mdl n e rates (alg_model alg s) (fst (alg_reproduction_parameters alg s)) (p :: t)
      (alg_model alg (r_algorithm r)) (fst (alg_reproduction_parameters alg (r_algorithm r))).
Proof.
  induction fuel as [|k IH]; intros s p ps tr r HJ H; [destruct H|]; cbn [evolve_loop] in H.
  apply may_bind in H as ([[c ps'] s1] & Hp & H); apply quiet_may in Hp as [Hp ->]; destruct c.
  - apply may_bind in H as ([s' p'] & Hs & H).
    pose proof (step_generation _ _ _ _ _ _ _ _ Hs) as Hg.
    apply step_may in Hs as (el & off & H1 & H2 & H3 & H4 & Hne).
    destruct (Jprep _ _ _ HJ H1) as (HJ' & cr & mr & b1 & sel & K1 & K2 & K3 & K4 & K5).
    destruct (IH _ _ _ _ _ (HJ' _ Hg) H) as (t & Et & Hh); exists (p' :: t); rewrite Et, <- app_assoc; split; [reflexivity|].
    rewrite K5, select_top_top in H2; cbn in H2; subst el; rewrite K4 in H3, Hh; cbn [fst] in Hh.
    apply generate_may in H3 as (news & Eo & El & Hb).
    destruct (must_may _ _ _ (replace_must io p off Hne) H4) as ((M1 & M2 & _ & M4 & _) & _ & _ & _); cbn [fst] in M1, M2, M4; rewrite Eo in M2, M4.
    exact (chronicle_next io fexp mdl n e rates _ _ p cr mr _ b1 sel news p' t _ _ K1 K2 K3 El Hb (conj M1 (conj M4 M2)) Hh).
  - cbn in H; subst r; exists []; split; [reflexivity|]; cbn [r_algorithm]; constructor.
Qed.

Lemma run_history (f : PS -> population I -> M (bool * PS)) fuel s q s1 init ps r :
  alg_configure alg s q = Ret s1 -> (forall p, generation p = 0 -> begins io mdl (alg_model alg s1) init p -> hd_error (r_trace r) = Some p -> J s1 p) ->
  may (evolve_population io fexp mdl alg (quiet f) fuel s init q ps) r ->
  exists p0 t, r_trace r = p0 :: t /\ begins io mdl (alg_model alg s1) init p0 /\
    chronicle io fexp mdl n e rates (alg_model alg s1) (fst (alg_reproduction_parameters alg s1)) (p0 :: t)
      (alg_model alg (r_algorithm r)) (fst (alg_reproduction_parameters alg (r_algorithm r))).
Proof.
  intros Hc HJ H; unfold evolve_population in H; rewrite Hc in H; cbn [bind] in H; apply may_bind in H as (p0 & Hp & H).
  destruct (init_begins _ _ _ Hp) as [Hb Hg].
  destruct (loop_trace _ _ _ _ _ _ _ _ _ _ _ H) as (t0 & E0 & _); cbn [app] in E0.
  assert (HJ0 : J s1 p0) by (apply HJ; auto; rewrite E0; reflexivity).
  destruct (loop_history f fuel _ _ _ _ _ HJ0 H) as (t & Et & Hh); cbn [app] in Et; exists p0, t; auto.
Qed.
End Hist.

Section Instances.
Context {I : Type} (io : individual_ops I) (fexp : f64 -> f64) {MS : Type} (mdl : model I MS) {PS : Type}.
Notation GA := (ga_algorithm io fexp mdl).
Notation AGA := (aga_algorithm io fexp mdl).

Lemma ga_history (f : PS -> population I -> M (bool * PS)) fuel s init q ps r :
  fits_usize (ga_population_size q) ->
  may (evolve_population io fexp mdl GA (quiet f) fuel s init q ps) r ->
  exists e sel p0 t, elite_count (ga_population_size q) (ga_elitism_rate q) e /\
    create_selector (ga_selection_strategy q) = Ret sel /\
    r_trace r = p0 :: t /\ begins io mdl (ga_model s) init p0 /\
    chronicle io fexp mdl (ga_population_size q) e fixed_rates (ga_model s)
      (mkBreeding (ga_crossover_rate q) (ga_mutation_rate q) sel) (r_trace r)
      (ga_model (r_algorithm r)) (ga_breeding (r_algorithm r)).
Proof.
  intros Hf H; pose proof H as H'; unfold evolve_population in H'; apply may_bind in H' as (s1 & Hc & _).
  destruct (ga_configured s q s1 Hf Hc) as (Hc' & _).
  assert (D : ga_accepted q) by exact (ga_configured_accepted s q s1 Hf Hc).
  destruct (ga_configure_ok s q Hf D) as (e & sel & He & Hs & Hc2).
  rewrite Hc2 in Hc'; injection Hc' as <-.
  edestruct (run_history (PS := PS) io fexp mdl GA (ga_population_size q) e fixed_rates
    (fun s _ => ga_size s = ga_population_size q /\ ga_elite_size s = e)) as (p0 & t & Et & Hb & Hh); [|exact Hc2| |exact H|]; [|cbn; auto|].
  - intros s0 p s' [J1 J2] Hm; cbn [alg_prepare ga_algorithm] in Hm; unfold ga_prepare in Hm.
    apply may_bind in Hm as ([ms b] & H1 & Hm); apply may_bind in Hm as (sl & H2 & Hm); cbn in Hm; subst s'.
    split; [intros; cbn; auto|]; cbn [ga_algorithm alg_reproduction_parameters alg_model alg_select_elites fst ga_model ga_breeding ga_size ga_elite_size].
    exists (crossover_rate (ga_breeding s0)), (mutation_rate (ga_breeding s0)), b, sl.
    rewrite J1, J2; repeat split; auto; destruct (ga_breeding s0); exact H1.
  - exists e, sel, p0, t; repeat (split; [assumption|]); rewrite Et; exact Hh.
Qed.

Lemma aga_history (f : PS -> population I -> M (bool * PS)) fuel s init q ps r :
  fits_usize (aga_population_size q) ->
  may (evolve_population io fexp mdl AGA (quiet f) fuel s init q ps) r ->
  exists e sel p0 t, elite_count (aga_population_size q) (aga_elitism_rate q) e /\
    create_selector (aga_selection_strategy q) = Ret sel /\
    r_trace r = p0 :: t /\ begins io mdl (aga_model s) init p0 /\
    chronicle io fexp mdl (aga_population_size q) e (adaptive_rates q (deviation p0)) (aga_model s)
      (mkBreeding (crossover_rate (aga_breeding s)) (mutation_rate (aga_breeding s)) sel) (r_trace r)
      (aga_model (r_algorithm r)) (aga_breeding (r_algorithm r)).
Proof.
  intros Hf H; pose proof H as H'; unfold evolve_population in H'; apply may_bind in H' as (s1 & Hc & Hl).
  apply may_bind in Hl as (q0 & _ & Hl); destruct (loop_trace _ _ _ _ _ _ _ _ _ _ _ Hl) as (t0 & E0 & _); cbn [app] in E0; clear Hl.
  destruct (aga_configured s q s1 Hf Hc) as (Hc' & _).
  assert (D : aga_accepted q) by exact (aga_configured_accepted s q s1 Hf Hc).
  destruct (aga_configure_ok s q Hf D) as (e & sel & He & Hs & Hc2).
  rewrite Hc2 in Hc'; injection Hc' as <-.
  edestruct (run_history (PS := PS) io fexp mdl AGA (aga_population_size q) e (adaptive_rates q (deviation q0))
    (fun s p => aga_size s = aga_population_size q /\ aga_elite_size s = e /\ aga_interval s = aga_parameter_adjustment_interval q /\
       aga_crossover_range s = aga_crossover_rate_range q /\ aga_mutation_range s = aga_mutation_rate_range q /\
       (generation p = 0 -> p = q0) /\ (generation p <> 0 -> aga_reference_std s = deviation q0))) as (p0 & t & Et & Hb & Hh); [|exact Hc2| |exact H|].
  - intros s0 p s' (J1 & J2 & J3 & J4 & J5 & J6 & J7) Hm; cbn [alg_prepare aga_algorithm] in Hm.
    destruct (aga_adjust s0 p) as [[ref cr] mr] eqn:Ea.
    destruct (aga_prepare_may io fexp mdl _ _ _ Hm _ _ _ Ea) as (ms & b & sl & H1 & H2 & ->).
    assert (A : ref = deviation q0 /\ adaptive_rates q (deviation q0) p (crossover_rate (aga_breeding s0), mutation_rate (aga_breeding s0)) (cr, mr)).
    { unfold adaptive_rates; rewrite <- J3, <- J4, <- J5.
      destruct (Nat.eq_dec (generation p) 0) as [G|G].
      - rewrite adjust_first in Ea by auto; injection Ea as <- <- <-; rewrite (J6 G); split; auto; repeat split; auto.
        + intros (G' & _); rewrite <- (J6 G) in G'; congruence.
        + rewrite <- (J6 G); congruence.
      - destruct (negb (aga_interval s0 =? 0) && (generation p mod aga_interval s0 =? 0)) eqn:T.
        + assert (Ha : adjusts (aga_interval s0) (generation p)) by (apply adjusts_test; auto).
          rewrite adjust_yes in Ea by auto; injection Ea as <- <- <-; rewrite (J7 G); split; auto; repeat split; auto; try congruence; tauto.
        + assert (Ha : ~ adjusts (aga_interval s0) (generation p)) by (rewrite adjusts_test, T; intros [_ X]; discriminate).
          rewrite adjust_no in Ea by auto; injection Ea as <- <- <-; split; auto; repeat split; auto; try congruence; tauto. }
    destruct A as [-> A]; split.
    + intros p' Hg; cbn; repeat split; auto; rewrite Hg; discriminate.
    + cbn [aga_algorithm alg_reproduction_parameters alg_model alg_select_elites fst aga_model aga_breeding aga_size aga_elite_size].
      exists cr, mr, b, sl; rewrite J1, J2; repeat (split; [assumption|]); split; reflexivity.
  - intros p Hg _ Hh; rewrite E0 in Hh; injection Hh as <-; cbn; repeat split; auto; congruence.
  - rewrite E0 in Et; injection Et as <- <-.
    exists e, sel, q0, t0; repeat (split; [assumption|]); rewrite E0; exact Hh.
Qed.
End Instances.
