(** * PIso3: what a former run has left in an adaptive algorithm does not matter (C113, C114). *)
From Coq Require Import List Bool Arith NArith.
From Verif Require Import Rnd F64 MStats MOperators MCrossover MMutation MPopulation MSelection MModel MAlgorithms
  Spec SpecA PAlgorithms2 PRun4 SpecO SpecT LAlike PIso PIso2 PRename PRename2.
Import ListNotations.

Lemma observed_alike {I J S0 S1 PS} (T : population I -> population J -> Prop) (m : M (run_result I S0 PS)) :
  forall m1 m2 : M (run_result J S1 PS), alike (twin_runs T) m m1 -> same_behaviour (observed m1) (observed m2) -> alike (twin_runs T) m m2.
Proof.
  induction m as [r|e|n k IH|n k IH]; intros [r1|e1|n1 k1|n1 k1] [r2|e2|n2 k2|n2 k2] H1 H2; cbn in H1, H2 |- *; try contradiction; try congruence.
  - unfold observe in H2; injection H2 as E1 E2 E3; unfold twin_runs; rewrite <- E1, <- E2, <- E3; auto.
  - destruct H1 as [-> H1], H2 as [-> H2]; split; auto; intros i Hi; apply (IH i (k1 i)); [apply H1; auto|apply H2; auto].
  - destruct H1 as [-> H1], H2 as [-> H2]; split; auto; intros i Hi; apply (IH i (k1 i)); [apply H1; auto|apply H2; auto].
Qed.
Lemma observed_pair_alike {I J S0 S1 PS} (R : I -> J -> Prop) (T : population I -> population J -> Prop) (m : M (I * run_result I S0 PS)) :
  forall m1 m2 : M (J * run_result J S1 PS), alike (twin_results R T) m m1 -> same_behaviour (observed_pair m1) (observed_pair m2) -> alike (twin_results R T) m m2.
Proof.
  induction m as [r|e|n k IH|n k IH]; intros [r1|e1|n1 k1|n1 k1] [r2|e2|n2 k2|n2 k2] H1 H2; cbn in H1, H2 |- *; try contradiction; try congruence.
  - unfold observe in H2; injection H2 as E0 E1 E2 E3; unfold twin_results, twin_runs; rewrite <- E0, <- E1, <- E2, <- E3; auto.
  - destruct H1 as [-> H1], H2 as [-> H2]; split; auto; intros i Hi; apply (IH i (k1 i)); [apply H1; auto|apply H2; auto].
  - destruct H1 as [-> H1], H2 as [-> H2]; split; auto; intros i Hi; apply (IH i (k1 i)); [apply H1; auto|apply H2; auto].
Qed.

(** [t] with what a former run has left in [s] *)
Definition left_by {I J MS} (s : aga_state I MS) (t : aga_state J MS) : aga_state J MS :=
  mkAga (aga_model t) (aga_size t) (aga_elite_size t) (aga_interval t) (aga_crossover_range t) (aga_mutation_range t)
    (mkBreeding (crossover_rate (aga_breeding s)) (mutation_rate (aga_breeding s)) (parent_selector (aga_breeding t))) (aga_reference_std s).

Lemma run_independent {I MS PS} (io : individual_ops I) fexp (mdl : model I MS) (f : PS -> population I -> M (bool * PS)) fuel s s' nr q ps :
  aga_model s = aga_model s' ->
  same_behaviour (observed_pair (evolution_run io fexp mdl (aga_algorithm io fexp mdl) (quiet f) fuel s nr q ps))
                 (observed_pair (evolution_run io fexp mdl (aga_algorithm io fexp mdl) (quiet f) fuel s' nr q ps)).
Proof.
  intros E; unfold observed_pair, evolution_run; eapply same_trans; [apply same_assoc|]; eapply same_trans; [|apply same_sym, same_assoc].
  apply same_bind_r; intros init _; eapply same_trans; [apply same_assoc|]; eapply same_trans; [|apply same_sym, same_assoc].
  apply same_observed_bind; [apply aga_independent; auto|]; intros r r' Hr; pose proof Hr as Hr'; injection Hr' as Hr' _ _; rewrite Hr'.
  eapply same_trans; [apply same_assoc|]; eapply same_trans; [|apply same_sym, same_assoc].
  apply same_bind_r; intros x _; cbn [bind fst snd]; rewrite Hr; reflexivity.
Qed.

Section Any.
Context {I J MS PS : Type} (io : individual_ops I) (jo : individual_ops J) (R : I -> J -> Prop) (fexp : f64 -> f64)
  (mdl : model I MS) (ndl : model J MS) (f : PS -> population I -> M (bool * PS)) (g : PS -> population J -> M (bool * PS)).
Hypothesis (HR : same_order io jo R) (HM : models_alike R mdl ndl).

Section ByRank.
Hypothesis (Hfg : forall ps p q, twins R p q -> alike eq (f ps p) (g ps q)).
Lemma any_order_evolve q fuel s t init init' ps : by_rank (aga_selection_strategy q) -> aga_parameter_adjustment_interval q = 0 ->
  aga_model s = aga_model t -> Forall2 R init init' ->
  alike (twin_runs (twins R)) (evolve_population io fexp mdl (aga_algorithm io fexp mdl) (quiet f) fuel s init q ps)
    (evolve_population jo fexp ndl (aga_algorithm jo fexp ndl) (quiet g) fuel t init' q ps).
Proof.
  intros Hr H0 Hm Hi; apply (observed_alike (twins R) _ (evolve_population jo fexp ndl (aga_algorithm jo fexp ndl) (quiet g) fuel (left_by s t) init' q ps)).
  - apply order_aga_evolve; auto.
  - apply aga_independent; reflexivity.
Qed.
Lemma any_order_run q fuel s t nr nr' ps : by_rank (aga_selection_strategy q) -> aga_parameter_adjustment_interval q = 0 ->
  aga_model s = aga_model t -> alike R nr nr' ->
  alike (twin_results R (twins R)) (evolution_run io fexp mdl (aga_algorithm io fexp mdl) (quiet f) fuel s nr q ps)
    (evolution_run jo fexp ndl (aga_algorithm jo fexp ndl) (quiet g) fuel t nr' q ps).
Proof.
  intros Hr H0 Hm Hi; apply (observed_pair_alike R (twins R) _ (evolution_run jo fexp ndl (aga_algorithm jo fexp ndl) (quiet g) fuel (left_by s t) nr' q ps)).
  - eapply alike_mono; [apply twin_results_mono, (rpop_twins io jo R False)|].
    apply iso_aga_run; auto; [contradiction| |]; [intros; apply Hfg, (rpop_twins io jo R False); auto|repeat split; auto; contradiction].
  - apply run_independent; reflexivity.
Qed.
Lemma any_order_individual q fuel s t x y ps : by_rank (aga_selection_strategy q) -> aga_parameter_adjustment_interval q = 0 ->
  aga_model s = aga_model t -> R x y ->
  alike (twin_results R (twins R)) (evolve_individual io fexp mdl (aga_algorithm io fexp mdl) (quiet f) fuel s x q ps)
    (evolve_individual jo fexp ndl (aga_algorithm jo fexp ndl) (quiet g) fuel t y q ps).
Proof.
  intros Hr H0 Hm Hi; apply (observed_pair_alike R (twins R) _ (evolve_individual jo fexp ndl (aga_algorithm jo fexp ndl) (quiet g) fuel (left_by s t) y q ps)).
  - eapply alike_mono; [apply twin_results_mono, (rpop_twins io jo R False)|].
    apply iso_aga_individual; auto; [contradiction| |]; [intros; apply Hfg, (rpop_twins io jo R False); auto|repeat split; auto; contradiction].
  - apply (aga_independent_runs jo fexp ndl g fuel (left_by s t) t (Fail Panic) y q ps); reflexivity.
Qed.
End ByRank.

Section Exact.
Hypothesis (HF : same_fitness io jo R) (Hfg : forall ps p q, full_twins R p q -> alike eq (f ps p) (g ps q)).
Lemma any_full_evolve q fuel s t init init' ps : aga_model s = aga_model t -> Forall2 R init init' ->
  alike (twin_runs (full_twins R)) (evolve_population io fexp mdl (aga_algorithm io fexp mdl) (quiet f) fuel s init q ps)
    (evolve_population jo fexp ndl (aga_algorithm jo fexp ndl) (quiet g) fuel t init' q ps).
Proof.
  intros Hm Hi; apply (observed_alike (full_twins R) _ (evolve_population jo fexp ndl (aga_algorithm jo fexp ndl) (quiet g) fuel (left_by s t) init' q ps)).
  - apply full_aga_evolve; auto; repeat split; auto.
  - apply aga_independent; reflexivity.
Qed.
Lemma any_full_run q fuel s t nr nr' ps : aga_model s = aga_model t -> alike R nr nr' ->
  alike (twin_results R (full_twins R)) (evolution_run io fexp mdl (aga_algorithm io fexp mdl) (quiet f) fuel s nr q ps)
    (evolution_run jo fexp ndl (aga_algorithm jo fexp ndl) (quiet g) fuel t nr' q ps).
Proof.
  intros Hm Hi; apply (observed_pair_alike R (full_twins R) _ (evolution_run jo fexp ndl (aga_algorithm jo fexp ndl) (quiet g) fuel (left_by s t) nr' q ps)).
  - apply full_aga_run; auto; repeat split; auto.
  - apply run_independent; reflexivity.
Qed.
Lemma any_full_individual q fuel s t x y ps : aga_model s = aga_model t -> R x y ->
  alike (twin_results R (full_twins R)) (evolve_individual io fexp mdl (aga_algorithm io fexp mdl) (quiet f) fuel s x q ps)
    (evolve_individual jo fexp ndl (aga_algorithm jo fexp ndl) (quiet g) fuel t y q ps).
Proof.
  intros Hm Hi; apply (observed_pair_alike R (full_twins R) _ (evolve_individual jo fexp ndl (aga_algorithm jo fexp ndl) (quiet g) fuel (left_by s t) y q ps)).
  - apply full_aga_individual; auto; repeat split; auto.
  - apply (aga_independent_runs jo fexp ndl g fuel (left_by s t) t (Fail Panic) y q ps); reflexivity.
Qed.
End Exact.
End Any.

Lemma any_names_aga {G H : Type} (eqb ltb : G -> G -> bool) (eqb' ltb' : H -> H -> bool) (f : G -> H) :
  (forall a b, f a = f b -> a = b) -> eq_ok eqb -> eq_ok eqb' -> lt_total ltb -> lt_total ltb' ->
  forall steps cs mu (score : list G -> f64) (score' : list H -> f64), (forall r, score' (map f r) = score r) ->
  forall {PS : Type} (fexp : f64 -> f64) (c : PS -> population (tour G) -> M (bool * PS)) (d : PS -> population (tour H) -> M (bool * PS)),
  (forall ps p q, full_twins (renamed f) p q -> alike eq (c ps p) (d ps q)) ->
  let mdl := tour_model eqb ltb steps cs mu score in let ndl := tour_model eqb' ltb' steps cs mu score' in
  forall q fuel s t init init' ps, Forall2 (renamed f) init init' ->
  alike (twin_runs (full_twins (renamed f)))
    (evolve_population (tour_ops eqb) fexp mdl (aga_algorithm (tour_ops eqb) fexp mdl) (quiet c) fuel s init q ps)
    (evolve_population (tour_ops eqb') fexp ndl (aga_algorithm (tour_ops eqb') fexp ndl) (quiet d) fuel t init' q ps).
Proof.
  intros Hf He He' Hl Hl' steps cs mu score score' Hs PS fexp c d Hcd mdl ndl q fuel s t init init' ps Hi.
  apply (observed_alike (full_twins (renamed f)) _ (evolve_population (tour_ops eqb') fexp ndl (aga_algorithm (tour_ops eqb') fexp ndl) (quiet d) fuel (left_by s t) init' q ps)).
  - apply names_aga; auto; repeat split; auto; cbn; destruct (aga_model s), (aga_model t); reflexivity.
  - apply aga_independent; reflexivity.
Qed.

(** The default methods of a model look at the order only. *)
Lemma defaults_alike {I J MS : Type} (io : individual_ops I) (jo : individual_ops J) (R : I -> J -> Prop) :
  same_order io jo R -> forall ms : MS,
  (forall x y a b p q, R x y -> R a b -> alike eq (default_can_survive io ms x a p) (default_can_survive jo ms y b q)) /\
  (forall a b, R a b -> alike R (default_improve ms a) (default_improve ms b)) /\
  (forall (p : population I) br, default_pre_generation ms p br = Ret (ms, br)).
Proof.
  intros (_ & _ & Hc) ms; repeat split.
  - intros x y a b p q Hxy Hab; cbn; unfold fge, BinarySingleNaN.Bleb.
    pose proof (Hc a b x y Hab Hxy) as H; unfold fcmp, BinarySingleNaN.Bcompare in H; unfold SpecFloat.SFleb; now rewrite H.
  - intros a b H; exact H.
Qed.
