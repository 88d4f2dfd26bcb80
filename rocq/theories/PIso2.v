(** * PIso2: runs that depend on the order of the fitness values only, and examples (C113). *)
From Coq Require Import List Bool Arith NArith ZArith Reals Lia.
From Flocq Require Import IEEE754.BinarySingleNaN.
From Verif Require Import Rnd LRnd Prob F64 MStats MPopulation MSelection MModel MAlgorithms SpecO LAlike PIso ExF ExO.
Import ListNotations.
Local Open Scope nat_scope.

Lemma alike_means {A B} (R : A -> B -> Prop) m m' : alike R m m' ->
  (forall a, may m a -> exists b, R a b /\ may m' b) /\ (forall b, may m' b -> exists a, R a b /\ may m a) /\
  (forall e, may_fail m e <-> may_fail m' e) /\
  (forall P P', (forall a b, R a b -> P a = P' b) -> prob m P = prob m' P').
Proof.
  intros H; split; [|split; [|split]].
  - intros a; apply alike_may; auto.
  - intros b Hb; destruct (alike_may _ _ _ b (alike_flip _ _ _ H) Hb) as (a & ? & ?); eauto.
  - intros e; apply (alike_may_fail _ _ _ e H).
  - intros P P' HP; apply (alike_prob R); auto.
Qed.

(** Adaptive algorithms that agree on the model and on what a former run has left *)
Definition same_aga_start {I J MS} (s : aga_state I MS) (t : aga_state J MS) : Prop :=
  aga_model s = aga_model t /\ crossover_rate (aga_breeding s) = crossover_rate (aga_breeding t) /\
  mutation_rate (aga_breeding s) = mutation_rate (aga_breeding t) /\ aga_reference_std s = aga_reference_std t.

Section Order.
Context {I J MS PS : Type} (io : individual_ops I) (jo : individual_ops J) (R : I -> J -> Prop) (fexp : f64 -> f64)
  (mdl : model I MS) (ndl : model J MS) (f : PS -> population I -> M (bool * PS)) (g : PS -> population J -> M (bool * PS)).
Hypothesis (HR : same_order io jo R) (HM : models_alike R mdl ndl).

Lemma rpop_twins Full : forall p q, rpop io jo R Full p q -> twins R p q.
Proof. intros p q H; apply H. Qed.
Lemma rpop_full p q : rpop io jo R True p q -> full_twins R p q.
Proof. intros [H (_ & _ & E)]; split; auto. Qed.
Lemma F2_mono {A B} (Q Q' : A -> B -> Prop) l l' : (forall a b, Q a b -> Q' a b) -> Forall2 Q l l' -> Forall2 Q' l l'.
Proof. intros H H2; induction H2; auto. Qed.
Lemma twin_runs_mono {S0 S1} (T T' : population I -> population J -> Prop) : (forall p q, T p q -> T' p q) ->
  forall (r : run_result I S0 PS) (r' : run_result J S1 PS), twin_runs T r r' -> twin_runs T' r r'.
Proof. intros H r r' (H1 & H2 & H3); split; [|split]; auto; eapply F2_mono; eauto. Qed.
Lemma twin_results_mono {S0 S1} (T T' : population I -> population J -> Prop) : (forall p q, T p q -> T' p q) ->
  forall (r : I * run_result I S0 PS) (r' : J * run_result J S1 PS), twin_results R T r r' -> twin_results R T' r r'.
Proof. intros H r r' (H1 & H2); split; auto; eapply twin_runs_mono; eauto. Qed.

Section ByRank.
Hypothesis (Hfg : forall ps p q, twins R p q -> alike eq (f ps p) (g ps q)).
Lemma order_ga_evolve q fuel s t init init' ps : by_rank (ga_selection_strategy q) -> ga_model s = ga_model t -> Forall2 R init init' ->
  alike (twin_runs (twins R)) (evolve_population io fexp mdl (ga_algorithm io fexp mdl) (quiet f) fuel s init q ps)
    (evolve_population jo fexp ndl (ga_algorithm jo fexp ndl) (quiet g) fuel t init' q ps).
Proof.
  intros Hr Hm Hi; eapply alike_mono; [apply twin_runs_mono, (rpop_twins False)|].
  apply iso_ga_evolve; auto; [contradiction|]; intros; apply Hfg, (rpop_twins False); auto.
Qed.
Lemma order_ga_run q fuel s t nr nr' ps : by_rank (ga_selection_strategy q) -> ga_model s = ga_model t -> alike R nr nr' ->
  alike (twin_results R (twins R)) (evolution_run io fexp mdl (ga_algorithm io fexp mdl) (quiet f) fuel s nr q ps)
    (evolution_run jo fexp ndl (ga_algorithm jo fexp ndl) (quiet g) fuel t nr' q ps).
Proof.
  intros Hr Hm Hi; eapply alike_mono; [apply twin_results_mono, (rpop_twins False)|].
  apply iso_ga_run; auto; [contradiction|]; intros; apply Hfg, (rpop_twins False); auto.
Qed.
Lemma order_ga_individual q fuel s t x y ps : by_rank (ga_selection_strategy q) -> ga_model s = ga_model t -> R x y ->
  alike (twin_results R (twins R)) (evolve_individual io fexp mdl (ga_algorithm io fexp mdl) (quiet f) fuel s x q ps)
    (evolve_individual jo fexp ndl (ga_algorithm jo fexp ndl) (quiet g) fuel t y q ps).
Proof.
  intros Hr Hm Hi; eapply alike_mono; [apply twin_results_mono, (rpop_twins False)|].
  apply iso_ga_individual; auto; [contradiction|]; intros; apply Hfg, (rpop_twins False); auto.
Qed.
Lemma order_aga_evolve q fuel s t init init' ps :
  by_rank (aga_selection_strategy q) -> aga_parameter_adjustment_interval q = 0 -> aga_model s = aga_model t ->
  crossover_rate (aga_breeding s) = crossover_rate (aga_breeding t) -> mutation_rate (aga_breeding s) = mutation_rate (aga_breeding t) ->
  Forall2 R init init' ->
  alike (twin_runs (twins R)) (evolve_population io fexp mdl (aga_algorithm io fexp mdl) (quiet f) fuel s init q ps)
    (evolve_population jo fexp ndl (aga_algorithm jo fexp ndl) (quiet g) fuel t init' q ps).
Proof.
  intros Hr H0 Hm Hc Hu Hi; eapply alike_mono; [apply twin_runs_mono, (rpop_twins False)|].
  apply iso_aga_evolve; auto; [contradiction| |]; [intros; apply Hfg, (rpop_twins False); auto|repeat split; auto; contradiction].
Qed.
End ByRank.

Section Exact.
Hypothesis (HF : same_fitness io jo R).
Hypothesis (Hfg : forall ps p q, full_twins R p q -> alike eq (f ps p) (g ps q)).
Lemma full_ga_evolve q fuel s t init init' ps : ga_model s = ga_model t -> Forall2 R init init' ->
  alike (twin_runs (full_twins R)) (evolve_population io fexp mdl (ga_algorithm io fexp mdl) (quiet f) fuel s init q ps)
    (evolve_population jo fexp ndl (ga_algorithm jo fexp ndl) (quiet g) fuel t init' q ps).
Proof.
  intros Hm Hi; eapply alike_mono; [apply twin_runs_mono, rpop_full|].
  apply iso_ga_evolve; auto; intros; apply Hfg, rpop_full; auto.
Qed.
Lemma full_ga_run q fuel s t nr nr' ps : ga_model s = ga_model t -> alike R nr nr' ->
  alike (twin_results R (full_twins R)) (evolution_run io fexp mdl (ga_algorithm io fexp mdl) (quiet f) fuel s nr q ps)
    (evolution_run jo fexp ndl (ga_algorithm jo fexp ndl) (quiet g) fuel t nr' q ps).
Proof.
  intros Hm Hi; eapply alike_mono; [apply twin_results_mono, rpop_full|].
  apply iso_ga_run; auto; intros; apply Hfg, rpop_full; auto.
Qed.
Lemma full_ga_individual q fuel s t x y ps : ga_model s = ga_model t -> R x y ->
  alike (twin_results R (full_twins R)) (evolve_individual io fexp mdl (ga_algorithm io fexp mdl) (quiet f) fuel s x q ps)
    (evolve_individual jo fexp ndl (ga_algorithm jo fexp ndl) (quiet g) fuel t y q ps).
Proof.
  intros Hm Hi; eapply alike_mono; [apply twin_results_mono, rpop_full|].
  apply iso_ga_individual; auto; intros; apply Hfg, rpop_full; auto.
Qed.
Lemma full_aga_evolve q fuel s t init init' ps : same_aga_start s t -> Forall2 R init init' ->
  alike (twin_runs (full_twins R)) (evolve_population io fexp mdl (aga_algorithm io fexp mdl) (quiet f) fuel s init q ps)
    (evolve_population jo fexp ndl (aga_algorithm jo fexp ndl) (quiet g) fuel t init' q ps).
Proof.
  intros (Hm & Hc & Hu & Hs) Hi; eapply alike_mono; [apply twin_runs_mono, rpop_full|].
  apply iso_aga_evolve; auto; [intros; apply Hfg, rpop_full; auto|repeat split; auto].
Qed.
Lemma full_aga_run q fuel s t nr nr' ps : same_aga_start s t -> alike R nr nr' ->
  alike (twin_results R (full_twins R)) (evolution_run io fexp mdl (aga_algorithm io fexp mdl) (quiet f) fuel s nr q ps)
    (evolution_run jo fexp ndl (aga_algorithm jo fexp ndl) (quiet g) fuel t nr' q ps).
Proof.
  intros (Hm & Hc & Hu & Hs) Hi; eapply alike_mono; [apply twin_results_mono, rpop_full|].
  apply iso_aga_run; auto; [intros; apply Hfg, rpop_full; auto|repeat split; auto].
Qed.
Lemma full_aga_individual q fuel s t x y ps : same_aga_start s t -> R x y ->
  alike (twin_results R (full_twins R)) (evolve_individual io fexp mdl (aga_algorithm io fexp mdl) (quiet f) fuel s x q ps)
    (evolve_individual jo fexp ndl (aga_algorithm jo fexp ndl) (quiet g) fuel t y q ps).
Proof.
  intros (Hm & Hc & Hu & Hs) Hi; eapply alike_mono; [apply twin_results_mono, rpop_full|].
  apply iso_aga_individual; auto; [intros; apply Hfg, rpop_full; auto|repeat split; auto].
Qed.
End Exact.
End Order.

(** ** Examples *)
Lemma size_order : same_order narrow wide eq.
Proof. split; [|split]; intros; subst; auto; destruct b, b'; vm_compute; reflexivity. Qed.
Lemma size_models : models_alike eq (size_model narrow) (size_model wide).
Proof.
  split; [|split; [|split; [|split; [|split; [|split]]]]]; intros; subst; try reflexivity.
  destruct b, y; vm_compute; reflexivity.
Qed.

(** A tape whose numbers are in range *)
Fixpoint legal {A} (m : M A) (tape : list N) : bool :=
  match m with
  | Ret _ => true
  | Fail _ => false
  | Draw n k | Pick n k => match tape with [] => false | t :: ts => (t <? n)%N && legal (k t) ts end
  end.
Lemma alike_legal {A B} (R : A -> B -> Prop) m m' tape : alike R m m' -> legal m tape = true ->
  exists a b, run m tape = Some a /\ run m' tape = Some b /\ R a b.
Proof.
  revert m' tape; induction m as [x|e|n k IH|n k IH]; intros [y|e'|n' k'|n' k'] tape H Hl; cbn in *; try contradiction; try discriminate; eauto.
  - destruct H as [<- H]; destruct tape as [|t ts]; [discriminate|]; apply andb_prop in Hl as [Ht Hl]; apply N.ltb_lt in Ht.
    rewrite N.mod_small by auto; apply IH; auto.
  - destruct H as [<- H]; destruct tape as [|t ts]; [discriminate|]; apply andb_prop in Hl as [Ht Hl]; apply N.ltb_lt in Ht.
    rewrite N.mod_small by auto; apply IH; auto.
Qed.

Lemma size_closure g : forall (ps : unit) p q, twins (@eq comparison) p q ->
  alike eq ((fun (_ : unit) p => Ret (generation p <? g, tt)) ps p) ((fun (_ : unit) p => Ret (generation p <? g, tt)) ps q).
Proof. intros ps p q (_ & E & _); cbn; rewrite E; reflexivity. Qed.

Lemma size_ga_example fexp st g : by_rank st -> alike (twin_runs (twins eq)) (size_ga narrow fexp st g) (size_ga wide fexp st g).
Proof.
  intros H; apply (order_ga_evolve narrow wide eq fexp _ _ _ _ size_order size_models (size_closure g)); [exact H|reflexivity|].
  repeat constructor.
Qed.
Lemma size_aga_example fexp st g : by_rank st -> alike (twin_runs (twins eq)) (size_aga narrow fexp st 0 g) (size_aga wide fexp st 0 g).
Proof.
  intros H; apply (order_aga_evolve narrow wide eq fexp _ _ _ _ size_order size_models (size_closure g)); [exact H|reflexivity..|].
  repeat constructor.
Qed.

Definition wheel_tape : list N := [0; 0; 3000000000000000; 0; 0; 3000000000000000; 0; 0; 3000000000000000; 0; 0; 0]%N.
Definition rate_tape : list N := [0; 0; 0; 0; 1; 0; 0; 1; 0; 0; 0; 0; 0; 4503599627370496; 0; 0; 4503599627370496; 0; 0; 4503599627370496; 0]%N.
Definition final {S0 PS} (o : option (run_result comparison S0 PS)) : option (list comparison) := option_map (fun r => individuals (r_population r)) o.

Lemma not_alike {S0 S1 PS} (m : M (run_result comparison S0 PS)) (m' : M (run_result comparison S1 PS)) tape :
  legal m tape = true -> final (run m tape) <> final (run m' tape) -> ~ alike (twin_runs (twins eq)) m m'.
Proof.
  intros Hl Hne Ha; destruct (alike_legal _ _ _ tape Ha Hl) as (a & b & Ea & Eb & ((H & _) & _)).
  apply Hne; rewrite Ea, Eb; cbn; f_equal; clear -H; induction H; subst; auto; congruence.
Qed.
Lemma wheel_not_alike : ~ alike (twin_runs (twins eq)) (size_ga narrow (fun x => x) StRouletteWheel 1) (size_ga wide (fun x => x) StRouletteWheel 1).
Proof. apply (not_alike _ _ wheel_tape); [vm_compute; reflexivity|]; vm_compute; discriminate. Qed.
Lemma boltzmann_not_alike : ~ alike (twin_runs (twins eq)) (size_ga narrow (fun x => x) (StBoltzmann f1 f1) 1) (size_ga wide (fun x => x) (StBoltzmann f1 f1) 1).
Proof. apply (not_alike _ _ wheel_tape); [vm_compute; reflexivity|]; vm_compute; discriminate. Qed.
Lemma rates_not_alike fexp : ~ alike (twin_runs (twins eq)) (size_aga narrow fexp (StTournament 1) 1 2) (size_aga wide fexp (StTournament 1) 1 2).
Proof. apply (not_alike _ _ rate_tape); [vm_compute; reflexivity|]; vm_compute; discriminate. Qed.
Lemma wheel_refuted :
  exists (io jo : individual_ops comparison) (mdl ndl : model comparison unit) (fexp : f64 -> f64) (g : nat) (init : list comparison) (q : ga_params),
  same_order io jo eq /\ models_alike eq mdl ndl /\ ga_selection_strategy q = StRouletteWheel /\
  ~ alike (twin_runs (twins eq))
      (evolve_population io fexp mdl (ga_algorithm io fexp mdl) (quiet (fun (_ : unit) p => Ret (generation p <? g, tt))) (S g) (ga_from tt) init q tt)
      (evolve_population jo fexp ndl (ga_algorithm jo fexp ndl) (quiet (fun (_ : unit) p => Ret (generation p <? g, tt))) (S g) (ga_from tt) init q tt).
Proof.
  exists narrow, wide, (size_model narrow), (size_model wide), (fun x => x), 1, [Lt; Eq; Gt], (mkGaParams 3 f0 f0 f0 StRouletteWheel).
  split; [exact size_order|]; split; [exact size_models|]; split; [reflexivity|]; exact wheel_not_alike.
Qed.
Lemma boltzmann_refuted :
  exists (io jo : individual_ops comparison) (mdl ndl : model comparison unit) (fexp : f64 -> f64) (g : nat) (init : list comparison) (q : ga_params),
  same_order io jo eq /\ models_alike eq mdl ndl /\ ga_selection_strategy q = StBoltzmann f1 f1 /\
  ~ alike (twin_runs (twins eq))
      (evolve_population io fexp mdl (ga_algorithm io fexp mdl) (quiet (fun (_ : unit) p => Ret (generation p <? g, tt))) (S g) (ga_from tt) init q tt)
      (evolve_population jo fexp ndl (ga_algorithm jo fexp ndl) (quiet (fun (_ : unit) p => Ret (generation p <? g, tt))) (S g) (ga_from tt) init q tt).
Proof.
  exists narrow, wide, (size_model narrow), (size_model wide), (fun x => x), 1, [Lt; Eq; Gt], (mkGaParams 3 f0 f0 f0 (StBoltzmann f1 f1)).
  split; [exact size_order|]; split; [exact size_models|]; split; [reflexivity|]; exact boltzmann_not_alike.
Qed.
Lemma rates_refuted :
  exists (io jo : individual_ops comparison) (mdl ndl : model comparison unit) (g : nat) (init : list comparison) (q : aga_params),
  same_order io jo eq /\ models_alike eq mdl ndl /\ by_rank (aga_selection_strategy q) /\ forall fexp,
  ~ alike (twin_runs (twins eq))
      (evolve_population io fexp mdl (aga_algorithm io fexp mdl) (quiet (fun (_ : unit) p => Ret (generation p <? g, tt))) (S g) (aga_from tt) init q tt)
      (evolve_population jo fexp ndl (aga_algorithm jo fexp ndl) (quiet (fun (_ : unit) p => Ret (generation p <? g, tt))) (S g) (aga_from tt) init q tt).
Proof.
  exists narrow, wide, (size_model narrow), (size_model wide), 2, [Lt; Eq; Gt], (mkAgaParams 3 f0 (f0, f0) (f0, f1) (StTournament 1) 1).
  split; [exact size_order|]; split; [exact size_models|]; split; [exact Logic.I|]; exact rates_not_alike.
Qed.
Lemma c113_example :
  same_order narrow wide eq /\ ~ same_fitness narrow wide eq /\ models_alike eq (size_model narrow) (size_model wide) /\
  (forall fexp st g, by_rank st -> alike (twin_runs (twins eq)) (size_ga narrow fexp st g) (size_ga wide fexp st g)) /\
  (forall fexp st g, by_rank st -> alike (twin_runs (twins eq)) (size_aga narrow fexp st 0 g) (size_aga wide fexp st 0 g)).
Proof.
  split; [exact size_order|]; split; [|split; [exact size_models|split; [exact size_ga_example|exact size_aga_example]]].
  intros H; specialize (H Eq Eq eq_refl); apply (f_equal (fun x => feq x (f_of_nat 2))) in H; vm_compute in H; discriminate.
Qed.
