(** * PHist3: runs that cannot start (C81). *)
From Coq Require Import List Bool Arith NArith ZArith Lia.
From Verif Require Import Rnd LRnd F64 MStats MPopulation MSelection MModel MAlgorithms SpecF SpecA SpecH
  PPopulation PModel PAlgorithms PRun PRun3.
Import ListNotations.
Local Open Scope nat_scope.

Section Start.
Context {I : Type} (io : individual_ops I) (fexp : f64 -> f64) {MS : Type} (mdl : model I MS).

Lemma create_total s : create_selector (I := I) s = Fail Panic \/ exists x, create_selector (I := I) s = Ret x.
Proof.
  destruct s; cbn [create_selector]; eauto; unfold tournament_new, boltzmann_new, elitist_new, massert;
    match goal with |- context [if ?b then _ else _] => destruct b end; cbn; eauto.
Qed.
Lemma interpolate_total a b r : interpolate_usize a b r = Fail Panic \/ exists n, interpolate_usize a b r = Ret n.
Proof. unfold interpolate_usize, massert; destruct (a <=? b); cbn; eauto. Qed.
Lemma massert_total b : massert b = Fail Panic \/ massert b = Ret tt.
Proof. unfold massert; destruct b; auto. Qed.

Ltac step :=
  match goal with |- context [massert ?b] => destruct (massert_total b) as [->| ->]; cbn [bind]; [left; reflexivity|] end.

Lemma ga_configure_total (s : ga_state I MS) q :
  ga_configure s q = Fail Panic \/ exists s1, ga_configure s q = Ret s1 /\ ga_model s1 = ga_model s.
Proof.
  unfold ga_configure, ga_validate; repeat step.
  destruct (interpolate_total 0 (ga_population_size q) (ga_elitism_rate q)) as [->|[n ->]]; cbn [bind]; auto.
  destruct (create_total (ga_selection_strategy q)) as [->|[x ->]]; cbn [bind]; eauto.
Qed.
Lemma aga_configure_total (s : aga_state I MS) q :
  aga_configure s q = Fail Panic \/ exists s1, aga_configure s q = Ret s1 /\ aga_model s1 = aga_model s.
Proof.
  unfold aga_configure, aga_validate; repeat step.
  destruct (interpolate_total 0 (aga_population_size q) (aga_elitism_rate q)) as [->|[n ->]]; cbn [bind]; auto.
  destruct (create_total (aga_selection_strategy q)) as [->|[x ->]]; cbn [bind]; eauto.
Qed.

Lemma filter_none (l : list I) : (forall y, In y l -> is_valid io y = false) -> filter (is_valid io) l = [].
Proof. induction l as [|a l IH]; intros H; cbn; auto; rewrite (H a (or_introl eq_refl)); apply IH; intros y Hy; apply H; right; auto. Qed.

Lemma init_no_valid ms init : (forall x, In x init -> must (m_evaluate mdl ms x) (fun y => is_valid io y = false)) ->
  must_fail (initialize_population io mdl ms init) Panic.
Proof.
  intros H; unfold initialize_population.
  apply must_fail_bind_r with (Q := fun ev => forall y, In y ev -> is_valid io y = false).
  - induction init as [|a l IH]; cbn [mapM]; [cbn; tauto|].
    eapply must_bind_intro; [apply H; left; auto|]; intros b Hb; cbv beta in Hb |- *.
    eapply must_bind_intro; [apply IH; intros x Hx; apply H; right; auto|]; intros bs Hbs; cbn; intros y [<-|Hy]; auto.
  - intros ev Hev; rewrite filter_none by auto; apply new_empty.
Qed.

Lemma init_no_result ms init p : (forall x y, In x init -> may (m_evaluate mdl ms x) y -> is_valid io y = false) ->
  ~ may (initialize_population io mdl ms init) p.
Proof.
  intros H Hp; unfold initialize_population in Hp; apply may_bind in Hp as (ev & Hev & Hp).
  rewrite filter_none in Hp; [eapply must_fail_no_may; [apply (new_empty io)|exact Hp]|].
  clear Hp; revert ev Hev; induction init as [|a l IH]; intros ev Hev; cbn [mapM] in Hev; [cbn in Hev; subst; intros y []|].
  apply may_bind in Hev as (b & Hb & Hev); apply may_bind in Hev as (bs & Hbs & Hev); cbn in Hev; subst; intros y [<-|Hy].
  - exact (H a b (or_introl eq_refl) Hb).
  - refine (IH _ bs Hbs y Hy); intros x z Hx; apply H; right; auto.
Qed.

Context {P S0 : Type} (alg : algorithm I MS P S0) {PS : Type} (progress : PS -> S0 -> population I -> M (bool * PS * S0)).
Hypothesis Hconf : forall s q, alg_configure alg s q = Fail Panic \/ exists s1, alg_configure alg s q = Ret s1 /\ alg_model alg s1 = alg_model alg s.

Lemma run_no_valid fuel s init q ps :
  (forall x, In x init -> must (m_evaluate mdl (alg_model alg s) x) (fun y => is_valid io y = false)) ->
  must_fail (evolve_population io fexp mdl alg progress fuel s init q ps) Panic.
Proof.
  intros H; unfold evolve_population; destruct (Hconf s q) as [->|(s1 & -> & E)]; cbn [bind]; [reflexivity|].
  apply must_fail_bind_l, init_no_valid; rewrite E; auto.
Qed.

Lemma run_no_result fuel s init q ps r :
  (forall x y, In x init -> may (m_evaluate mdl (alg_model alg s) x) y -> is_valid io y = false) ->
  ~ may (evolve_population io fexp mdl alg progress fuel s init q ps) r.
Proof.
  intros H Hr; unfold evolve_population in Hr; destruct (Hconf s q) as [E|(s1 & Ec & E)]; [rewrite E in Hr; destruct Hr|].
  rewrite Ec in Hr; cbn [bind] in Hr; apply may_bind in Hr as (p & Hp & _); revert Hp; apply init_no_result; rewrite E; auto.
Qed.

Lemma random_no_valid fuel s nr q ps :
  must nr (fun x => must (m_evaluate mdl (alg_model alg s) x) (fun y => is_valid io y = false)) ->
  must_fail (evolution_run io fexp mdl alg progress fuel s nr q ps) Panic.
Proof.
  intros H; unfold evolution_run.
  apply must_fail_bind_r with (Q := fun l => forall x, In x l -> must (m_evaluate mdl (alg_model alg s) x) (fun y => is_valid io y = false)).
  - unfold extend_population; destruct (_ =? 0); [cbn; tauto|].
    eapply must_bind_intro; [apply must_repeatM; exact H|]; intros l [_ Hl]; cbn; apply Forall_forall; exact Hl.
  - intros l Hl; apply must_fail_bind_l, run_no_valid, Hl.
Qed.

Lemma seed_no_valid fuel s seed q ps :
  must (m_evaluate mdl (alg_model alg s) seed) (fun y => is_valid io y = false) ->
  must (m_mutate mdl (alg_model alg s) seed) (fun x => must (m_evaluate mdl (alg_model alg s) x) (fun y => is_valid io y = false)) ->
  must_fail (evolve_individual io fexp mdl alg progress fuel s seed q ps) Panic.
Proof.
  intros H0 H; unfold evolve_individual.
  apply must_fail_bind_r with (Q := fun l => forall x, In x l -> must (m_evaluate mdl (alg_model alg s) x) (fun y => is_valid io y = false)).
  - unfold extend_population_with; destruct (_ =? 0); [cbn; tauto|]; destruct (_ =? 1); [cbn; intros x [<-|[]]; auto|].
    eapply must_bind_intro; [apply must_repeatM; exact H|]; intros l [_ Hl]; cbn; intros x [<-|Hx]; auto.
    rewrite Forall_forall in Hl; auto.
  - intros l Hl; apply must_fail_bind_l, run_no_valid, Hl.
Qed.

Lemma size_zero fuel s nr seed q ps : alg_initial_population_size alg q = 0 ->
  must_fail (evolution_run io fexp mdl alg progress fuel s nr q ps) Panic /\
  must_fail (evolve_individual io fexp mdl alg progress fuel s seed q ps) Panic.
Proof.
  intros E; unfold evolution_run, evolve_individual, extend_population, extend_population_with; rewrite E; cbn [Nat.eqb bind].
  split; apply must_fail_bind_l, run_no_valid; intros x [].
Qed.
End Start.
