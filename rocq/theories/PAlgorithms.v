(** * PAlgorithms: proofs about src/algorithms.rs, ga.rs and aga.rs (C56-C62). *)
From Coq Require Import List Bool Arith NArith ZArith Reals Lia Lra Permutation.
From Flocq Require Import Core BinarySingleNaN.
From Verif Require Import Rnd LRnd F64 LF64 MStats MPopulation MSelection MModel MAlgorithms SpecF SpecA ExF ExM
  PSelection PSelection2 PSelection3 PStats PPopulation PModel PLinear PInterp.
Import ListNotations.
Local Open Scope nat_scope.

(** ** Configuration *)
Lemma rate_spec r : in_unit_closed r = true <-> rate r.
Proof. apply unit_closed_spec. Qed.
Lemma ratio_spec r : in_unit_halfopen r = true <-> proper_ratio r.
Proof. apply halfopen_spec. Qed.

Lemma strategy_dec I (s : selection_strategy) :
  (strategy_accepted s /\ exists x : selector I, create_selector s = Ret x) \/
  (~ strategy_accepted s /\ @create_selector I s = Fail Panic).
Proof.
  destruct s as [n| |t c| |b|r]; cbn [strategy_accepted create_selector].
  - unfold tournament_new; destruct (Nat.eqb_spec n 0); cbn; [right|left; eauto]; split; auto.
  - left; eauto.
  - destruct (feq c f0) eqn:E.
    + right; unfold boltzmann_new; rewrite E; cbn; split; auto; intros H; apply feq_zero_iff in E as [sg ->]; eapply H; eauto.
    + left; unfold boltzmann_new; rewrite E; cbn; split; [|eauto]; intros sg ->; assert (feq (B754_zero sg) f0 = true); [|congruence].
      apply feq_zero_iff; eauto.
  - left; eauto.
  - left; eauto.
  - unfold elitist_new; destruct (in_unit_halfopen r) eqn:E; cbn.
    + left; apply ratio_spec in E; eauto.
    + right; split; auto; rewrite <- ratio_spec, E; discriminate.
Qed.

Lemma elite_count_bound (n : nat) r : n <> 0%nat -> fits_usize n -> proper_ratio r -> elite_count n r (elitist_bound n r).
Proof.
  intros Hn Hf [Fr Hr]; split; [apply elitist_bound_lt; auto; lia|]; intros H; apply elitist_bound_floor; auto.
Qed.

Section Alg.
Context {I : Type} (io : individual_ops I) (fexp : f64 -> f64) {MS : Type} (mdl : model I MS).
Implicit Types (p : population I).

Lemma ga_configure_ok (s : ga_state I MS) q : fits_usize (ga_population_size q) -> ga_accepted q ->
  exists e sel, elite_count (ga_population_size q) (ga_elitism_rate q) e /\
    create_selector (ga_selection_strategy q) = Ret sel /\
    ga_configure s q = Ret (mkGa (ga_model s) (ga_population_size q) e (mkBreeding (ga_crossover_rate q) (ga_mutation_rate q) sel)).
Proof.
  intros Hf (H1 & H2 & H3 & H4 & H5); destruct (strategy_dec I (ga_selection_strategy q)) as [[_ [sel Hs]]|[H _]]; [|tauto].
  exists (elitist_bound (ga_population_size q) (ga_elitism_rate q)), sel; split; [apply elite_count_bound; auto|]; split; auto.
  unfold ga_configure, ga_validate.
  rewrite (proj2 (Nat.eqb_neq _ _) H1), (proj2 (ratio_spec _) H2), (proj2 (rate_spec _) H3), (proj2 (rate_spec _) H4).
  rewrite interpolate_is_bound by (auto; apply ratio_spec; auto).
  cbn [negb massert bind]; rewrite Hs; reflexivity.
Qed.

Lemma ga_configure_panics (s : ga_state I MS) q : fits_usize (ga_population_size q) -> ~ ga_accepted q -> ga_configure s q = Fail Panic.
Proof.
  intros Hf H; unfold ga_configure, ga_validate, ga_accepted in *.
  destruct (Nat.eqb_spec (ga_population_size q) 0) as [E|E]; [reflexivity|cbn [negb massert bind]].
  destruct (in_unit_halfopen (ga_elitism_rate q)) eqn:E2; [|reflexivity]; pose proof E2 as E2'; apply ratio_spec in E2'; cbn [massert bind].
  destruct (in_unit_closed (ga_crossover_rate q)) eqn:E3; [|reflexivity]; apply rate_spec in E3; cbn [massert bind].
  destruct (in_unit_closed (ga_mutation_rate q)) eqn:E4; [|reflexivity]; apply rate_spec in E4; cbn [massert bind].
  rewrite interpolate_is_bound by auto; cbn [bind].
  destruct (strategy_dec I (ga_selection_strategy q)) as [[A _]|[_ ->]]; [|reflexivity]; exfalso; apply H; repeat split; auto; try apply E2'; try apply E3; try apply E4.
Qed.

Lemma aga_configure_ok (s : aga_state I MS) q : fits_usize (aga_population_size q) -> aga_accepted q ->
  exists e sel, elite_count (aga_population_size q) (aga_elitism_rate q) e /\
    create_selector (aga_selection_strategy q) = Ret sel /\
    aga_configure s q = Ret (mkAga (aga_model s) (aga_population_size q) e (aga_parameter_adjustment_interval q)
      (aga_crossover_rate_range q) (aga_mutation_rate_range q)
      (mkBreeding (crossover_rate (aga_breeding s)) (mutation_rate (aga_breeding s)) sel) (aga_reference_std s)).
Proof.
  intros Hf (H1 & H2 & H3 & H4 & H5 & H6 & H7); destruct (strategy_dec I (aga_selection_strategy q)) as [[_ [sel Hs]]|[H _]]; [|tauto].
  exists (elitist_bound (aga_population_size q) (aga_elitism_rate q)), sel; split; [apply elite_count_bound; auto|]; split; auto.
  unfold aga_configure, aga_validate.
  rewrite (proj2 (Nat.eqb_neq _ _) H1), (proj2 (ratio_spec _) H2), (proj2 (rate_spec _) H3), (proj2 (rate_spec _) H4), (proj2 (rate_spec _) H5), (proj2 (rate_spec _) H6).
  rewrite interpolate_is_bound by (auto; apply ratio_spec; auto).
  cbn [negb massert bind]; rewrite Hs; reflexivity.
Qed.

Lemma aga_configure_panics (s : aga_state I MS) q : fits_usize (aga_population_size q) -> ~ aga_accepted q -> aga_configure s q = Fail Panic.
Proof.
  intros Hf H; unfold aga_configure, aga_validate, aga_accepted in *.
  destruct (Nat.eqb_spec (aga_population_size q) 0) as [E|E]; [reflexivity|cbn [negb massert bind]].
  destruct (in_unit_halfopen (aga_elitism_rate q)) eqn:E2; [|reflexivity]; pose proof E2 as E2'; apply ratio_spec in E2'; cbn [massert bind].
  destruct (in_unit_closed (fst (aga_crossover_rate_range q))) eqn:E3; [|reflexivity]; apply rate_spec in E3; cbn [massert bind].
  destruct (in_unit_closed (snd (aga_crossover_rate_range q))) eqn:E4; [|reflexivity]; apply rate_spec in E4; cbn [massert bind].
  destruct (in_unit_closed (fst (aga_mutation_rate_range q))) eqn:E5; [|reflexivity]; apply rate_spec in E5; cbn [massert bind].
  destruct (in_unit_closed (snd (aga_mutation_rate_range q))) eqn:E6; [|reflexivity]; apply rate_spec in E6; cbn [massert bind].
  rewrite interpolate_is_bound by auto; cbn [bind].
  destruct (strategy_dec I (aga_selection_strategy q)) as [[A _]|[_ ->]]; [|reflexivity]; exfalso; apply H.
  split; [auto|]; split; [auto|]; split; [auto|]; split; [auto|]; split; [auto|]; split; auto.
Qed.

(** ** Elites *)
Lemma select_top_spec e p acc : exists rest top,
  individuals p = rest ++ top /\ length top = Nat.min e (length (individuals p)) /\ select_top e p acc = Ret (acc ++ top).
Proof.
  unfold select_top; destruct (Nat.eqb_spec e 0) as [->|He]; cbn [negb].
  - exists (individuals p), []; rewrite !app_nil_r; auto.
  - set (l := individuals p); exists (firstn (length l - e) l), (skipn (length l - e) l); split; [symmetry; apply firstn_skipn|].
    split; [rewrite skipn_length; lia|].
    rewrite slice_ok by lia; cbn [bind]; do 2 f_equal; apply firstn_all2; rewrite skipn_length; lia.
Qed.

Lemma top_are_best p rest top : sorted_by_fitness io (individuals p) -> individuals p = rest ++ top ->
  forall x y, In x top -> In y rest -> fle (fitness io y) (fitness io x) = true.
Proof.
  intros Hs E x y Hx Hy; apply In_nth_error in Hx as [j Hj]; apply In_nth_error in Hy as [i Hi].
  pose proof (nth_error_some_lt _ _ _ Hi) as Hlt.
  apply (Hs i (length rest + j)); [lia| |]; rewrite E.
  - rewrite nth_error_app1; auto.
  - rewrite nth_error_app2 by lia; rewrite <- Hj; f_equal; lia.
Qed.

(** ** generate_new_population *)
Definition appended (missing : nat) : nat := if missing =? 1 then 0 else missing.

Lemma generate_may ms b size p acc r :
  may (generate_new_population io fexp mdl ms (b, size) p acc) r ->
  exists news, r = acc ++ news /\ length news = appended (size - length acc) /\
    forall x, In x news -> may (breed io fexp mdl ms p b) x.
Proof.
  unfold generate_new_population, appended; destruct (size - length acc) as [|[|n]] eqn:E; intros H.
  - cbn in H; subst r; exists []; rewrite app_nil_r; repeat split; auto; cbn; tauto.
  - apply may_bind in H as (x & _ & H); cbn in H; subst r; exists []; rewrite app_nil_r; repeat split; auto; cbn; tauto.
  - apply may_bind in H as (news & Hn & H); cbn [may] in H; subst r; exists news; split; auto.
    apply may_repeatM in Hn as [Hl Hf]; split; [cbn [Nat.eqb]; auto|]; intros x Hx; eapply Forall_forall in Hf; eauto.
Qed.

Lemma generate_must ms b size p acc (Q : I -> Prop) :
  must (breed io fexp mdl ms p b) Q ->
  must (generate_new_population io fexp mdl ms (b, size) p acc) (fun r =>
    exists news, r = acc ++ news /\ length news = appended (size - length acc) /\ Forall Q news).
Proof.
  intros HQ; unfold generate_new_population, appended; destruct (size - length acc) as [|[|n]] eqn:E.
  - cbn; exists []; rewrite app_nil_r; auto.
  - eapply must_bind_intro; [exact HQ|]; intros x _; cbn; exists []; rewrite app_nil_r; auto.
  - eapply must_bind_intro; [apply must_repeatM; exact HQ|]; intros news [Hl Hf]; cbn [must]; exists news; cbn [Nat.eqb]; auto.
Qed.
End Alg.
