(** * PRename2: renamed genes, renamed cities (C114). *)
From Coq Require Import List Bool Arith NArith Lia.
From Flocq Require Import IEEE754.BinarySingleNaN.
From Verif Require Import Rnd LRnd F64 MStats MOperators MCrossover MMutation MPopulation MSelection MModel MAlgorithms
  Spec SpecO SpecT LAlike PIso PIso2 PRename.
Import ListNotations.

Lemma F2_graph {A B} (f : A -> B) l l' : Forall2 (fun a b => b = f a) l l' -> l' = map f l.
Proof. intros H; induction H; cbn; congruence. Qed.
Lemma graph_F2 {A B} (f : A -> B) l : Forall2 (fun a b => b = f a) l (map f l).
Proof. induction l; cbn; auto. Qed.

Section Names.
Context {G H : Type} (eqb ltb : G -> G -> bool) (eqb' ltb' : H -> H -> bool) (f : G -> H).
Hypothesis (Hf : forall a b, f a = f b -> a = b) (Heq : eq_ok eqb) (Heq' : eq_ok eqb').
Notation Q := (fun a b => b = f a).

Lemma names_eqb a b a' b' : Q a b -> Q a' b' -> eqb a a' = eqb' b b'.
Proof.
  assert (E1 : forall u v, eqb u v = true <-> u = v) by exact Heq.
  assert (E2 : forall u v, eqb' u v = true <-> u = v) by exact Heq'.
  intros -> ->; apply eq_true_iff_eq; rewrite E1, E2; split; [congruence|auto].
Qed.

Hypothesis (Hlt : lt_total ltb) (Hlt' : lt_total ltb').
Lemma names_crossover fuel cs p1 p2 :
  alike (fun r r' => r' = map f r) (crossover eqb ltb fuel cs p1 p2) (crossover eqb' ltb' fuel cs (map f p1) (map f p2)).
Proof.
  eapply alike_mono; [intros a b; apply F2_graph|].
  apply (rn_crossover eqb ltb eqb' ltb' Q names_eqb Heq Heq' Hlt Hlt'); apply graph_F2.
Qed.
Lemma names_partitions p1 p2 :
  alike (fun r r' => r' = map (map f) r) (common_partitions eqb ltb p1 p2) (common_partitions eqb' ltb' (map f p1) (map f p2)).
Proof.
  eapply alike_mono; [|apply (rn_partitions eqb ltb eqb' ltb' Q names_eqb Heq Heq' Hlt Hlt'); apply graph_F2].
  intros a b Hab; apply F2_graph; induction Hab; auto; constructor; auto; apply F2_graph; auto.
Qed.
Lemma names_gpx2 {S0} (sel : S0 -> option G -> list (list G) -> M (nat * S0)) (sel' : S0 -> option H -> list (list H) -> M (nat * S0)) s p1 p2 :
  (forall s o ps, alike eq (sel s o ps) (sel' s (option_map f o) (map (map f) ps))) ->
  alike (fun r r' => r' = map f r) (generalized_partition_2_crossover eqb ltb p1 p2 sel s)
    (generalized_partition_2_crossover eqb' ltb' (map f p1) (map f p2) sel' s).
Proof.
  intros Hsel; eapply alike_mono; [intros a b; apply F2_graph|].
  apply (rn_gpx2 eqb ltb eqb' ltb' Q names_eqb Heq Heq' Hlt Hlt'); [|apply graph_F2..].
  intros s1 o o' ps ps' Ho Hps.
  assert (Eo : o' = option_map f o) by (destruct o, o'; cbn in *; try contradiction; congruence).
  assert (Ep : ps' = map (map f) ps) by (apply F2_graph; induction Hps; auto; constructor; auto; apply F2_graph; auto).
  subst; apply Hsel.
Qed.

(** ** Tours *)
Variables (steps : nat) (cs : crossover_strategy) (mu : mutation_strategy) (score : list G -> f64) (score' : list H -> f64).
Hypothesis (Hsc : forall r, score' (map f r) = score r).
Notation renamed := (renamed f).

Lemma names_route_eqb a b : route_eqb eqb a b = route_eqb eqb' (map f a) (map f b).
Proof. revert b; induction a as [|x a IH]; intros [|y b]; cbn; auto; rewrite (names_eqb x (f x) y (f y)), IH; auto. Qed.
Lemma names_order : same_order (tour_ops eqb) (tour_ops eqb') renamed.
Proof.
  split; [|split]; cbn.
  - intros a b [_ E]; unfold default_is_valid; rewrite E; reflexivity.
  - intros a b a' b' [E1 E2] [E3 E4]; rewrite E1, E2, E3, E4, names_route_eqb; reflexivity.
  - intros a b a' b' [_ E2] [_ E4]; rewrite E2, E4; reflexivity.
Qed.
Lemma names_fitness : same_fitness (tour_ops eqb) (tour_ops eqb') renamed.
Proof. intros a b [_ E]; cbn; auto. Qed.
Lemma names_models : models_alike renamed (tour_model eqb ltb steps cs mu score) (tour_model eqb' ltb' steps cs mu score').
Proof.
  split; [|split; [|split; [|split; [|split; [|split]]]]]; cbn [tour_model m_crossover m_mutate m_improve m_evaluate m_can_survive m_pre_generation].
  - intros ms a b a' b' [E1 E2] [E3 E4]; rewrite E1, E3; eapply alike_bind; [apply names_crossover|]; intros r r' ->; cbn; split; auto.
  - intros ms a b [E1 E2]; rewrite E1; eapply (alike_bind (Forall2 Q)); [apply rn_mutate, graph_F2|]; intros r r' Hr; split; cbn; auto; apply F2_graph; auto.
  - intros ms a b Hab; exact Hab.
  - intros ms a b [E1 E2]; split; cbn; auto; rewrite E1; apply Hsc.
  - intros ms x y a b p q [_ E1] [_ E2] _; cbn; rewrite E1, E2; reflexivity.
  - reflexivity.
  - reflexivity.
Qed.

Context {PS : Type} (fexp : f64 -> f64) (c : PS -> population (tour G) -> M (bool * PS)) (d : PS -> population (tour H) -> M (bool * PS)).
Hypothesis (Hcd : forall ps p q, full_twins renamed p q -> alike eq (c ps p) (d ps q)).
Notation mdl := (tour_model eqb ltb steps cs mu score).
Notation ndl := (tour_model eqb' ltb' steps cs mu score').

Lemma names_ga q fuel (s : ga_state (tour G) unit) (t : ga_state (tour H) unit) init init' ps : Forall2 renamed init init' ->
  alike (twin_runs (full_twins renamed)) (evolve_population (tour_ops eqb) fexp mdl (ga_algorithm (tour_ops eqb) fexp mdl) (quiet c) fuel s init q ps)
    (evolve_population (tour_ops eqb') fexp ndl (ga_algorithm (tour_ops eqb') fexp ndl) (quiet d) fuel t init' q ps).
Proof.
  intros Hi; apply (full_ga_evolve _ _ renamed fexp _ _ _ _ names_order names_models names_fitness Hcd); auto; destruct (ga_model s), (ga_model t); reflexivity.
Qed.
Lemma names_aga q fuel (s : aga_state (tour G) unit) (t : aga_state (tour H) unit) init init' ps : same_aga_start s t -> Forall2 renamed init init' ->
  alike (twin_runs (full_twins renamed)) (evolve_population (tour_ops eqb) fexp mdl (aga_algorithm (tour_ops eqb) fexp mdl) (quiet c) fuel s init q ps)
    (evolve_population (tour_ops eqb') fexp ndl (aga_algorithm (tour_ops eqb') fexp ndl) (quiet d) fuel t init' q ps).
Proof.
  intros Hs Hi; apply (full_aga_evolve _ _ renamed fexp _ _ _ _ names_order names_models names_fitness Hcd); auto.
Qed.
Lemma names_ga_run q fuel (s : ga_state (tour G) unit) (t : ga_state (tour H) unit) nr nr' ps : alike renamed nr nr' ->
  alike (twin_results renamed (full_twins renamed)) (evolution_run (tour_ops eqb) fexp mdl (ga_algorithm (tour_ops eqb) fexp mdl) (quiet c) fuel s nr q ps)
    (evolution_run (tour_ops eqb') fexp ndl (ga_algorithm (tour_ops eqb') fexp ndl) (quiet d) fuel t nr' q ps).
Proof.
  intros Hi; apply (full_ga_run _ _ renamed fexp _ _ _ _ names_order names_models names_fitness Hcd); auto; destruct (ga_model s), (ga_model t); reflexivity.
Qed.
Lemma names_ga_individual q fuel (s : ga_state (tour G) unit) (t : ga_state (tour H) unit) x y ps : renamed x y ->
  alike (twin_results renamed (full_twins renamed)) (evolve_individual (tour_ops eqb) fexp mdl (ga_algorithm (tour_ops eqb) fexp mdl) (quiet c) fuel s x q ps)
    (evolve_individual (tour_ops eqb') fexp ndl (ga_algorithm (tour_ops eqb') fexp ndl) (quiet d) fuel t y q ps).
Proof.
  intros Hi; apply (full_ga_individual _ _ renamed fexp _ _ _ _ names_order names_models names_fitness Hcd); auto; destruct (ga_model s), (ga_model t); reflexivity.
Qed.
End Names.

Lemma names_mutation {G H} (f : G -> H) s g : alike (fun r r' => r' = map f r) (mutate s g) (mutate s (map f g)).
Proof. eapply alike_mono; [intros a b; apply F2_graph|]; apply rn_mutate, graph_F2. Qed.

(** A gene type none of whose values are comparable *)
Lemma partial_order : exists (ltb : nat -> nat -> bool) (p1 p2 : list nat),
  ~ alike eq (common_partitions Nat.eqb Nat.ltb p1 p2) (common_partitions Nat.eqb ltb p1 p2).
Proof. exists (fun _ _ => false), [1; 2; 3], [3; 2; 1]; vm_compute; discriminate. Qed.
Lemma c114_example :
  eq_ok Nat.eqb /\ lt_total Nat.ltb /\ lt_total (fun a b => b <? a) /\
  run (crossover Nat.eqb Nat.ltb 9 GeneralizedPartition2 [1; 2; 3; 4; 5; 6] [2; 1; 4; 3; 6; 5]) [2; 1]%N = Some [5; 6; 3; 4; 1; 2] /\
  run (crossover Nat.eqb (fun a b => b <? a) 9 GeneralizedPartition2 [11; 12; 13; 14; 15; 16] [12; 11; 14; 13; 16; 15]) [2; 1]%N = Some [15; 16; 13; 14; 11; 12] /\
  (forall score : list nat -> f64, exists score', forall r, score' (map (Nat.add 10) r) = score r).
Proof.
  split; [intros a b; apply Nat.eqb_eq|].
  assert (E : lt_total Nat.ltb).
  { intros a b Hab; destruct (a <? b) eqn:E1, (b <? a) eqn:E2; auto; [apply Nat.ltb_lt in E1, E2; lia|apply Nat.ltb_ge in E1, E2; lia]. }
  split; [exact E|]; split; [intros a b Hab; apply E; auto|].
  split; [vm_compute; reflexivity|]; split; [vm_compute; reflexivity|].
  intros score; exists (fun r => score (map (fun x => x - 10) r)); intros r; f_equal.
  rewrite map_map; rewrite <- (map_id r) at 2; apply map_ext; intros a; lia.
Qed.
