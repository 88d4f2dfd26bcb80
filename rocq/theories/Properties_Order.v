(** * Properties_Order: what runs depend on (C113). *)
From Coq Require Import List Bool Arith NArith Reals.
From Verif Require Import Rnd Prob F64 MStats MPopulation MSelection MModel MAlgorithms SpecO ExO PIso2 PIso3.
Import ListNotations.

(** What [alike] says about two programs: the results, failures and probabilities agree. *)
Theorem C113_alike :
  forall {A B} (R : A -> B -> Prop) (m : M A) (m' : M B), alike R m m' ->
  (forall a, may m a -> exists b, R a b /\ may m' b) /\ (forall b, may m' b -> exists a, R a b /\ may m a) /\
  (forall e, may_fail m e <-> may_fail m' e) /\
  (forall P P', (forall a b, R a b -> P a = P' b) -> prob m P = prob m' P').
Proof. exact @alike_means. Qed.
Print Assumptions C113_alike.

(** C113: with a strategy that goes by rank, the GA runs alike on two models whose
    operations do the same and whose fitness values are ordered the same. *)
Theorem C113_ga_order :
  forall {I J MS PS : Type} (io : individual_ops I) (jo : individual_ops J) (R : I -> J -> Prop) (fexp : f64 -> f64)
    (mdl : model I MS) (ndl : model J MS) (f : PS -> population I -> M (bool * PS)) (g : PS -> population J -> M (bool * PS)),
  same_order io jo R -> models_alike R mdl ndl -> (forall ps p q, twins R p q -> alike eq (f ps p) (g ps q)) ->
  forall q fuel s t init init' ps, by_rank (ga_selection_strategy q) -> ga_model s = ga_model t -> Forall2 R init init' ->
  alike (twin_runs (twins R)) (evolve_population io fexp mdl (ga_algorithm io fexp mdl) (quiet f) fuel s init q ps)
    (evolve_population jo fexp ndl (ga_algorithm jo fexp ndl) (quiet g) fuel t init' q ps).
Proof. exact @order_ga_evolve. Qed.
Print Assumptions C113_ga_order.
Theorem C113_ga_order_run :
  forall {I J MS PS : Type} (io : individual_ops I) (jo : individual_ops J) (R : I -> J -> Prop) (fexp : f64 -> f64)
    (mdl : model I MS) (ndl : model J MS) (f : PS -> population I -> M (bool * PS)) (g : PS -> population J -> M (bool * PS)),
  same_order io jo R -> models_alike R mdl ndl -> (forall ps p q, twins R p q -> alike eq (f ps p) (g ps q)) ->
  forall q fuel s t new_random new_random' ps, by_rank (ga_selection_strategy q) -> ga_model s = ga_model t -> alike R new_random new_random' ->
  alike (twin_results R (twins R)) (evolution_run io fexp mdl (ga_algorithm io fexp mdl) (quiet f) fuel s new_random q ps)
    (evolution_run jo fexp ndl (ga_algorithm jo fexp ndl) (quiet g) fuel t new_random' q ps).
Proof. exact @order_ga_run. Qed.
Print Assumptions C113_ga_order_run.
Theorem C113_ga_order_individual :
  forall {I J MS PS : Type} (io : individual_ops I) (jo : individual_ops J) (R : I -> J -> Prop) (fexp : f64 -> f64)
    (mdl : model I MS) (ndl : model J MS) (f : PS -> population I -> M (bool * PS)) (g : PS -> population J -> M (bool * PS)),
  same_order io jo R -> models_alike R mdl ndl -> (forall ps p q, twins R p q -> alike eq (f ps p) (g ps q)) ->
  forall q fuel s t x y ps, by_rank (ga_selection_strategy q) -> ga_model s = ga_model t -> R x y ->
  alike (twin_results R (twins R)) (evolve_individual io fexp mdl (ga_algorithm io fexp mdl) (quiet f) fuel s x q ps)
    (evolve_individual jo fexp ndl (ga_algorithm jo fexp ndl) (quiet g) fuel t y q ps).
Proof. exact @order_ga_individual. Qed.
Print Assumptions C113_ga_order_individual.
(** So does the adaptive GA if it never adjusts its rates (interval 0), whatever a former
    run has left in it. *)
Theorem C113_aga_order :
  forall {I J MS PS : Type} (io : individual_ops I) (jo : individual_ops J) (R : I -> J -> Prop) (fexp : f64 -> f64)
    (mdl : model I MS) (ndl : model J MS) (f : PS -> population I -> M (bool * PS)) (g : PS -> population J -> M (bool * PS)),
  same_order io jo R -> models_alike R mdl ndl -> (forall ps p q, twins R p q -> alike eq (f ps p) (g ps q)) ->
  forall q fuel s t init init' ps, by_rank (aga_selection_strategy q) -> aga_parameter_adjustment_interval q = 0 ->
  aga_model s = aga_model t -> Forall2 R init init' ->
  alike (twin_runs (twins R)) (evolve_population io fexp mdl (aga_algorithm io fexp mdl) (quiet f) fuel s init q ps)
    (evolve_population jo fexp ndl (aga_algorithm jo fexp ndl) (quiet g) fuel t init' q ps).
Proof. exact @any_order_evolve. Qed.
Print Assumptions C113_aga_order.
Theorem C113_aga_order_run :
  forall {I J MS PS : Type} (io : individual_ops I) (jo : individual_ops J) (R : I -> J -> Prop) (fexp : f64 -> f64)
    (mdl : model I MS) (ndl : model J MS) (f : PS -> population I -> M (bool * PS)) (g : PS -> population J -> M (bool * PS)),
  same_order io jo R -> models_alike R mdl ndl -> (forall ps p q, twins R p q -> alike eq (f ps p) (g ps q)) ->
  forall q fuel s t new_random new_random' ps, by_rank (aga_selection_strategy q) -> aga_parameter_adjustment_interval q = 0 ->
  aga_model s = aga_model t -> alike R new_random new_random' ->
  alike (twin_results R (twins R)) (evolution_run io fexp mdl (aga_algorithm io fexp mdl) (quiet f) fuel s new_random q ps)
    (evolution_run jo fexp ndl (aga_algorithm jo fexp ndl) (quiet g) fuel t new_random' q ps).
Proof. exact @any_order_run. Qed.
Print Assumptions C113_aga_order_run.
Theorem C113_aga_order_individual :
  forall {I J MS PS : Type} (io : individual_ops I) (jo : individual_ops J) (R : I -> J -> Prop) (fexp : f64 -> f64)
    (mdl : model I MS) (ndl : model J MS) (f : PS -> population I -> M (bool * PS)) (g : PS -> population J -> M (bool * PS)),
  same_order io jo R -> models_alike R mdl ndl -> (forall ps p q, twins R p q -> alike eq (f ps p) (g ps q)) ->
  forall q fuel s t x y ps, by_rank (aga_selection_strategy q) -> aga_parameter_adjustment_interval q = 0 ->
  aga_model s = aga_model t -> R x y ->
  alike (twin_results R (twins R)) (evolve_individual io fexp mdl (aga_algorithm io fexp mdl) (quiet f) fuel s x q ps)
    (evolve_individual jo fexp ndl (aga_algorithm jo fexp ndl) (quiet g) fuel t y q ps).
Proof. exact @any_order_individual. Qed.
Print Assumptions C113_aga_order_individual.
(** The default methods of a model meet what [models_alike] asks for. *)
Theorem C113_default_methods :
  forall {I J MS : Type} (io : individual_ops I) (jo : individual_ops J) (R : I -> J -> Prop),
  same_order io jo R -> forall ms : MS,
  (forall x y a b p q, R x y -> R a b -> alike eq (default_can_survive io ms x a p) (default_can_survive jo ms y b q)) /\
  (forall a b, R a b -> alike R (default_improve ms a) (default_improve ms b)) /\
  (forall (p : population I) br, default_pre_generation ms p br = Ret (ms, br)).
Proof. exact @defaults_alike. Qed.
Print Assumptions C113_default_methods.
Example C113_example :
  same_order narrow wide eq /\ ~ same_fitness narrow wide eq /\ models_alike eq (size_model narrow) (size_model wide) /\
  (forall fexp st g, by_rank st -> alike (twin_runs (twins eq)) (size_ga narrow fexp st g) (size_ga wide fexp st g)) /\
  (forall fexp st g, by_rank st -> alike (twin_runs (twins eq)) (size_aga narrow fexp st 0 g) (size_aga wide fexp st 0 g)).
Proof. exact c113_example. Qed.
(** With a strategy that weighs fitness values, or with adjusted rates, the order is not
    enough: the same draws can give another population. *)
Theorem C113_order_refuted :
  exists (io jo : individual_ops comparison) (mdl ndl : model comparison unit) (fexp : f64 -> f64) (g : nat) (init : list comparison) (q : ga_params),
  same_order io jo eq /\ models_alike eq mdl ndl /\ ga_selection_strategy q = StRouletteWheel /\
  ~ alike (twin_runs (twins eq))
      (evolve_population io fexp mdl (ga_algorithm io fexp mdl) (quiet (fun (_ : unit) p => Ret (generation p <? g, tt))) (S g) (ga_from tt) init q tt)
      (evolve_population jo fexp ndl (ga_algorithm jo fexp ndl) (quiet (fun (_ : unit) p => Ret (generation p <? g, tt))) (S g) (ga_from tt) init q tt).
Proof. exact wheel_refuted. Qed.
Print Assumptions C113_order_refuted.
Theorem C113_boltzmann_order_refuted :
  exists (io jo : individual_ops comparison) (mdl ndl : model comparison unit) (fexp : f64 -> f64) (g : nat) (init : list comparison) (q : ga_params),
  same_order io jo eq /\ models_alike eq mdl ndl /\ ga_selection_strategy q = StBoltzmann f1 f1 /\
  ~ alike (twin_runs (twins eq))
      (evolve_population io fexp mdl (ga_algorithm io fexp mdl) (quiet (fun (_ : unit) p => Ret (generation p <? g, tt))) (S g) (ga_from tt) init q tt)
      (evolve_population jo fexp ndl (ga_algorithm jo fexp ndl) (quiet (fun (_ : unit) p => Ret (generation p <? g, tt))) (S g) (ga_from tt) init q tt).
Proof. exact boltzmann_refuted. Qed.
Print Assumptions C113_boltzmann_order_refuted.
Theorem C113_aga_order_refuted :
  exists (io jo : individual_ops comparison) (mdl ndl : model comparison unit) (g : nat) (init : list comparison) (q : aga_params),
  same_order io jo eq /\ models_alike eq mdl ndl /\ by_rank (aga_selection_strategy q) /\ forall fexp,
  ~ alike (twin_runs (twins eq))
      (evolve_population io fexp mdl (aga_algorithm io fexp mdl) (quiet (fun (_ : unit) p => Ret (generation p <? g, tt))) (S g) (aga_from tt) init q tt)
      (evolve_population jo fexp ndl (aga_algorithm jo fexp ndl) (quiet (fun (_ : unit) p => Ret (generation p <? g, tt))) (S g) (aga_from tt) init q tt).
Proof. exact rates_refuted. Qed.
Print Assumptions C113_aga_order_refuted.

(** If the fitness values are the same, every strategy and every adjustment runs alike,
    and the closures may look at the statistics as well. *)
Theorem C113_ga_same_fitness :
  forall {I J MS PS : Type} (io : individual_ops I) (jo : individual_ops J) (R : I -> J -> Prop) (fexp : f64 -> f64)
    (mdl : model I MS) (ndl : model J MS) (f : PS -> population I -> M (bool * PS)) (g : PS -> population J -> M (bool * PS)),
  same_order io jo R -> models_alike R mdl ndl -> same_fitness io jo R -> (forall ps p q, full_twins R p q -> alike eq (f ps p) (g ps q)) ->
  forall q fuel s t init init' ps, ga_model s = ga_model t -> Forall2 R init init' ->
  alike (twin_runs (full_twins R)) (evolve_population io fexp mdl (ga_algorithm io fexp mdl) (quiet f) fuel s init q ps)
    (evolve_population jo fexp ndl (ga_algorithm jo fexp ndl) (quiet g) fuel t init' q ps).
Proof. exact @full_ga_evolve. Qed.
Print Assumptions C113_ga_same_fitness.
Theorem C113_aga_same_fitness :
  forall {I J MS PS : Type} (io : individual_ops I) (jo : individual_ops J) (R : I -> J -> Prop) (fexp : f64 -> f64)
    (mdl : model I MS) (ndl : model J MS) (f : PS -> population I -> M (bool * PS)) (g : PS -> population J -> M (bool * PS)),
  same_order io jo R -> models_alike R mdl ndl -> same_fitness io jo R -> (forall ps p q, full_twins R p q -> alike eq (f ps p) (g ps q)) ->
  forall q fuel s t init init' ps, aga_model s = aga_model t -> Forall2 R init init' ->
  alike (twin_runs (full_twins R)) (evolve_population io fexp mdl (aga_algorithm io fexp mdl) (quiet f) fuel s init q ps)
    (evolve_population jo fexp ndl (aga_algorithm jo fexp ndl) (quiet g) fuel t init' q ps).
Proof. exact @any_full_evolve. Qed.
Print Assumptions C113_aga_same_fitness.
Theorem C113_aga_same_fitness_run :
  forall {I J MS PS : Type} (io : individual_ops I) (jo : individual_ops J) (R : I -> J -> Prop) (fexp : f64 -> f64)
    (mdl : model I MS) (ndl : model J MS) (f : PS -> population I -> M (bool * PS)) (g : PS -> population J -> M (bool * PS)),
  same_order io jo R -> models_alike R mdl ndl -> same_fitness io jo R -> (forall ps p q, full_twins R p q -> alike eq (f ps p) (g ps q)) ->
  forall q fuel s t new_random new_random' ps, aga_model s = aga_model t -> alike R new_random new_random' ->
  alike (twin_results R (full_twins R)) (evolution_run io fexp mdl (aga_algorithm io fexp mdl) (quiet f) fuel s new_random q ps)
    (evolution_run jo fexp ndl (aga_algorithm jo fexp ndl) (quiet g) fuel t new_random' q ps).
Proof. exact @any_full_run. Qed.
Print Assumptions C113_aga_same_fitness_run.
Theorem C113_aga_same_fitness_individual :
  forall {I J MS PS : Type} (io : individual_ops I) (jo : individual_ops J) (R : I -> J -> Prop) (fexp : f64 -> f64)
    (mdl : model I MS) (ndl : model J MS) (f : PS -> population I -> M (bool * PS)) (g : PS -> population J -> M (bool * PS)),
  same_order io jo R -> models_alike R mdl ndl -> same_fitness io jo R -> (forall ps p q, full_twins R p q -> alike eq (f ps p) (g ps q)) ->
  forall q fuel s t x y ps, aga_model s = aga_model t -> R x y ->
  alike (twin_results R (full_twins R)) (evolve_individual io fexp mdl (aga_algorithm io fexp mdl) (quiet f) fuel s x q ps)
    (evolve_individual jo fexp ndl (aga_algorithm jo fexp ndl) (quiet g) fuel t y q ps).
Proof. exact @any_full_individual. Qed.
Print Assumptions C113_aga_same_fitness_individual.
