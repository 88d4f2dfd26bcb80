(** * Properties_Run: C59, C62-C67. *)
From Coq Require Import List Bool Arith NArith ZArith Reals Lia Lra.
From Flocq Require Import Core BinarySingleNaN.
From Verif Require Import Rnd LRnd F64 MStats MPopulation MSelection MModel MAlgorithms SpecF SpecA ExF ExM ExR
  PRun3 PRun4 PRun5.
Import ListNotations.
Local Open Scope nat_scope.

(** C59: with population_size 1 a run whose progress closure does not answer false
    for generation 0 gives no result ... *)
Theorem C59_ga_no_result :
forall (I : Type) (io : individual_ops I) (fexp : f64 -> f64) (MS : Type) (mdl : model I MS) (PS : Type)
  (f : PS -> population I -> M (bool * PS)) (fuel : nat) (s : ga_state I MS) (init : list I) (q : ga_params) (ps : PS)
  (r : run_result I (ga_state I MS) PS),
  ga_population_size q = 1 ->
  (forall ps' p, generation p = 0 -> ~ may (f ps p) (false, ps')) ->
  ~ may (evolve_population io fexp mdl (ga_algorithm io fexp mdl) (quiet f) fuel s init q ps) r.
Proof. exact @ga_one_none. Qed.
Print Assumptions C59_ga_no_result.
Theorem C59_aga_no_result :
forall (I : Type) (io : individual_ops I) (fexp : f64 -> f64) (MS : Type) (mdl : model I MS) (PS : Type)
  (f : PS -> population I -> M (bool * PS)) (fuel : nat) (s : aga_state I MS) (init : list I) (q : aga_params) (ps : PS)
  (r : run_result I (aga_state I MS) PS),
  aga_population_size q = 1 ->
  (forall ps' p, generation p = 0 -> ~ may (f ps p) (false, ps')) ->
  ~ may (evolve_population io fexp mdl (aga_algorithm io fexp mdl) (quiet f) fuel s init q ps) r.
Proof. exact @aga_one_none. Qed.
Print Assumptions C59_aga_no_result.
(** ... and, when nothing else can go wrong, it panics in its first iteration. *)
Theorem C59_ga_panics :
forall (I : Type) (io : individual_ops I) (fexp : f64 -> f64) (MS : Type) (mdl : model I MS) (PS : Type)
  (G : I -> Prop) (f : PS -> population I -> M (bool * PS)) (fuel : nat) (s : ga_state I MS) (init : list I) (q : ga_params) (ps : PS),
  ga_accepted q -> ga_population_size q = 1 -> fits_usize (length init) ->
  robust_strategy (ga_selection_strategy q) -> total_model mdl G -> startable io mdl G (ga_model s) init ->
  (forall p, generation p = 0 -> must (f ps p) (fun o => fst o = true)) ->
  must_fail (evolve_population io fexp mdl (ga_algorithm io fexp mdl) (quiet f) (S fuel) s init q ps) Panic.
Proof. exact @ga_one_panics. Qed.
Print Assumptions C59_ga_panics.
Theorem C59_aga_panics :
forall (I : Type) (io : individual_ops I) (fexp : f64 -> f64) (MS : Type) (mdl : model I MS) (PS : Type)
  (G : I -> Prop) (f : PS -> population I -> M (bool * PS)) (fuel : nat) (s : aga_state I MS) (init : list I) (q : aga_params) (ps : PS),
  aga_accepted q -> aga_population_size q = 1 -> fits_usize (length init) ->
  robust_strategy (aga_selection_strategy q) -> total_model mdl G -> startable io mdl G (aga_model s) init ->
  (forall p, generation p = 0 -> must (f ps p) (fun o => fst o = true)) ->
  must_fail (evolve_population io fexp mdl (aga_algorithm io fexp mdl) (quiet f) (S fuel) s init q ps) Panic.
Proof. exact @aga_one_panics. Qed.
Print Assumptions C59_aga_panics.
Example C59_example : ga_accepted (ex_ga 1) /\ robust_strategy (ga_selection_strategy (ex_ga 1)) /\
  total_model ex_model (fun _ => True) /\ startable ex_io ex_model (fun _ => True) tt [0; 5] /\
  forall p : population nat, generation p = 0 -> must (stop_at 3 tt p) (fun o => fst o = true).
Proof. exact c59_example. Qed.

(** C62: what a run does and returns depends on the Evolution value only through
    the model: for the genetic algorithm the executions are equal ... *)
Theorem C62_ga_independent :
forall (I : Type) (io : individual_ops I) (fexp : f64 -> f64) (MS : Type) (mdl : model I MS) (PS : Type)
  (progress : PS -> ga_state I MS -> population I -> M (bool * PS * ga_state I MS)) (fuel : nat) (s s' : ga_state I MS)
  (init : list I) (nr : M I) (seed : I) (q : ga_params) (ps : PS),
  ga_model s = ga_model s' ->
  evolve_population io fexp mdl (ga_algorithm io fexp mdl) progress fuel s init q ps =
  evolve_population io fexp mdl (ga_algorithm io fexp mdl) progress fuel s' init q ps /\
  evolution_run io fexp mdl (ga_algorithm io fexp mdl) progress fuel s nr q ps =
  evolution_run io fexp mdl (ga_algorithm io fexp mdl) progress fuel s' nr q ps /\
  evolve_individual io fexp mdl (ga_algorithm io fexp mdl) progress fuel s seed q ps =
  evolve_individual io fexp mdl (ga_algorithm io fexp mdl) progress fuel s' seed q ps.
Proof. exact @ga_independent. Qed.
Print Assumptions C62_ga_independent.
(** ... and for the adaptive one, which keeps its old rates until the first
    population, they are equal in all that the caller sees. *)
Theorem C62_aga_independent :
forall (I : Type) (io : individual_ops I) (fexp : f64 -> f64) (MS : Type) (mdl : model I MS) (PS : Type)
  (f : PS -> population I -> M (bool * PS)) (fuel : nat) (s s' : aga_state I MS) (init : list I) (q : aga_params) (ps : PS),
  aga_model s = aga_model s' ->
  same_behaviour (observed (evolve_population io fexp mdl (aga_algorithm io fexp mdl) (quiet f) fuel s init q ps))
                 (observed (evolve_population io fexp mdl (aga_algorithm io fexp mdl) (quiet f) fuel s' init q ps)).
Proof. exact @aga_independent. Qed.
Print Assumptions C62_aga_independent.
Theorem C62_aga_independent_runs :
forall (I : Type) (io : individual_ops I) (fexp : f64 -> f64) (MS : Type) (mdl : model I MS) (PS : Type)
  (f : PS -> population I -> M (bool * PS)) (fuel : nat) (s s' : aga_state I MS) (nr : M I) (seed : I) (q : aga_params) (ps : PS),
  aga_model s = aga_model s' ->
  same_behaviour (observed_pair (evolution_run io fexp mdl (aga_algorithm io fexp mdl) (quiet f) fuel s nr q ps))
                 (observed_pair (evolution_run io fexp mdl (aga_algorithm io fexp mdl) (quiet f) fuel s' nr q ps)) /\
  same_behaviour (observed_pair (evolve_individual io fexp mdl (aga_algorithm io fexp mdl) (quiet f) fuel s seed q ps))
                 (observed_pair (evolve_individual io fexp mdl (aga_algorithm io fexp mdl) (quiet f) fuel s' seed q ps)).
Proof. exact @aga_independent_runs. Qed.
Print Assumptions C62_aga_independent_runs.
(** A used value and a fresh one with the same model *)
Example C62_example : aga_model ex_used = aga_model (aga_from (I := nat) tt) /\
  aga_size ex_used <> aga_size (aga_from (I := nat) tt) /\
  is_nan (mutation_rate (aga_breeding ex_used)) = true.
Proof. repeat split; discriminate. Qed.

(** C63: the populations shown have the generations 0, 1, 2, ... and the last
    one shown is the one returned ... *)
Theorem C63_generations :
  forall (I MS P S0 PS : Type) (io : individual_ops I) (fexp : f64 -> f64) (mdl : model I MS) (alg : algorithm I MS P S0)
  (progress : PS -> S0 -> population I -> M (bool * PS * S0)) (fuel : nat) (s : S0) (init : list I) (q : P) (ps : PS)
  (r : run_result I S0 PS),
  may (evolve_population io fexp mdl alg progress fuel s init q ps) r ->
  (forall k p, nth_error (r_trace r) k = Some p -> generation p = k) /\
  r_trace r <> [] /\ nth_error (r_trace r) (length (r_trace r) - 1) = Some (r_population r).
Proof. exact @c63_generations. Qed.
Print Assumptions C63_generations.
(** ... the closure answers true for all of them but the last and false for the
    last ... *)
Theorem C63_answers :
  forall (I MS P S0 PS : Type) (io : individual_ops I) (fexp : f64 -> f64) (mdl : model I MS) (alg : algorithm I MS P S0)
  (f : PS -> population I -> M (bool * PS)) (fuel : nat) (s : S0) (init : list I) (q : P) (ps : PS)
  (r : run_result I S0 PS),
  may (evolve_population io fexp mdl alg (quiet f) fuel s init q ps) r -> asked f ps (r_trace r) (r_progress r).
Proof. exact @c63_answers. Qed.
Print Assumptions C63_answers.
(** ... and a larger bound on the iterations of the model loses no result. *)
Theorem C63_fuel :
  forall (I MS P S0 PS : Type) (io : individual_ops I) (fexp : f64 -> f64) (mdl : model I MS) (alg : algorithm I MS P S0)
  (progress : PS -> S0 -> population I -> M (bool * PS * S0)) (fuel fuel' : nat) (s : S0) (init : list I) (q : P) (ps : PS)
  (r : run_result I S0 PS), fuel <= fuel' ->
  may (evolve_population io fexp mdl alg progress fuel s init q ps) r ->
  may (evolve_population io fexp mdl alg progress fuel' s init q ps) r.
Proof. exact @c63_fuel. Qed.
Print Assumptions C63_fuel.
(** Three populations are shown: 1 and 9 at random, then elites and children. *)
Example C63_example : exists x r, may (ex_run 2) (x, r) /\ map (@generation nat) (r_trace r) = [0; 1; 2].
Proof. exact ex_run_possible. Qed.

(** C64: every population shown is non-empty, sorted, of valid individuals, with
    matching statistics, and not too large. *)
Theorem C64_ga_populations :
forall (I : Type) (io : individual_ops I) (fexp : f64 -> f64) (MS : Type) (mdl : model I MS) (PS : Type)
  (f : PS -> population I -> M (bool * PS)) (fuel : nat) (s : ga_state I MS) (init : list I) (q : ga_params) (ps : PS)
  (r : run_result I (ga_state I MS) PS),
  selector_left_alone mdl -> valid_is_number io -> fits_usize (ga_population_size q) -> fits_usize (length init) ->
  may (evolve_population io fexp mdl (ga_algorithm io fexp mdl) (quiet f) fuel s init q ps) r ->
  good_trace io (ga_population_size q) (r_trace r).
Proof. exact @ga_good. Qed.
Print Assumptions C64_ga_populations.
Theorem C64_aga_populations :
forall (I : Type) (io : individual_ops I) (fexp : f64 -> f64) (MS : Type) (mdl : model I MS) (PS : Type)
  (f : PS -> population I -> M (bool * PS)) (fuel : nat) (s : aga_state I MS) (init : list I) (q : aga_params) (ps : PS)
  (r : run_result I (aga_state I MS) PS),
  selector_left_alone mdl -> valid_is_number io -> fits_usize (aga_population_size q) -> fits_usize (length init) ->
  may (evolve_population io fexp mdl (aga_algorithm io fexp mdl) (quiet f) fuel s init q ps) r ->
  good_trace io (aga_population_size q) (r_trace r).
Proof. exact @aga_good. Qed.
Print Assumptions C64_aga_populations.
Example C64_example : selector_left_alone ex_model /\ valid_is_number ex_io /\ equal_means_equal_fitness ex_io.
Proof. exact c64_example. Qed.

(** C65: with room for at least one elite, run returns an individual at least as fit
    as everything shown during the run. *)
Theorem C65_ga_best :
forall (I : Type) (io : individual_ops I) (fexp : f64 -> f64) (MS : Type) (mdl : model I MS) (PS : Type)
  (f : PS -> population I -> M (bool * PS)) (fuel : nat) (s : ga_state I MS) (nr : M I) (q : ga_params) (ps : PS)
  (x : I) (r : run_result I (ga_state I MS) PS),
  selector_left_alone mdl -> valid_is_number io -> equal_means_equal_fitness io ->
  (Z.of_nat (ga_population_size q) <= 2 ^ 53)%Z -> (1 <= INR (ga_population_size q) * B2R (ga_elitism_rate q))%R ->
  may (evolution_run io fexp mdl (ga_algorithm io fexp mdl) (quiet f) fuel s nr q ps) (x, r) ->
  In x (individuals (r_population r)) /\
  forall p y, In p (r_trace r) -> In y (individuals p) -> fle (fitness io y) (fitness io x) = true.
Proof. exact @ga_run_best. Qed.
Print Assumptions C65_ga_best.
Theorem C65_aga_best :
forall (I : Type) (io : individual_ops I) (fexp : f64 -> f64) (MS : Type) (mdl : model I MS) (PS : Type)
  (f : PS -> population I -> M (bool * PS)) (fuel : nat) (s : aga_state I MS) (nr : M I) (q : aga_params) (ps : PS)
  (x : I) (r : run_result I (aga_state I MS) PS),
  selector_left_alone mdl -> valid_is_number io -> equal_means_equal_fitness io ->
  (Z.of_nat (aga_population_size q) <= 2 ^ 53)%Z -> (1 <= INR (aga_population_size q) * B2R (aga_elitism_rate q))%R ->
  may (evolution_run io fexp mdl (aga_algorithm io fexp mdl) (quiet f) fuel s nr q ps) (x, r) ->
  In x (individuals (r_population r)) /\
  forall p y, In p (r_trace r) -> In y (individuals p) -> fle (fitness io y) (fitness io x) = true.
Proof. exact @aga_run_best. Qed.
Print Assumptions C65_aga_best.
(** The default parameters leave room for an elite. *)
Example C65_example : (1 <= INR (ga_population_size ga_params_default) * B2R (ga_elitism_rate ga_params_default))%R /\
  (1 <= INR (aga_population_size aga_params_default) * B2R (aga_elitism_rate aga_params_default))%R.
Proof. exact c65_example. Qed.
(** Without the elite the documented promise fails: the default rates and a
    population of 2, where a shown individual is fitter than the returned one. *)
Theorem C65_best_refuted :
  exists (x y : nat) (p : population nat) (r : run_result nat (ga_state nat unit) unit),
  may (evolution_run ex_io ex_exp ex_model (ga_algorithm ex_io ex_exp ex_model) (quiet (stop_at 1)) 2
         (ga_from tt) (gen_range 1 10) (ex_ga 2) tt) (x, r) /\
  In p (r_trace r) /\ In y (individuals p) /\ flt (fitness ex_io x) (fitness ex_io y) = true.
Proof. exact best_refuted. Qed.
Print Assumptions C65_best_refuted.

(** C66: evolve_individual keeps that promise too, and what it returns is at least
    as fit as the evaluated seed. *)
Theorem C66_ga_seed :
forall (I : Type) (io : individual_ops I) (fexp : f64 -> f64) (MS : Type) (mdl : model I MS) (PS : Type)
  (f : PS -> population I -> M (bool * PS)) (fuel : nat) (s : ga_state I MS) (seed : I) (q : ga_params) (ps : PS)
  (x : I) (r : run_result I (ga_state I MS) PS),
  selector_left_alone mdl -> valid_is_number io -> equal_means_equal_fitness io ->
  (Z.of_nat (ga_population_size q) <= 2 ^ 53)%Z -> (1 <= INR (ga_population_size q) * B2R (ga_elitism_rate q))%R ->
  may (evolve_individual io fexp mdl (ga_algorithm io fexp mdl) (quiet f) fuel s seed q ps) (x, r) ->
  (forall p y, In p (r_trace r) -> In y (individuals p) -> fle (fitness io y) (fitness io x) = true) /\
  exists seed', may (m_evaluate mdl (ga_model s) seed) seed' /\
    (is_valid io seed' = true -> fle (fitness io seed') (fitness io x) = true).
Proof. exact @ga_individual_best. Qed.
Print Assumptions C66_ga_seed.
Theorem C66_aga_seed :
forall (I : Type) (io : individual_ops I) (fexp : f64 -> f64) (MS : Type) (mdl : model I MS) (PS : Type)
  (f : PS -> population I -> M (bool * PS)) (fuel : nat) (s : aga_state I MS) (seed : I) (q : aga_params) (ps : PS)
  (x : I) (r : run_result I (aga_state I MS) PS),
  selector_left_alone mdl -> valid_is_number io -> equal_means_equal_fitness io ->
  (Z.of_nat (aga_population_size q) <= 2 ^ 53)%Z -> (1 <= INR (aga_population_size q) * B2R (aga_elitism_rate q))%R ->
  may (evolve_individual io fexp mdl (aga_algorithm io fexp mdl) (quiet f) fuel s seed q ps) (x, r) ->
  (forall p y, In p (r_trace r) -> In y (individuals p) -> fle (fitness io y) (fitness io x) = true) /\
  exists seed', may (m_evaluate mdl (aga_model s) seed) seed' /\
    (is_valid io seed' = true -> fle (fitness io seed') (fitness io x) = true).
Proof. exact @aga_individual_best. Qed.
Print Assumptions C66_aga_seed.
Example C66_example : exists x r,
  may (evolve_individual ex_io ex_exp ex_model (ga_algorithm ex_io ex_exp ex_model) (quiet (stop_at 1)) 2
         (ga_from tt) 7 ex_half tt) (x, r) /\ 7 <= x.
Proof. exact c66_example. Qed.

(** C67: a run never panics, whatever the bound on its iterations, and it returns
    once the closure answers false. *)
Theorem C67_ga_total :
forall (I : Type) (io : individual_ops I) (fexp : f64 -> f64) (MS : Type) (mdl : model I MS) (PS : Type)
  (G : I -> Prop) (f : PS -> population I -> M (bool * PS)) (s : ga_state I MS) (init : list I) (q : ga_params) (ps : PS),
  ga_accepted q -> 2 <= ga_population_size q -> fits_usize (ga_population_size q) -> fits_usize (length init) ->
  robust_strategy (ga_selection_strategy q) -> total_model mdl G -> startable io mdl G (ga_model s) init ->
  (forall ps p, must (f ps p) (fun _ => True)) ->
  (forall fuel, ~ may_fail (evolve_population io fexp mdl (ga_algorithm io fexp mdl) (quiet f) fuel s init q ps) Panic) /\
  (forall n, (forall ps' p, generation p = n -> must (f ps' p) (fun o => fst o = false)) ->
     must (evolve_population io fexp mdl (ga_algorithm io fexp mdl) (quiet f) (S n) s init q ps) (fun r =>
       exists x, take_fittest (r_population r) = Ret x)).
Proof. exact @ga_total. Qed.
Print Assumptions C67_ga_total.
Theorem C67_aga_total :
forall (I : Type) (io : individual_ops I) (fexp : f64 -> f64) (MS : Type) (mdl : model I MS) (PS : Type)
  (G : I -> Prop) (f : PS -> population I -> M (bool * PS)) (s : aga_state I MS) (init : list I) (q : aga_params) (ps : PS),
  aga_accepted q -> 2 <= aga_population_size q -> fits_usize (aga_population_size q) -> fits_usize (length init) ->
  robust_strategy (aga_selection_strategy q) -> total_model mdl G -> startable io mdl G (aga_model s) init ->
  (forall ps p, must (f ps p) (fun _ => True)) ->
  (forall fuel, ~ may_fail (evolve_population io fexp mdl (aga_algorithm io fexp mdl) (quiet f) fuel s init q ps) Panic) /\
  (forall n, (forall ps' p, generation p = n -> must (f ps' p) (fun o => fst o = false)) ->
     must (evolve_population io fexp mdl (aga_algorithm io fexp mdl) (quiet f) (S n) s init q ps) (fun r =>
       exists x, take_fittest (r_population r) = Ret x)).
Proof. exact @aga_total. Qed.
Print Assumptions C67_aga_total.
(** The same for run and evolve_individual *)
Theorem C67_ga_total_runs :
forall (I : Type) (io : individual_ops I) (fexp : f64 -> f64) (MS : Type) (mdl : model I MS) (PS : Type)
  (G : I -> Prop) (f : PS -> population I -> M (bool * PS)) (s : ga_state I MS) (nr : M I) (seed : I) (q : ga_params) (ps : PS),
  ga_accepted q -> 2 <= ga_population_size q -> fits_usize (ga_population_size q) ->
  robust_strategy (ga_selection_strategy q) -> total_model mdl G ->
  (forall ps p, must (f ps p) (fun _ => True)) ->
  must nr (fun x => G x /\ must (m_evaluate mdl (ga_model s) x) (fun y => is_valid io y = true)) ->
  G seed /\ must (m_evaluate mdl (ga_model s) seed) (fun y => is_valid io y = true) ->
  (forall fuel, ~ may_fail (evolution_run io fexp mdl (ga_algorithm io fexp mdl) (quiet f) fuel s nr q ps) Panic /\
                ~ may_fail (evolve_individual io fexp mdl (ga_algorithm io fexp mdl) (quiet f) fuel s seed q ps) Panic) /\
  (forall n, (forall ps' p, generation p = n -> must (f ps' p) (fun o => fst o = false)) ->
     must (evolution_run io fexp mdl (ga_algorithm io fexp mdl) (quiet f) (S n) s nr q ps) (fun _ => True) /\
     must (evolve_individual io fexp mdl (ga_algorithm io fexp mdl) (quiet f) (S n) s seed q ps) (fun _ => True)).
Proof. exact @ga_total_runs. Qed.
Print Assumptions C67_ga_total_runs.
Theorem C67_aga_total_runs :
forall (I : Type) (io : individual_ops I) (fexp : f64 -> f64) (MS : Type) (mdl : model I MS) (PS : Type)
  (G : I -> Prop) (f : PS -> population I -> M (bool * PS)) (s : aga_state I MS) (nr : M I) (seed : I) (q : aga_params) (ps : PS),
  aga_accepted q -> 2 <= aga_population_size q -> fits_usize (aga_population_size q) ->
  robust_strategy (aga_selection_strategy q) -> total_model mdl G ->
  (forall ps p, must (f ps p) (fun _ => True)) ->
  must nr (fun x => G x /\ must (m_evaluate mdl (aga_model s) x) (fun y => is_valid io y = true)) ->
  G seed /\ must (m_evaluate mdl (aga_model s) seed) (fun y => is_valid io y = true) ->
  (forall fuel, ~ may_fail (evolution_run io fexp mdl (aga_algorithm io fexp mdl) (quiet f) fuel s nr q ps) Panic /\
                ~ may_fail (evolve_individual io fexp mdl (aga_algorithm io fexp mdl) (quiet f) fuel s seed q ps) Panic) /\
  (forall n, (forall ps' p, generation p = n -> must (f ps' p) (fun o => fst o = false)) ->
     must (evolution_run io fexp mdl (aga_algorithm io fexp mdl) (quiet f) (S n) s nr q ps) (fun _ => True) /\
     must (evolve_individual io fexp mdl (aga_algorithm io fexp mdl) (quiet f) (S n) s seed q ps) (fun _ => True)).
Proof. exact @aga_total_runs. Qed.
Print Assumptions C67_aga_total_runs.
Example C67_example : ga_accepted (ex_ga 2) /\ total_model ex_model (fun x => x <> 0) /\
  startable ex_io ex_model (fun x => x <> 0) tt [3; 5] /\
  must (gen_range 1 10) (fun x => x <> 0 /\ must (m_evaluate ex_model tt x) (fun y => is_valid ex_io y = true)) /\
  (forall ps (p : population nat), must (stop_at 1 ps p) (fun _ => True)) /\
  (forall ps' (p : population nat), generation p = 1 -> must (stop_at 1 ps' p) (fun o => fst o = false)).
Proof. exact c67_example. Qed.
