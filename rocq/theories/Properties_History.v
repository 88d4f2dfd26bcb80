(** * Properties_History: C78-C81, C89. *)
From Coq Require Import List Bool Arith NArith ZArith.
From Verif Require Import Rnd F64 MStats MPopulation MSelection MModel MAlgorithms SpecF SpecA SpecH ExF ExM ExR ExH
  PHist PHist2 PHist3 PHistEx PFreeze PFreezeEx.
Import ListNotations.
Local Open Scope nat_scope.

(** C78: the history of every run with a closure that does not touch the
    Evolution value, step by step (SpecH.chronicle): rates, hook, preparation of
    the selection mechanism, elites, offspring. *)
Theorem C78_ga_history :
forall (I : Type) (io : individual_ops I) (fexp : f64 -> f64) (MS : Type) (mdl : model I MS) (PS : Type)
  (f : PS -> population I -> M (bool * PS)) (fuel : nat) (s : ga_state I MS) (init : list I) (q : ga_params) (ps : PS)
  (r : run_result I (ga_state I MS) PS),
  fits_usize (ga_population_size q) ->
  may (evolve_population io fexp mdl (ga_algorithm io fexp mdl) (quiet f) fuel s init q ps) r ->
  exists e sel p0 t, elite_count (ga_population_size q) (ga_elitism_rate q) e /\
    create_selector (ga_selection_strategy q) = Ret sel /\
    r_trace r = p0 :: t /\ begins io mdl (ga_model s) init p0 /\
    chronicle io fexp mdl (ga_population_size q) e fixed_rates (ga_model s)
      (mkBreeding (ga_crossover_rate q) (ga_mutation_rate q) sel) (r_trace r)
      (ga_model (r_algorithm r)) (ga_breeding (r_algorithm r)).
Proof. exact @ga_history. Qed.
Print Assumptions C78_ga_history.
Theorem C78_aga_history :
forall (I : Type) (io : individual_ops I) (fexp : f64 -> f64) (MS : Type) (mdl : model I MS) (PS : Type)
  (f : PS -> population I -> M (bool * PS)) (fuel : nat) (s : aga_state I MS) (init : list I) (q : aga_params) (ps : PS)
  (r : run_result I (aga_state I MS) PS),
  fits_usize (aga_population_size q) ->
  may (evolve_population io fexp mdl (aga_algorithm io fexp mdl) (quiet f) fuel s init q ps) r ->
  exists e sel p0 t, elite_count (aga_population_size q) (aga_elitism_rate q) e /\
    create_selector (aga_selection_strategy q) = Ret sel /\
    r_trace r = p0 :: t /\ begins io mdl (aga_model s) init p0 /\
    chronicle io fexp mdl (aga_population_size q) e (adaptive_rates q (deviation p0)) (aga_model s)
      (mkBreeding (crossover_rate (aga_breeding s)) (mutation_rate (aga_breeding s)) sel) (r_trace r)
      (aga_model (r_algorithm r)) (aga_breeding (r_algorithm r)).
Proof. exact @aga_history. Qed.
Print Assumptions C78_aga_history.
Example C78_example :
  (exists r, may (ex_hist (ex_ga4 f1 f1 StRank)) r /\ map (@individuals nat) (r_trace r) = [[3; 9]; [3; 4; 9]; [4; 9]]) /\
  (exists r, may (ex_hista (ex_aga4 (f0, f1) (f0, f1) StRank)) r /\ length (r_trace r) = 3).
Proof. exact c78_example. Qed.

(** C79: Boltzmann selection cools exactly once per generation, before breeding. *)
Theorem C79_ga_cools :
forall (I : Type) (io : individual_ops I) (fexp : f64 -> f64) (MS : Type) (mdl : model I MS) (PS : Type)
  (f : PS -> population I -> M (bool * PS)) (fuel : nat) (s : ga_state I MS) (init : list I) (q : ga_params) (ps : PS)
  (r : run_result I (ga_state I MS) PS) (t c : f64),
  selector_left_alone mdl -> fits_usize (ga_population_size q) -> ga_selection_strategy q = StBoltzmann t c ->
  may (evolve_population io fexp mdl (ga_algorithm io fexp mdl) (quiet f) fuel s init q ps) r ->
  exists e v, elite_count (ga_population_size q) (ga_elitism_rate q) e /\
    parent_selector (ga_breeding (r_algorithm r)) = Boltzmann (cooled (length (r_trace r) - 1) t c) c v /\
    cools io fexp mdl e t c (r_trace r).
Proof. exact @ga_cools. Qed.
Print Assumptions C79_ga_cools.
Theorem C79_aga_cools :
forall (I : Type) (io : individual_ops I) (fexp : f64 -> f64) (MS : Type) (mdl : model I MS) (PS : Type)
  (f : PS -> population I -> M (bool * PS)) (fuel : nat) (s : aga_state I MS) (init : list I) (q : aga_params) (ps : PS)
  (r : run_result I (aga_state I MS) PS) (t c : f64),
  selector_left_alone mdl -> fits_usize (aga_population_size q) -> aga_selection_strategy q = StBoltzmann t c ->
  may (evolve_population io fexp mdl (aga_algorithm io fexp mdl) (quiet f) fuel s init q ps) r ->
  exists e v, elite_count (aga_population_size q) (aga_elitism_rate q) e /\
    parent_selector (aga_breeding (r_algorithm r)) = Boltzmann (cooled (length (r_trace r) - 1) t c) c v /\
    cools io fexp mdl e t c (r_trace r).
Proof. exact @aga_cools. Qed.
Print Assumptions C79_aga_cools.
Example C79_example : selector_left_alone ex_model /\
  exists r, may (ex_hist (ex_ga4 f1 f1 (StBoltzmann f1 (f_lit 1 2)))) r /\ length (r_trace r) = 3.
Proof. exact c79_example. Qed.

(** C80: with both rates 0 (not above 0), no local search and a repeatable
    evaluation, nothing new ever appears. *)
Theorem C80_ga_nothing_new :
forall (I : Type) (io : individual_ops I) (fexp : f64 -> f64) (MS : Type) (mdl : model I MS) (PS : Type)
  (f : PS -> population I -> M (bool * PS)) (fuel : nat) (s : ga_state I MS) (init : list I) (q : ga_params) (ps : PS)
  (r : run_result I (ga_state I MS) PS),
  selector_left_alone mdl -> rates_left_alone mdl -> settled mdl ->
  fits_usize (ga_population_size q) -> fits_usize (length init) ->
  flt f0 (ga_crossover_rate q) = false -> flt f0 (ga_mutation_rate q) = false ->
  may (evolve_population io fexp mdl (ga_algorithm io fexp mdl) (quiet f) fuel s init q ps) r -> nothing_new (r_trace r).
Proof. exact @ga_nothing_new. Qed.
Print Assumptions C80_ga_nothing_new.
Theorem C80_aga_nothing_new :
forall (I : Type) (io : individual_ops I) (fexp : f64 -> f64) (MS : Type) (mdl : model I MS) (PS : Type)
  (f : PS -> population I -> M (bool * PS)) (fuel : nat) (s : aga_state I MS) (init : list I) (q : aga_params) (ps : PS)
  (r : run_result I (aga_state I MS) PS),
  selector_left_alone mdl -> rates_left_alone mdl -> settled mdl ->
  fits_usize (aga_population_size q) -> fits_usize (length init) ->
  flt f0 (fst (aga_crossover_rate_range q)) = false -> flt f0 (snd (aga_crossover_rate_range q)) = false ->
  flt f0 (fst (aga_mutation_rate_range q)) = false -> flt f0 (snd (aga_mutation_rate_range q)) = false ->
  may (evolve_population io fexp mdl (aga_algorithm io fexp mdl) (quiet f) fuel s init q ps) r -> nothing_new (r_trace r).
Proof. exact @aga_nothing_new. Qed.
Print Assumptions C80_aga_nothing_new.
Example C80_example : selector_left_alone ex_model /\ rates_left_alone ex_model /\ settled ex_model /\
  (exists r, may (ex_hist (ex_ga4 f0 f0 StRank)) r /\ length (r_trace r) = 3) /\
  (exists r, may (ex_hista (ex_aga4 (f0, f0) (f0, f0) StRank)) r /\ length (r_trace r) = 3).
Proof. exact c80_example. Qed.
(** With other rates something new can appear in the same run. *)
Example C80_example_new : exists r, may (ex_hist (ex_ga4 f1 f1 StRank)) r /\ ~ nothing_new (r_trace r).
Proof. exact c80_new. Qed.

(** C81: without a valid individual to start with every run panics, before the
    closure (here any, even one that uses the Evolution value) is asked ... *)
Theorem C81_ga_no_valid :
forall (I : Type) (io : individual_ops I) (fexp : f64 -> f64) (MS : Type) (mdl : model I MS) (PS : Type)
  (progress : PS -> ga_state I MS -> population I -> M (bool * PS * ga_state I MS)) (fuel : nat) (s : ga_state I MS) (init : list I) (q : ga_params) (ps : PS),
  (forall x, In x init -> must (m_evaluate mdl (ga_model s) x) (fun y => is_valid io y = false)) ->
  must_fail (evolve_population io fexp mdl (ga_algorithm io fexp mdl) progress fuel s init q ps) Panic.
Proof. exact (fun I io fexp MS mdl PS progress => @run_no_valid I io fexp MS mdl _ _ (ga_algorithm io fexp mdl) PS progress ga_configure_total). Qed.
Print Assumptions C81_ga_no_valid.
Theorem C81_ga_no_valid_random :
forall (I : Type) (io : individual_ops I) (fexp : f64 -> f64) (MS : Type) (mdl : model I MS) (PS : Type)
  (progress : PS -> ga_state I MS -> population I -> M (bool * PS * ga_state I MS)) (fuel : nat) (s : ga_state I MS) (nr : M I) (q : ga_params) (ps : PS),
  must nr (fun x => must (m_evaluate mdl (ga_model s) x) (fun y => is_valid io y = false)) ->
  must_fail (evolution_run io fexp mdl (ga_algorithm io fexp mdl) progress fuel s nr q ps) Panic.
Proof. exact (fun I io fexp MS mdl PS progress => @random_no_valid I io fexp MS mdl _ _ (ga_algorithm io fexp mdl) PS progress ga_configure_total). Qed.
Print Assumptions C81_ga_no_valid_random.
Theorem C81_ga_no_valid_seed :
forall (I : Type) (io : individual_ops I) (fexp : f64 -> f64) (MS : Type) (mdl : model I MS) (PS : Type)
  (progress : PS -> ga_state I MS -> population I -> M (bool * PS * ga_state I MS)) (fuel : nat) (s : ga_state I MS) (seed : I) (q : ga_params) (ps : PS),
  must (m_evaluate mdl (ga_model s) seed) (fun y => is_valid io y = false) ->
  must (m_mutate mdl (ga_model s) seed) (fun x => must (m_evaluate mdl (ga_model s) x) (fun y => is_valid io y = false)) ->
  must_fail (evolve_individual io fexp mdl (ga_algorithm io fexp mdl) progress fuel s seed q ps) Panic.
Proof. exact (fun I io fexp MS mdl PS progress => @seed_no_valid I io fexp MS mdl _ _ (ga_algorithm io fexp mdl) PS progress ga_configure_total). Qed.
Print Assumptions C81_ga_no_valid_seed.
(** ... and with population_size 0 whatever the individuals. *)
Theorem C81_ga_size_zero :
forall (I : Type) (io : individual_ops I) (fexp : f64 -> f64) (MS : Type) (mdl : model I MS) (PS : Type)
  (progress : PS -> ga_state I MS -> population I -> M (bool * PS * ga_state I MS)) (fuel : nat) (s : ga_state I MS) (nr : M I) (seed : I) (q : ga_params) (ps : PS),
  ga_population_size q = 0 ->
  must_fail (evolution_run io fexp mdl (ga_algorithm io fexp mdl) progress fuel s nr q ps) Panic /\
  must_fail (evolve_individual io fexp mdl (ga_algorithm io fexp mdl) progress fuel s seed q ps) Panic.
Proof. exact (fun I io fexp MS mdl PS progress => @size_zero I io fexp MS mdl _ _ (ga_algorithm io fexp mdl) PS progress ga_configure_total). Qed.
Print Assumptions C81_ga_size_zero.
(** Even if evaluation can fail otherwise, there is no result. *)
Theorem C81_ga_no_result :
forall (I : Type) (io : individual_ops I) (fexp : f64 -> f64) (MS : Type) (mdl : model I MS) (PS : Type)
  (progress : PS -> ga_state I MS -> population I -> M (bool * PS * ga_state I MS)) (fuel : nat) (s : ga_state I MS) (init : list I) (q : ga_params) (ps : PS) (r : run_result I (ga_state I MS) PS),
  (forall x y, In x init -> may (m_evaluate mdl (ga_model s) x) y -> is_valid io y = false) ->
  ~ may (evolve_population io fexp mdl (ga_algorithm io fexp mdl) progress fuel s init q ps) r.
Proof. exact (fun I io fexp MS mdl PS progress => @run_no_result I io fexp MS mdl _ _ (ga_algorithm io fexp mdl) PS progress ga_configure_total). Qed.
Print Assumptions C81_ga_no_result.
Theorem C81_aga_no_valid :
forall (I : Type) (io : individual_ops I) (fexp : f64 -> f64) (MS : Type) (mdl : model I MS) (PS : Type)
  (progress : PS -> aga_state I MS -> population I -> M (bool * PS * aga_state I MS)) (fuel : nat) (s : aga_state I MS) (init : list I) (q : aga_params) (ps : PS),
  (forall x, In x init -> must (m_evaluate mdl (aga_model s) x) (fun y => is_valid io y = false)) ->
  must_fail (evolve_population io fexp mdl (aga_algorithm io fexp mdl) progress fuel s init q ps) Panic.
Proof. exact (fun I io fexp MS mdl PS progress => @run_no_valid I io fexp MS mdl _ _ (aga_algorithm io fexp mdl) PS progress aga_configure_total). Qed.
Print Assumptions C81_aga_no_valid.
Theorem C81_aga_no_valid_random :
forall (I : Type) (io : individual_ops I) (fexp : f64 -> f64) (MS : Type) (mdl : model I MS) (PS : Type)
  (progress : PS -> aga_state I MS -> population I -> M (bool * PS * aga_state I MS)) (fuel : nat) (s : aga_state I MS) (nr : M I) (q : aga_params) (ps : PS),
  must nr (fun x => must (m_evaluate mdl (aga_model s) x) (fun y => is_valid io y = false)) ->
  must_fail (evolution_run io fexp mdl (aga_algorithm io fexp mdl) progress fuel s nr q ps) Panic.
Proof. exact (fun I io fexp MS mdl PS progress => @random_no_valid I io fexp MS mdl _ _ (aga_algorithm io fexp mdl) PS progress aga_configure_total). Qed.
Print Assumptions C81_aga_no_valid_random.
Theorem C81_aga_no_valid_seed :
forall (I : Type) (io : individual_ops I) (fexp : f64 -> f64) (MS : Type) (mdl : model I MS) (PS : Type)
  (progress : PS -> aga_state I MS -> population I -> M (bool * PS * aga_state I MS)) (fuel : nat) (s : aga_state I MS) (seed : I) (q : aga_params) (ps : PS),
  must (m_evaluate mdl (aga_model s) seed) (fun y => is_valid io y = false) ->
  must (m_mutate mdl (aga_model s) seed) (fun x => must (m_evaluate mdl (aga_model s) x) (fun y => is_valid io y = false)) ->
  must_fail (evolve_individual io fexp mdl (aga_algorithm io fexp mdl) progress fuel s seed q ps) Panic.
Proof. exact (fun I io fexp MS mdl PS progress => @seed_no_valid I io fexp MS mdl _ _ (aga_algorithm io fexp mdl) PS progress aga_configure_total). Qed.
Print Assumptions C81_aga_no_valid_seed.
(** ... and with population_size 0 whatever the individuals. *)
Theorem C81_aga_size_zero :
forall (I : Type) (io : individual_ops I) (fexp : f64 -> f64) (MS : Type) (mdl : model I MS) (PS : Type)
  (progress : PS -> aga_state I MS -> population I -> M (bool * PS * aga_state I MS)) (fuel : nat) (s : aga_state I MS) (nr : M I) (seed : I) (q : aga_params) (ps : PS),
  aga_population_size q = 0 ->
  must_fail (evolution_run io fexp mdl (aga_algorithm io fexp mdl) progress fuel s nr q ps) Panic /\
  must_fail (evolve_individual io fexp mdl (aga_algorithm io fexp mdl) progress fuel s seed q ps) Panic.
Proof. exact (fun I io fexp MS mdl PS progress => @size_zero I io fexp MS mdl _ _ (aga_algorithm io fexp mdl) PS progress aga_configure_total). Qed.
Print Assumptions C81_aga_size_zero.
(** Even if evaluation can fail otherwise, there is no result. *)
Theorem C81_aga_no_result :
forall (I : Type) (io : individual_ops I) (fexp : f64 -> f64) (MS : Type) (mdl : model I MS) (PS : Type)
  (progress : PS -> aga_state I MS -> population I -> M (bool * PS * aga_state I MS)) (fuel : nat) (s : aga_state I MS) (init : list I) (q : aga_params) (ps : PS) (r : run_result I (aga_state I MS) PS),
  (forall x y, In x init -> may (m_evaluate mdl (aga_model s) x) y -> is_valid io y = false) ->
  ~ may (evolve_population io fexp mdl (aga_algorithm io fexp mdl) progress fuel s init q ps) r.
Proof. exact (fun I io fexp MS mdl PS progress => @run_no_result I io fexp MS mdl _ _ (aga_algorithm io fexp mdl) PS progress aga_configure_total). Qed.
Print Assumptions C81_aga_no_result.
(** The individual 0 is invalid, and one model's mutation makes everything 0. *)
Example C81_example :
  (forall x, In x [0; 0] -> must (m_evaluate ex_model0 tt x) (fun y => is_valid ex_io y = false)) /\
  must (m_mutate ex_model0 tt 0) (fun x => must (m_evaluate ex_model0 tt x) (fun y => is_valid ex_io y = false)) /\
  ga_population_size (ex_ga 0) = 0.
Proof. repeat split; intros x [<-|[<-|[]]]; reflexivity. Qed.

(** C89: an adaptive run whose first population has a single fitness freezes at
    the first adjustment that meets a single fitness again: from then on no
    generation holds anything that this one did not hold. *)
Theorem C89_aga_freezes :
forall (I : Type) (io : individual_ops I) (fexp : f64 -> f64) (MS : Type) (mdl : model I MS) (PS : Type)
  (f : PS -> population I -> M (bool * PS)) (fuel : nat) (s : aga_state I MS) (init : list I) (q : aga_params) (ps : PS)
  (r : run_result I (aga_state I MS) PS) (k : nat) (p0 pk : population I),
  selector_left_alone mdl -> rates_left_alone mdl -> settled mdl ->
  fits_usize (aga_population_size q) -> fits_usize (length init) ->
  may (evolve_population io fexp mdl (aga_algorithm io fexp mdl) (quiet f) fuel s init q ps) r ->
  nth_error (r_trace r) 0 = Some p0 -> nth_error (r_trace r) k = Some pk ->
  same_fitness io (individuals p0) -> same_fitness io (individuals pk) ->
  adjusts (aga_parameter_adjustment_interval q) k ->
  forall j p x, k <= j -> nth_error (r_trace r) j = Some p -> In x (individuals p) -> In x (individuals pk).
Proof. exact @aga_freezes. Qed.
Print Assumptions C89_aga_freezes.
Example C89_example : selector_left_alone ex_model /\ rates_left_alone ex_model /\ settled ex_model /\
  adjusts (aga_parameter_adjustment_interval (ex_aga4 (f0, f1) (f0, f1) StRank)) 1 /\ same_fitness ex_io [3] /\
  exists r, may ex_frozen r /\ map (@individuals nat) (r_trace r) = [[3]; [3]; [3]].
Proof. exact c89_example. Qed.
