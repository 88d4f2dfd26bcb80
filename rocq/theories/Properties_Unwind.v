(** * Properties_Unwind: zeros in sums (C102), caught panics of configure (C103). *)
From Coq Require Import List Bool Arith NArith ZArith.
From Flocq Require Import BinarySingleNaN.
From Verif Require Import Rnd F64 MStats MPopulation MSelection MModel MAlgorithms MUnwind SpecF SpecA SpecW SpecZ SpecU ExF ExM ExR PZero PUnwind.
Import ListNotations.

(** C102: where a parallel sum starts partial sums and from which zero does not
    matter. *)
Theorem C102_sum_covered :
  forall (l : list f64) (v : f64), sum_with_zeros l v ->
  forall fuel, length l <= fuel -> exists v', may (par_sum fuel l) v' /\ same_number v v'.
Proof. exact sum_covered. Qed.
Print Assumptions C102_sum_covered.
Theorem C102_prepare_covered :
  forall (I : Type) (io : individual_ops I) (fexp : f64 -> f64) (s : selector I) (p : population I),
  (forall t v, s = RouletteWheel t -> sum_with_zeros (map (fitness io) (individuals p)) v ->
     exists s', may (prepare io fexp s p) s' /\ same_wheel (RouletteWheel v) s') /\
  (forall a c t v, s = Boltzmann a c t -> sum_with_zeros (map (fun x => fexp (fdiv (fitness io x) (fmul a c))) (individuals p)) v ->
     exists s', may (prepare io fexp s p) s' /\ same_wheel (Boltzmann (fmul a c) c v) s').
Proof. exact @prepare_covered. Qed.
Print Assumptions C102_prepare_covered.
Theorem C102_selection_same :
  forall (I : Type) (io : individual_ops I) (fexp : f64 -> f64) (s s' : selector I) (p : population I),
  same_wheel s s' -> same_execution (select io fexp s p) (select io fexp s' p).
Proof. exact @select_same. Qed.
Print Assumptions C102_selection_same.
Theorem C102_breed_same :
  forall (I : Type) (io : individual_ops I) (fexp : f64 -> f64) (MS : Type) (mdl : model I MS) (ms : MS) (p : population I)
    (cr mr : f64) (s s' : selector I),
  same_wheel s s' -> same_execution (breed io fexp mdl ms p (mkBreeding cr mr s)) (breed io fexp mdl ms p (mkBreeding cr mr s')).
Proof. exact @breed_same. Qed.
Print Assumptions C102_breed_same.
Example C102_example :
  sum_with_zeros [f1; f0] (fadd (fadd (B754_zero true) f1) (fadd (B754_zero true) f0)) /\
  same_wheel (I := bool) (RouletteWheel (B754_zero true)) (RouletteWheel f0) /\ B754_zero true <> f0.
Proof. exact c102_example. Qed.

(** C103: statement by statement, configure does what the model says it does, ... *)
Theorem C103_ga_statements :
  forall (I MS : Type) (s : ga_state I MS) (q : ga_params),
  (exists s', ga_configure s q = Ret s' /\ unwinding (ga_configure_steps q) s = Ret (s', None)) \/
  (exists s1, ga_configure s q = Fail Panic /\ unwinding (ga_configure_steps q) s = Ret (s1, Some Panic)).
Proof. exact @ga_steps. Qed.
Print Assumptions C103_ga_statements.
Theorem C103_aga_statements :
  forall (I MS : Type) (s : aga_state I MS) (q : aga_params),
  (exists s', aga_configure s q = Ret s' /\ unwinding (aga_configure_steps q) s = Ret (s', None)) \/
  (exists s1, aga_configure s q = Fail Panic /\ unwinding (aga_configure_steps q) s = Ret (s1, Some Panic)).
Proof. exact @aga_steps. Qed.
Print Assumptions C103_aga_statements.
(** ... a rejected number leaves the algorithm as it was, but a rejected strategy
    leaves it with the new numbers and the old selection mechanism, ... *)
Theorem C103_ga_left :
  forall (I MS : Type) (s : ga_state I MS) (q : ga_params), fits_usize (ga_population_size q) ->
  (~ ga_numbers q -> unwinding (ga_configure_steps q) s = Ret (s, Some Panic)) /\
  (ga_numbers q -> ~ strategy_accepted (ga_selection_strategy q) ->
   exists e, elite_count (ga_population_size q) (ga_elitism_rate q) e /\
     unwinding (ga_configure_steps q) s = Ret (mkGa (ga_model s) (ga_population_size q) e
       (mkBreeding (ga_crossover_rate q) (ga_mutation_rate q) (parent_selector (ga_breeding s))), Some Panic)).
Proof. exact @ga_left. Qed.
Print Assumptions C103_ga_left.
Theorem C103_aga_left :
  forall (I MS : Type) (s : aga_state I MS) (q : aga_params), fits_usize (aga_population_size q) ->
  (~ aga_numbers q -> unwinding (aga_configure_steps q) s = Ret (s, Some Panic)) /\
  (aga_numbers q -> ~ strategy_accepted (aga_selection_strategy q) ->
   exists e, elite_count (aga_population_size q) (aga_elitism_rate q) e /\
     unwinding (aga_configure_steps q) s = Ret (mkAga (aga_model s) (aga_population_size q) e (aga_parameter_adjustment_interval q)
       (aga_crossover_rate_range q) (aga_mutation_rate_range q) (aga_breeding s) (aga_reference_std s), Some Panic)).
Proof. exact @aga_left. Qed.
Print Assumptions C103_aga_left.
(** ... which later runs do not notice, ... *)
Theorem C103_ga_next_run :
  forall (I MS : Type) (io : individual_ops I) (fexp : f64 -> f64) (mdl : model I MS) (PS : Type)
    (progress : PS -> ga_state I MS -> population I -> M (bool * PS * ga_state I MS)) (s s1 : ga_state I MS) (q : ga_params)
    (fuel : nat) (init : list I) (q2 : ga_params) (ps : PS),
  fits_usize (ga_population_size q) -> unwinding (ga_configure_steps q) s = Ret (s1, Some Panic) ->
  evolve_population io fexp mdl (ga_algorithm io fexp mdl) progress fuel s1 init q2 ps =
  evolve_population io fexp mdl (ga_algorithm io fexp mdl) progress fuel s init q2 ps.
Proof. exact @ga_next_run. Qed.
Print Assumptions C103_ga_next_run.
Theorem C103_aga_next_run :
  forall (I MS : Type) (io : individual_ops I) (fexp : f64 -> f64) (mdl : model I MS) (PS : Type)
    (progress : PS -> aga_state I MS -> population I -> M (bool * PS * aga_state I MS)) (s s1 : aga_state I MS) (q : aga_params)
    (fuel : nat) (init : list I) (q2 : aga_params) (ps : PS),
  fits_usize (aga_population_size q) -> unwinding (aga_configure_steps q) s = Ret (s1, Some Panic) ->
  evolve_population io fexp mdl (aga_algorithm io fexp mdl) progress fuel s1 init q2 ps =
  evolve_population io fexp mdl (aga_algorithm io fexp mdl) progress fuel s init q2 ps.
Proof. exact @aga_next_run. Qed.
Print Assumptions C103_aga_next_run.
(** ... but a run going on does: if its closure has such a run rejected, it goes on
    with the population size of the rejected parameters ... *)
Theorem C103_ga_caught :
  forall (I MS : Type) (io : individual_ops I) (fexp : f64 -> f64) (mdl : model I MS) (PS : Type)
    (g : nat) (q q' : ga_params) (f : PS -> population I -> M (bool * PS)) (fuel : nat) (s : ga_state I MS) (init : list I) (ps : PS)
    (r : run_result I (ga_state I MS) PS),
  fits_usize (ga_population_size q) -> fits_usize (ga_population_size q') ->
  ga_numbers q' -> ~ strategy_accepted (ga_selection_strategy q') ->
  may (evolve_population io fexp mdl (ga_algorithm io fexp mdl) (rejected_at ga_configure_steps g q' f) fuel s init q ps) r ->
  forall k p, nth_error (r_trace r) k = Some p -> 0 < k ->
  length (individuals p) <= (if k <=? g then ga_population_size q else ga_population_size q').
Proof. exact @ga_caught. Qed.
Print Assumptions C103_ga_caught.
Theorem C103_aga_caught :
  forall (I MS : Type) (io : individual_ops I) (fexp : f64 -> f64) (mdl : model I MS) (PS : Type)
    (g : nat) (q q' : aga_params) (f : PS -> population I -> M (bool * PS)) (fuel : nat) (s : aga_state I MS) (init : list I) (ps : PS)
    (r : run_result I (aga_state I MS) PS),
  fits_usize (aga_population_size q) -> fits_usize (aga_population_size q') ->
  aga_numbers q' -> ~ strategy_accepted (aga_selection_strategy q') ->
  may (evolve_population io fexp mdl (aga_algorithm io fexp mdl) (rejected_at aga_configure_steps g q' f) fuel s init q ps) r ->
  forall k p, nth_error (r_trace r) k = Some p -> 0 < k ->
  length (individuals p) <= (if k <=? g then aga_population_size q else aga_population_size q').
Proof. exact @aga_caught. Qed.
Print Assumptions C103_aga_caught.
(** ... while rejected numbers go unnoticed. *)
Theorem C103_ga_unchanged :
  forall (I MS : Type) (io : individual_ops I) (fexp : f64 -> f64) (mdl : model I MS) (PS : Type)
    (g : nat) (q' : ga_params) (f : PS -> population I -> M (bool * PS)) (fuel : nat) (s : ga_state I MS) (init : list I) (q : ga_params) (ps : PS),
  fits_usize (ga_population_size q') -> ~ ga_numbers q' ->
  same_execution (evolve_population io fexp mdl (ga_algorithm io fexp mdl) (rejected_at ga_configure_steps g q' f) fuel s init q ps)
                 (evolve_population io fexp mdl (ga_algorithm io fexp mdl) (quiet f) fuel s init q ps).
Proof. exact @ga_unchanged. Qed.
Print Assumptions C103_ga_unchanged.
Theorem C103_aga_unchanged :
  forall (I MS : Type) (io : individual_ops I) (fexp : f64 -> f64) (mdl : model I MS) (PS : Type)
    (g : nat) (q' : aga_params) (f : PS -> population I -> M (bool * PS)) (fuel : nat) (s : aga_state I MS) (init : list I) (q : aga_params) (ps : PS),
  fits_usize (aga_population_size q') -> ~ aga_numbers q' ->
  same_execution (evolve_population io fexp mdl (aga_algorithm io fexp mdl) (rejected_at aga_configure_steps g q' f) fuel s init q ps)
                 (evolve_population io fexp mdl (aga_algorithm io fexp mdl) (quiet f) fuel s init q ps).
Proof. exact @aga_unchanged. Qed.
Print Assumptions C103_aga_unchanged.
(** A rejected configuration is not without effect: a run given size 2 has a
    population of more than 2. *)
Theorem C103_without_effect_refuted : exists (r : run_result nat (ga_state nat unit) unit) (p : population nat),
  may (evolve_population ex_io ex_exp ex_model (ga_algorithm ex_io ex_exp ex_model)
    (rejected_at ga_configure_steps 0 (ex_bad 6) (stop_at 1)) 2 (ga_from tt) [1; 2] (ex_ga 2) tt) r /\
  nth_error (r_trace r) 1 = Some p /\ ga_population_size (ex_ga 2) < length (individuals p).
Proof. exact caught_refuted. Qed.
Print Assumptions C103_without_effect_refuted.
Example C103_example :
  ga_numbers (ex_bad 6) /\ ~ strategy_accepted (ga_selection_strategy (ex_bad 6)) /\ ~ ga_numbers (ex_bad 0) /\
  aga_numbers (ex_abad 6) /\ ~ strategy_accepted (aga_selection_strategy (ex_abad 6)) /\ ~ aga_numbers (ex_abad 0) /\
  fits_usize 6 /\
  (exists e, unwinding (ga_configure_steps (I := nat) (ex_bad 6)) (ga_from tt) =
    Ret (mkGa tt 6 e (mkBreeding (f_lit 8 10) (f_lit 1 10) roulette_new), Some Panic)).
Proof. exact c103_example. Qed.
