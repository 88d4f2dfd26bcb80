(** * Properties_Stagnation: C110. *)
From Coq Require Import List Bool Arith NArith ZArith Reals.
From Flocq Require Import Core BinarySingleNaN.
From Verif Require Import Rnd F64 MStats MPopulation MSelection MModel MAlgorithms SpecF SpecA SpecX ExF ExM ExR PStag PStagEx.
Import ListNotations.
Local Open Scope nat_scope.

(** C110: with an elite, the stagnation counter of generation [k] tells which
    generation was the first to reach the best fitness of generation [k]. *)
Theorem C110_ga_counter :
forall (I : Type) (io : individual_ops I) (fexp : f64 -> f64) (MS : Type) (mdl : model I MS) (PS : Type)
  (f : PS -> population I -> M (bool * PS)) (fuel : nat) (s : ga_state I MS) (init : list I) (q : ga_params) (ps : PS)
  (r : run_result I (ga_state I MS) PS),
  selector_left_alone mdl -> valid_is_number io -> equal_means_equal_fitness io ->
  fits_usize (ga_population_size q) -> fits_usize (length init) ->
  (Z.of_nat (ga_population_size q) <= 2 ^ 53)%Z -> (1 <= INR (ga_population_size q) * B2R (ga_elitism_rate q))%R ->
  may (evolve_population io fexp mdl (ga_algorithm io fexp mdl) (quiet f) fuel s init q ps) r ->
  forall k p, nth_error (r_trace r) k = Some p -> stagnation p <= k /\ first_to_reach io (r_trace r) (k - stagnation p) k.
Proof. exact @ga_counter. Qed.
Print Assumptions C110_ga_counter.
Theorem C110_aga_counter :
forall (I : Type) (io : individual_ops I) (fexp : f64 -> f64) (MS : Type) (mdl : model I MS) (PS : Type)
  (f : PS -> population I -> M (bool * PS)) (fuel : nat) (s : aga_state I MS) (init : list I) (q : aga_params) (ps : PS)
  (r : run_result I (aga_state I MS) PS),
  selector_left_alone mdl -> valid_is_number io -> equal_means_equal_fitness io ->
  fits_usize (aga_population_size q) -> fits_usize (length init) ->
  (Z.of_nat (aga_population_size q) <= 2 ^ 53)%Z -> (1 <= INR (aga_population_size q) * B2R (aga_elitism_rate q))%R ->
  may (evolve_population io fexp mdl (aga_algorithm io fexp mdl) (quiet f) fuel s init q ps) r ->
  forall k p, nth_error (r_trace r) k = Some p -> stagnation p <= k /\ first_to_reach io (r_trace r) (k - stagnation p) k.
Proof. exact @aga_counter. Qed.
Print Assumptions C110_aga_counter.
(** Without an elite that is false: the counter is 0 at a generation although an
    earlier generation had a fitter individual. *)
Theorem C110_counter_refuted : exists (r : run_result nat (ga_state nat unit) unit) (k : nat) (p : population nat) (i : nat) (o : population nat),
  may (evolve_population ex_io ex_exp ex_model (ga_algorithm ex_io ex_exp ex_model) (quiet (stop_at 2)) 3 (ga_from tt) [1; 3] no_elite tt) r /\
  nth_error (r_trace r) k = Some p /\ stagnation p = 0 /\ i < k /\ nth_error (r_trace r) i = Some o /\ fitter_than ex_io o p.
Proof. exact counter_refuted. Qed.
Print Assumptions C110_counter_refuted.

(** A run with the closure [|p| p.stagnation() < n] returns a population whose
    counter is exactly [n], under every algorithm. *)
Theorem C110_patience :
forall (I : Type) (io : individual_ops I) (fexp : f64 -> f64) (MS : Type) (mdl : model I MS) (P S0 : Type) (alg : algorithm I MS P S0)
  (n fuel : nat) (s : S0) (init : list I) (q : P) (ps : unit) (r : run_result I S0 unit),
  may (evolve_population io fexp mdl alg (quiet (patience n)) fuel s init q ps) r -> stagnation (r_population r) = n.
Proof. exact @patience_result. Qed.
Print Assumptions C110_patience.

(** With an elite, every run that stops at the latest after [n] generations
    without improvement ends, after at most [n] generations for each fitness
    value that a valid individual can have ... *)
Theorem C110_ga_ends :
forall (I : Type) (io : individual_ops I) (fexp : f64 -> f64) (MS : Type) (mdl : model I MS) (PS : Type) (G : I -> Prop)
  (f : PS -> population I -> M (bool * PS)) (fuel : nat) (s : ga_state I MS) (init : list I) (q : ga_params) (ps : PS)
  (n : nat) (levels : list f64),
  ga_accepted q -> 2 <= ga_population_size q -> fits_usize (ga_population_size q) -> fits_usize (length init) ->
  robust_strategy (ga_selection_strategy q) -> total_model mdl G -> startable io mdl G (ga_model s) init ->
  valid_is_number io -> equal_means_equal_fitness io ->
  (Z.of_nat (ga_population_size q) <= 2 ^ 53)%Z -> (1 <= INR (ga_population_size q) * B2R (ga_elitism_rate q))%R ->
  impatient n f -> fitness_among io levels -> n * length levels < fuel ->
  must (evolve_population io fexp mdl (ga_algorithm io fexp mdl) (quiet f) fuel s init q ps) (fun r =>
    generation (r_population r) <= n * length levels /\ exists x, take_fittest (r_population r) = Ret x).
Proof. exact @ga_ends. Qed.
Print Assumptions C110_ga_ends.
Theorem C110_aga_ends :
forall (I : Type) (io : individual_ops I) (fexp : f64 -> f64) (MS : Type) (mdl : model I MS) (PS : Type) (G : I -> Prop)
  (f : PS -> population I -> M (bool * PS)) (fuel : nat) (s : aga_state I MS) (init : list I) (q : aga_params) (ps : PS)
  (n : nat) (levels : list f64),
  aga_accepted q -> 2 <= aga_population_size q -> fits_usize (aga_population_size q) -> fits_usize (length init) ->
  robust_strategy (aga_selection_strategy q) -> total_model mdl G -> startable io mdl G (aga_model s) init ->
  valid_is_number io -> equal_means_equal_fitness io ->
  (Z.of_nat (aga_population_size q) <= 2 ^ 53)%Z -> (1 <= INR (aga_population_size q) * B2R (aga_elitism_rate q))%R ->
  impatient n f -> fitness_among io levels -> n * length levels < fuel ->
  must (evolve_population io fexp mdl (aga_algorithm io fexp mdl) (quiet f) fuel s init q ps) (fun r =>
    generation (r_population r) <= n * length levels /\ exists x, take_fittest (r_population r) = Ret x).
Proof. exact @aga_ends. Qed.
Print Assumptions C110_aga_ends.
(** ... and since there are finitely many f64 values, one bound serves all programs. *)
Theorem C110_always_ends : exists bound : nat,
forall (I : Type) (io : individual_ops I) (fexp : f64 -> f64) (MS : Type) (mdl : model I MS) (PS : Type)
  (G : I -> Prop) (f : PS -> population I -> M (bool * PS)) (fuel : nat) (init : list I) (ps : PS) (n : nat),
  fits_usize (length init) -> total_model mdl G -> valid_is_number io -> equal_means_equal_fitness io -> impatient n f -> n * bound < fuel ->
  (forall (s : ga_state I MS) q, ga_accepted q -> 2 <= ga_population_size q -> fits_usize (ga_population_size q) ->
     robust_strategy (ga_selection_strategy q) -> startable io mdl G (ga_model s) init ->
     (Z.of_nat (ga_population_size q) <= 2 ^ 53)%Z -> (1 <= INR (ga_population_size q) * B2R (ga_elitism_rate q))%R ->
     must (evolve_population io fexp mdl (ga_algorithm io fexp mdl) (quiet f) fuel s init q ps) (fun r =>
       generation (r_population r) <= n * bound)) /\
  (forall (s : aga_state I MS) q, aga_accepted q -> 2 <= aga_population_size q -> fits_usize (aga_population_size q) ->
     robust_strategy (aga_selection_strategy q) -> startable io mdl G (aga_model s) init ->
     (Z.of_nat (aga_population_size q) <= 2 ^ 53)%Z -> (1 <= INR (aga_population_size q) * B2R (aga_elitism_rate q))%R ->
     must (evolve_population io fexp mdl (aga_algorithm io fexp mdl) (quiet f) fuel s init q ps) (fun r =>
       generation (r_population r) <= n * bound)).
Proof. exact always_ends. Qed.
Print Assumptions C110_always_ends.
(** A run of numbers up to 3, half of whose population is elite, meets the hypotheses. *)
Example C110_example : ga_accepted ex_half /\ robust_strategy (ga_selection_strategy ex_half) /\
  (1 <= INR (ga_population_size ex_half) * B2R (ga_elitism_rate ex_half))%R /\
  total_model ex_model (fun _ => True) /\ startable small_io ex_model (fun _ => True) tt [1; 7] /\
  valid_is_number small_io /\ equal_means_equal_fitness small_io /\ impatient 5 (@patience nat 5) /\
  fitness_among small_io [f_of_nat 1; f_of_nat 2; f_of_nat 3].
Proof. exact c110_example. Qed.

(** Without an elite that is false too: nothing can go wrong in these runs and they
    stop after two generations without improvement, but whatever number of
    generations is allowed, some of them need more. *)
Theorem C110_ends_refuted : exists (q : ga_params) (init : list nat) (n : nat),
  ga_accepted q /\ 2 <= ga_population_size q /\ robust_strategy (ga_selection_strategy q) /\ total_model ex_model (fun x => x <> 0) /\
  startable ex_io ex_model (fun x => x <> 0) tt init /\ valid_is_number ex_io /\ equal_means_equal_fitness ex_io /\
  impatient n (@patience nat n) /\
  forall fuel, may_fail (evolve_population ex_io ex_exp ex_model (ga_algorithm ex_io ex_exp ex_model) (quiet (patience n)) fuel
                           (ga_from tt) init q tt) NoFuel.
Proof. exact endless. Qed.
Print Assumptions C110_ends_refuted.
