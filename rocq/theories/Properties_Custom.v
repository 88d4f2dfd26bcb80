(** * Properties_Custom: C90, C91. *)
From Coq Require Import List Bool Arith NArith ZArith Reals Permutation.
From Flocq Require Import BinarySingleNaN.
From Verif Require Import Rnd F64 MStats MPopulation MSelection MModel MAlgorithms SpecF SpecA SpecH SpecG ExF ExM ExR ExG
  PCustom PCustomEx PStuck.
Import ListNotations.
Local Open Scope nat_scope.

(** C90: with the default select_elites a user's algorithm never loses its best:
    whatever its configure, its prepare and the closure do. *)
Theorem C90_never_worse :
forall (I : Type) (io : individual_ops I) (fexp : f64 -> f64) (MS : Type) (mdl : model I MS) (P S0 : Type) (alg : algorithm I MS P S0)
  (PS : Type) (progress : PS -> S0 -> population I -> M (bool * PS * S0)) (q : P) (J : S0 -> Prop),
  kept alg progress q J -> default_elites alg J -> breeds_members io fexp alg J -> valid_is_number io ->
  forall (fuel : nat) (s : S0) (init : list I) (ps : PS) (r : run_result I S0 PS),
  fits_usize (length init) -> equal_means_equal_fitness io ->
  may (evolve_population io fexp mdl alg progress fuel s init q ps) r ->
  never_worse io (r_trace r) /\ well_formed io (r_population r) /\
  exists s1 evaluated, may (alg_configure alg s q) s1 /\ Forall2 (fun a b => may (m_evaluate mdl (alg_model alg s1) a) b) init evaluated /\
    forall x, In x evaluated -> is_valid io x = true ->
      exists y, In y (individuals (r_population r)) /\ fle (fitness io x) (fitness io y) = true.
Proof. exact @custom_run. Qed.
Print Assumptions C90_never_worse.
Theorem C90_run_best :
forall (I : Type) (io : individual_ops I) (fexp : f64 -> f64) (MS : Type) (mdl : model I MS) (P S0 : Type) (alg : algorithm I MS P S0)
  (PS : Type) (progress : PS -> S0 -> population I -> M (bool * PS * S0)) (q : P) (J : S0 -> Prop),
  kept alg progress q J -> default_elites alg J -> breeds_members io fexp alg J -> valid_is_number io ->
  forall (fuel : nat) (s : S0) (nr : M I) (ps : PS) (x : I) (r : run_result I S0 PS),
  fits_usize (alg_initial_population_size alg q) -> equal_means_equal_fitness io ->
  may (evolution_run io fexp mdl alg progress fuel s nr q ps) (x, r) ->
  never_worse io (r_trace r) /\ In x (individuals (r_population r)) /\
  forall p y, In p (r_trace r) -> In y (individuals p) -> fle (fitness io y) (fitness io x) = true.
Proof. exact @custom_best. Qed.
Print Assumptions C90_run_best.
Theorem C90_seed_best :
forall (I : Type) (io : individual_ops I) (fexp : f64 -> f64) (MS : Type) (mdl : model I MS) (P S0 : Type) (alg : algorithm I MS P S0)
  (PS : Type) (progress : PS -> S0 -> population I -> M (bool * PS * S0)) (q : P) (J : S0 -> Prop),
  kept alg progress q J -> default_elites alg J -> breeds_members io fexp alg J -> valid_is_number io ->
  forall (fuel : nat) (s : S0) (seed : I) (ps : PS) (x : I) (r : run_result I S0 PS),
  fits_usize (alg_initial_population_size alg q) -> equal_means_equal_fitness io ->
  may (evolve_individual io fexp mdl alg progress fuel s seed q ps) (x, r) ->
  never_worse io (r_trace r) /\ In x (individuals (r_population r)) /\
  (forall p y, In p (r_trace r) -> In y (individuals p) -> fle (fitness io y) (fitness io x) = true) /\
  exists s1 seed', may (alg_configure alg s q) s1 /\ may (m_evaluate mdl (alg_model alg s1) seed) seed' /\
    (is_valid io seed' = true -> fle (fitness io seed') (fitness io x) = true).
Proof. exact @custom_seed. Qed.
Print Assumptions C90_seed_best.
Example C90_example : (exists J, kept ex_custom (quiet (stop_at 2)) (ex_eager 4) J /\ breeds_members ex_io ex_exp ex_custom J /\
  default_elites ex_custom J) /\ valid_is_number ex_io /\ equal_means_equal_fitness ex_io /\
  exists r, may (ex_custom_run 4) r /\ map (@individuals nat) (r_trace r) = [[3; 9]; [4; 9]; [5; 9]].
Proof. exact c90_example. Qed.

(** C91: a single missing individual is bred and dropped (C58), so an algorithm
    with the default select_elites and a target size of at most 2 shows nothing
    but the fittest initial individual from generation 1 on ... *)
Theorem C91_default_elites_stuck :
forall (I : Type) (io : individual_ops I) (fexp : f64 -> f64) (MS : Type) (mdl : model I MS) (P S0 : Type) (alg : algorithm I MS P S0)
  (PS : Type) (progress : PS -> S0 -> population I -> M (bool * PS * S0)) (J : S0 -> Prop)
  (fuel : nat) (s : S0) (q : P) (init : list I) (ps : PS) (r : run_result I S0 PS),
  kept alg progress q J -> default_elites alg J -> (forall s, J s -> snd (alg_reproduction_parameters alg s) <= 2) ->
  may (evolve_population io fexp mdl alg progress fuel s init q ps) r ->
  exists p0 x, nth_error (r_trace r) 0 = Some p0 /\ fittest p0 = Ret x /\
    forall k p, 1 <= k -> nth_error (r_trace r) k = Some p -> individuals p = [x].
Proof. exact @custom_stuck. Qed.
Print Assumptions C91_default_elites_stuck.
Example C91_example_default : (exists J, kept ex_custom (quiet (stop_at 2)) (ex_eager 2) J /\ default_elites ex_custom J /\
    forall s, J s -> snd (alg_reproduction_parameters ex_custom s) <= 2) /\
  exists r, may (ex_custom_run 2) r /\ map (@individuals nat) (r_trace r) = [[3; 9]; [9]; [9]].
Proof. exact c90_small_example. Qed.
(** ... and so do the genetic algorithms when all but one individual are elite:
    they show their initial elites for ever. *)
Theorem C91_ga_stuck :
forall (I : Type) (io : individual_ops I) (fexp : f64 -> f64) (MS : Type) (mdl : model I MS) (PS : Type)
  (f : PS -> population I -> M (bool * PS)) (fuel : nat) (s : ga_state I MS) (init : list I) (q : ga_params) (ps : PS)
  (r : run_result I (ga_state I MS) PS) (p0 : population I),
  (Z.of_nat (ga_population_size q) <= 2 ^ 53)%Z ->
  (INR (ga_population_size q) - 1 <= INR (ga_population_size q) * B2R (ga_elitism_rate q))%R ->
  may (evolve_population io fexp mdl (ga_algorithm io fexp mdl) (quiet f) fuel s init q ps) r ->
  nth_error (r_trace r) 0 = Some p0 -> ga_population_size q - 1 <= length (individuals p0) -> all_different io (individuals p0) ->
  forall k p, 1 <= k -> nth_error (r_trace r) k = Some p -> Permutation (top (ga_population_size q - 1) p0) (individuals p).
Proof. exact @ga_stuck. Qed.
Print Assumptions C91_ga_stuck.
Theorem C91_aga_stuck :
forall (I : Type) (io : individual_ops I) (fexp : f64 -> f64) (MS : Type) (mdl : model I MS) (PS : Type)
  (f : PS -> population I -> M (bool * PS)) (fuel : nat) (s : aga_state I MS) (init : list I) (q : aga_params) (ps : PS)
  (r : run_result I (aga_state I MS) PS) (p0 : population I),
  (Z.of_nat (aga_population_size q) <= 2 ^ 53)%Z ->
  (INR (aga_population_size q) - 1 <= INR (aga_population_size q) * B2R (aga_elitism_rate q))%R ->
  may (evolve_population io fexp mdl (aga_algorithm io fexp mdl) (quiet f) fuel s init q ps) r ->
  nth_error (r_trace r) 0 = Some p0 -> aga_population_size q - 1 <= length (individuals p0) -> all_different io (individuals p0) ->
  forall k p, 1 <= k -> nth_error (r_trace r) k = Some p -> Permutation (top (aga_population_size q - 1) p0) (individuals p).
Proof. exact @aga_stuck. Qed.
Print Assumptions C91_aga_stuck.
Example C91_example : (INR (ga_population_size (ex_eager 2)) - 1 <= INR (ga_population_size (ex_eager 2)) * B2R (ga_elitism_rate (ex_eager 2)))%R /\
  all_different ex_io [3; 9] /\
  (exists r, may ex_stuck r /\ map (@individuals nat) (r_trace r) = [[3; 9]; [9]; [9]]) /\
  (exists r, may ex_stuck_a r /\ map (@individuals nat) (r_trace r) = [[3; 9]; [9]; [9]]).
Proof. exact c91_example. Qed.
