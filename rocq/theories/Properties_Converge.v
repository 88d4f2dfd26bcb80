(** * Properties_Converge: how soon a run finds the goal (C92, C96). *)
From Coq Require Import List Bool Arith NArith ZArith Reals.
From Flocq Require Import Core BinarySingleNaN.
From Verif Require Import Rnd Prob F64 MStats MPopulation MSelection MModel MAlgorithms MOneMax SpecF SpecA SpecK SpecR SpecL
  PConv3 PConv4 PConv5 PConv6.
Import ListNotations.

Theorem C92_finds_goal :
  forall (I MS PS : Type) (io : individual_ops I) (fexp : f64 -> f64) (mdl : model I MS) (raw good : I -> Prop) (goal : I -> bool)
    (level : I -> nat) (low top : nat) (eps : R) (q : ga_params) (g : nat) (s : ga_state I MS) (init : list I) (ps : PS),
  valid_is_number io -> equal_means_equal_fitness io ->
  total_model mdl raw -> keeps mdl raw good -> rates_left_alone mdl -> default_survival io mdl ->
  ladder io mdl good goal level low top eps -> (0 < eps)%R -> low <= top ->
  ga_accepted q -> explores q -> (1 <= INR (ga_population_size q) * B2R (ga_elitism_rate q))%R ->
  rank_based (ga_selection_strategy q) -> robust_strategy (ga_selection_strategy q) ->
  (Z.of_nat (length init) <= 2 ^ 20)%Z ->
  startable_at io mdl raw level low (ga_model s) init ->
  (1 - generations (Nat.max (ga_population_size q) (length init)) q (top - low) eps / INR (S g) <=
   prob (evolve_population io fexp mdl (ga_algorithm io fexp mdl) (quiet (until goal)) (S g) s init q ps)
     (fun r => existsb goal (individuals (r_population r))))%R.
Proof. exact (fun I MS PS io fexp mdl => @ga_rank_conv I io fexp MS mdl PS). Qed.
Print Assumptions C92_finds_goal.

Theorem C92_finds_goal_almost_surely :
  forall (I MS PS : Type) (io : individual_ops I) (fexp : f64 -> f64) (mdl : model I MS) (raw good : I -> Prop) (goal : I -> bool)
    (level : I -> nat) (low top : nat) (eps : R) (q : ga_params) (s : ga_state I MS) (init : list I) (ps : PS),
  valid_is_number io -> equal_means_equal_fitness io ->
  total_model mdl raw -> keeps mdl raw good -> rates_left_alone mdl -> default_survival io mdl ->
  ladder io mdl good goal level low top eps -> (0 < eps)%R -> low <= top ->
  ga_accepted q -> explores q -> (1 <= INR (ga_population_size q) * B2R (ga_elitism_rate q))%R ->
  rank_based (ga_selection_strategy q) -> robust_strategy (ga_selection_strategy q) ->
  (Z.of_nat (length init) <= 2 ^ 20)%Z ->
  startable_at io mdl raw level low (ga_model s) init ->
  forall eta, (0 < eta)%R -> exists fuel0, forall fuel, fuel0 <= fuel ->
  (1 - eta <= prob (evolve_population io fexp mdl (ga_algorithm io fexp mdl) (quiet (until goal)) fuel s init q ps)
     (fun r => existsb goal (individuals (r_population r))))%R.
Proof. exact (fun I MS PS io fexp mdl => @ga_rank_certain I io fexp MS mdl PS). Qed.
Print Assumptions C92_finds_goal_almost_surely.
Example C92_ladder_example :
  valid_is_number onemax_ops /\ equal_means_equal_fitness onemax_ops /\
  total_model onemax_model (fun x => length (genome x) = 3) /\
  keeps onemax_model (fun x => length (genome x) = 3) (fun x => length (genome x) = 3 /\ onemax_evaluate tt x = Ret x) /\
  rates_left_alone onemax_model /\ default_survival onemax_ops onemax_model /\
  ladder onemax_ops onemax_model (fun x => length (genome x) = 3 /\ onemax_evaluate tt x = Ret x) all_ones
    (fun x => count_occ Bool.bool_dec (genome x) true) 1 3 (/ 3) /\
  startable_at onemax_ops onemax_model (fun x => length (genome x) = 3) (fun x => count_occ Bool.bool_dec (genome x) true) 1 tt
    [onemax_from [false; true; false]] /\
  rank_based (StTournament 3) /\ robust_strategy (StTournament 3).
Proof. exact c92_ladder_example. Qed.

Theorem C92_onemax_seed :
  forall (n : nat), 1 <= n -> (Z.of_nat n <= 2 ^ 53)%Z ->
  forall (PS : Type) (fexp : f64 -> f64) (q : ga_params),
  ga_accepted q -> explores q -> (1 <= INR (ga_population_size q) * B2R (ga_elitism_rate q))%R ->
  (rank_based (ga_selection_strategy q) /\ robust_strategy (ga_selection_strategy q)) \/ ga_selection_strategy q = StRouletteWheel ->
  forall (g : nat) (s : ga_state onemax unit) (seed : onemax) (ps : PS),
  length (genome seed) = n -> In true (genome seed) ->
  (1 - generations (ga_population_size q) q (n - 1) (/ INR n) / INR (S g) <=
   prob (evolve_individual onemax_ops fexp onemax_model (ga_algorithm onemax_ops fexp onemax_model) (quiet (until all_ones)) (S g) s seed q ps)
     (fun o => all_ones (fst o)))%R.
Proof. exact @om_individual_conv. Qed.
Print Assumptions C92_onemax_seed.

Theorem C92_onemax_run :
  forall (n : nat), 1 <= n -> (Z.of_nat n <= 2 ^ 53)%Z ->
  forall (PS : Type) (fexp : f64 -> f64) (q : ga_params),
  ga_accepted q -> explores q -> (1 <= INR (ga_population_size q) * B2R (ga_elitism_rate q))%R ->
  (rank_based (ga_selection_strategy q) /\ robust_strategy (ga_selection_strategy q)) \/ ga_selection_strategy q = StRouletteWheel ->
  forall (g : nat) (s : ga_state onemax unit) (ps : PS),
  ((1 - (1 / 2) ^ (n * ga_population_size q)) * (1 - generations (ga_population_size q) q (n - 1) (/ INR n) / INR (S g)) <=
   prob (evolution_run onemax_ops fexp onemax_model (ga_algorithm onemax_ops fexp onemax_model) (quiet (until all_ones)) (S g) s
           (onemax_new_random n) q ps)
     (fun o => all_ones (fst o)))%R.
Proof. exact @om_run_conv. Qed.
Print Assumptions C92_onemax_run.
Example C92_example :
  ga_accepted ga_params_default /\ explores ga_params_default /\
  (1 <= INR (ga_population_size ga_params_default) * B2R (ga_elitism_rate ga_params_default))%R /\
  ga_selection_strategy ga_params_default = StRouletteWheel /\
  length (genome (onemax_from [true; false; false])) = 3 /\ In true (genome (onemax_from [true; false; false])).
Proof. exact c92_example. Qed.

(** C96: the adaptive algorithm *)
Theorem C96_aga_finds_goal :
  forall (I MS PS : Type) (io : individual_ops I) (fexp : f64 -> f64) (mdl : model I MS) (raw good : I -> Prop) (goal : I -> bool)
    (level : I -> nat) (low top : nat) (eps : R) (q : aga_params) (g : nat) (s : aga_state I MS) (init : list I) (ps : PS),
  valid_is_number io -> equal_means_equal_fitness io ->
  total_model mdl raw -> keeps mdl raw good -> rates_left_alone mdl -> default_survival io mdl ->
  ladder io mdl good goal level low top eps -> (0 < eps)%R -> low <= top ->
  aga_accepted q -> aga_explores q -> (1 <= INR (aga_population_size q) * B2R (aga_elitism_rate q))%R ->
  rank_based (aga_selection_strategy q) -> robust_strategy (aga_selection_strategy q) ->
  (Z.of_nat (length init) <= 2 ^ 20)%Z ->
  startable_at io mdl raw level low (aga_model s) init ->
  diverse_start io mdl good q (aga_model s) init ->
  (1 - aga_generations (Nat.max (aga_population_size q) (length init)) q (top - low) eps / INR (S g) <=
   prob (evolve_population io fexp mdl (aga_algorithm io fexp mdl) (quiet (until goal)) (S g) s init q ps)
     (fun r => existsb goal (individuals (r_population r))))%R.
Proof. exact (fun I MS PS io fexp mdl => @aga_rank_conv I io fexp MS mdl PS). Qed.
Print Assumptions C96_aga_finds_goal.

Theorem C96_aga_finds_goal_almost_surely :
  forall (I MS PS : Type) (io : individual_ops I) (fexp : f64 -> f64) (mdl : model I MS) (raw good : I -> Prop) (goal : I -> bool)
    (level : I -> nat) (low top : nat) (eps : R) (q : aga_params) (s : aga_state I MS) (init : list I) (ps : PS),
  valid_is_number io -> equal_means_equal_fitness io ->
  total_model mdl raw -> keeps mdl raw good -> rates_left_alone mdl -> default_survival io mdl ->
  ladder io mdl good goal level low top eps -> (0 < eps)%R -> low <= top ->
  aga_accepted q -> aga_explores q -> (1 <= INR (aga_population_size q) * B2R (aga_elitism_rate q))%R ->
  rank_based (aga_selection_strategy q) -> robust_strategy (aga_selection_strategy q) ->
  (Z.of_nat (length init) <= 2 ^ 20)%Z ->
  startable_at io mdl raw level low (aga_model s) init ->
  diverse_start io mdl good q (aga_model s) init ->
  forall eta, (0 < eta)%R -> exists fuel0, forall fuel, fuel0 <= fuel ->
  (1 - eta <= prob (evolve_population io fexp mdl (aga_algorithm io fexp mdl) (quiet (until goal)) fuel s init q ps)
     (fun r => existsb goal (individuals (r_population r))))%R.
Proof. exact (fun I MS PS io fexp mdl => @aga_rank_certain I io fexp MS mdl PS). Qed.
Print Assumptions C96_aga_finds_goal_almost_surely.

(** OneMax: two initial genomes with different numbers of ones are enough. *)
Theorem C96_onemax_finds_optimum :
  forall (n : nat), 1 <= n ->
  forall (PS : Type) (fexp : f64 -> f64) (q : aga_params),
  aga_accepted q -> aga_explores q -> (1 <= INR (aga_population_size q) * B2R (aga_elitism_rate q))%R ->
  (rank_based (aga_selection_strategy q) /\ robust_strategy (aga_selection_strategy q)) \/ aga_selection_strategy q = StRouletteWheel ->
  forall (g : nat) (s : aga_state onemax unit) (init : list onemax) (x y : onemax) (ps : PS),
  (Z.of_nat (length init) <= 2 ^ 20)%Z -> (INR n * INR (length init) <= bpow radix2 20)%R ->
  (forall z, In z init -> length (genome z) = n) ->
  In x init -> In y init -> count_occ Bool.bool_dec (genome y) true < count_occ Bool.bool_dec (genome x) true ->
  (1 - aga_generations (Nat.max (aga_population_size q) (length init)) q (n - 1) (/ INR n) / INR (S g) <=
   prob (evolve_population onemax_ops fexp onemax_model (aga_algorithm onemax_ops fexp onemax_model) (quiet (until all_ones)) (S g) s init q ps)
     (fun r => existsb all_ones (individuals (r_population r))))%R.
Proof. exact @om_aga_conv. Qed.
Print Assumptions C96_onemax_finds_optimum.
Example C96_example :
  aga_accepted c96_params /\ aga_explores c96_params /\
  (1 <= INR (aga_population_size c96_params) * B2R (aga_elitism_rate c96_params))%R /\
  (INR 3 * INR (length c96_init) <= bpow radix2 20)%R /\ (forall z, In z c96_init -> length (genome z) = 3) /\
  exists x y, In x c96_init /\ In y c96_init /\ count_ones (genome y) < count_ones (genome x).
Proof. exact c96_example. Qed.
