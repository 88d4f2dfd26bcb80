(** * Properties_Tour: searching for a best tour (C109). *)
From Coq Require Import List Bool Arith NArith ZArith Reals Permutation Factorial.
From Flocq Require Import Core BinarySingleNaN.
From Verif Require Import Rnd Prob F64 MStats MCrossover MMutation MPopulation MSelection MModel MAlgorithms
  Spec SpecF SpecA SpecB SpecK SpecR SpecL SpecT PTour.
Import ListNotations.

(** C109: with scramble mutation the run finds a tour as fit as any tour there is,
    whatever the score, and how soon. *)
Theorem C109_ga_finds_best :
  forall (G : Type) (eqb ltb : G -> G -> bool) (steps : nat) (cs : crossover_strategy) (score : list G -> f64) (cities best : list G) (target : f64)
    (PS : Type) (fexp : f64 -> f64) (q : ga_params) (g : nat) (s : ga_state (tour G) unit) (init : list (tour G)) (ps : PS),
  eq_ok eqb -> cs <> SinglePoint -> NoDup cities -> 2 <= length cities < steps ->
  Permutation cities best -> is_finite (score best) = true -> fle target (score best) = true ->
  ga_accepted q -> explores q -> (1 <= INR (ga_population_size q) * B2R (ga_elitism_rate q))%R ->
  rank_based (ga_selection_strategy q) -> robust_strategy (ga_selection_strategy q) ->
  (Z.of_nat (length init) <= 2 ^ 20)%Z ->
  (forall x, In x init -> Permutation cities (route x)) -> (exists x, In x init /\ is_finite (score (route x)) = true) ->
  (1 - generations (Nat.max (ga_population_size q) (length init)) q 1 (/ (INR (length cities - 1) * INR (fact (length cities)))) / INR (S g) <=
   prob (evolve_population (tour_ops eqb) fexp (tour_model eqb ltb steps cs Scramble score)
     (ga_algorithm (tour_ops eqb) fexp (tour_model eqb ltb steps cs Scramble score)) (quiet (until (reaches target))) (S g) s init q ps)
     (fun r => existsb (reaches target) (individuals (r_population r))))%R.
Proof. exact @tour_conv_all. Qed.
Print Assumptions C109_ga_finds_best.

Theorem C109_ga_finds_best_almost_surely :
  forall (G : Type) (eqb ltb : G -> G -> bool) (steps : nat) (cs : crossover_strategy) (score : list G -> f64) (cities best : list G) (target : f64)
    (PS : Type) (fexp : f64 -> f64) (q : ga_params) (s : ga_state (tour G) unit) (init : list (tour G)) (ps : PS),
  eq_ok eqb -> cs <> SinglePoint -> NoDup cities -> 2 <= length cities < steps ->
  Permutation cities best -> is_finite (score best) = true -> fle target (score best) = true ->
  ga_accepted q -> explores q -> (1 <= INR (ga_population_size q) * B2R (ga_elitism_rate q))%R ->
  rank_based (ga_selection_strategy q) -> robust_strategy (ga_selection_strategy q) ->
  (Z.of_nat (length init) <= 2 ^ 20)%Z ->
  (forall x, In x init -> Permutation cities (route x)) -> (exists x, In x init /\ is_finite (score (route x)) = true) ->
  forall eta, (0 < eta)%R -> exists fuel0, forall fuel, fuel0 <= fuel ->
  (1 - eta <= prob (evolve_population (tour_ops eqb) fexp (tour_model eqb ltb steps cs Scramble score)
     (ga_algorithm (tour_ops eqb) fexp (tour_model eqb ltb steps cs Scramble score)) (quiet (until (reaches target))) fuel s init q ps)
     (fun r => existsb (reaches target) (individuals (r_population r))))%R.
Proof. exact @tour_certain. Qed.
Print Assumptions C109_ga_finds_best_almost_surely.

Theorem C109_aga_finds_best :
  forall (G : Type) (eqb ltb : G -> G -> bool) (steps : nat) (cs : crossover_strategy) (score : list G -> f64) (cities best : list G) (target : f64)
    (PS : Type) (fexp : f64 -> f64) (q : aga_params) (g : nat) (s : aga_state (tour G) unit) (init : list (tour G)) (ps : PS),
  eq_ok eqb -> cs <> SinglePoint -> NoDup cities -> 2 <= length cities < steps ->
  Permutation cities best -> is_finite (score best) = true -> fle target (score best) = true ->
  aga_accepted q -> aga_explores q -> (1 <= INR (aga_population_size q) * B2R (aga_elitism_rate q))%R ->
  rank_based (aga_selection_strategy q) -> robust_strategy (aga_selection_strategy q) ->
  (Z.of_nat (length init) <= 2 ^ 20)%Z ->
  (forall x, In x init -> Permutation cities (route x)) -> (exists x, In x init /\ is_finite (score (route x)) = true) ->
  diverse_start (tour_ops eqb) (tour_model eqb ltb steps cs Scramble score)
    (fun x => Permutation cities (route x) /\ tour_fitness x = score (route x)) q (aga_model s) init ->
  (1 - aga_generations (Nat.max (aga_population_size q) (length init)) q 1 (/ (INR (length cities - 1) * INR (fact (length cities)))) / INR (S g) <=
   prob (evolve_population (tour_ops eqb) fexp (tour_model eqb ltb steps cs Scramble score)
     (aga_algorithm (tour_ops eqb) fexp (tour_model eqb ltb steps cs Scramble score)) (quiet (until (reaches target))) (S g) s init q ps)
     (fun r => existsb (reaches target) (individuals (r_population r))))%R.
Proof. exact @tour_aga_conv. Qed.
Print Assumptions C109_aga_finds_best.
Example C109_example :
  eq_ok Nat.eqb /\ NoDup [0; 1; 2; 3] /\ Permutation [0; 1; 2; 3] [1; 0; 3; 2] /\
  is_finite (trap_score [1; 0; 3; 2]) = true /\ fle (f_of_nat 10) (trap_score [1; 0; 3; 2]) = true /\ is_finite (trap_score [0; 1; 2; 3]) = true /\
  ga_accepted c109_params /\ explores c109_params /\ 2 <= ga_population_size c109_params /\ fits_usize (ga_population_size c109_params) /\
  (1 <= INR (ga_population_size c109_params) * B2R (ga_elitism_rate c109_params))%R /\
  rank_based (ga_selection_strategy c109_params) /\ robust_strategy (ga_selection_strategy c109_params).
Proof. exact c109_example. Qed.
Example C109_aga_example :
  aga_accepted c109_aga_params /\ aga_explores c109_aga_params /\
  (1 <= INR (aga_population_size c109_aga_params) * B2R (aga_elitism_rate c109_aga_params))%R /\
  rank_based (aga_selection_strategy c109_aga_params) /\ robust_strategy (aga_selection_strategy c109_aga_params) /\
  diverse_start (tour_ops Nat.eqb) (tour_model Nat.eqb Nat.ltb 5 Cycle Scramble trap_score)
    (fun x => Permutation [0; 1; 2; 3] (route x) /\ tour_fitness x = trap_score (route x)) c109_aga_params tt [mkTour [0; 1; 2; 3] f0].
Proof. exact c109_aga_example. Qed.

(** From copies of a local optimum of the mutation, neither algorithm ever shows
    anything else, whatever the model, the parameters and the progress closure. *)
Theorem C109_ga_local_optimum :
  forall (I : Type) (io : individual_ops I) (fexp : f64 -> f64) (MS : Type) (mdl : model I MS) (PS : Type) (x0 : I)
    (f : PS -> population I -> M (bool * PS)) (fuel : nat) (s : ga_state I MS) (init : list I) (q : ga_params) (ps : PS)
    (r : run_result I (ga_state I MS) PS),
  local_optimum io mdl x0 -> selector_left_alone mdl -> fits_usize (ga_population_size q) -> fits_usize (length init) ->
  (forall ms x y, In x init -> may (m_evaluate mdl ms x) y -> y = x0) ->
  may (evolve_population io fexp mdl (ga_algorithm io fexp mdl) (quiet f) fuel s init q ps) r ->
  forall p x, In p (r_trace r) -> In x (individuals p) -> x = x0.
Proof. exact @ga_local. Qed.
Print Assumptions C109_ga_local_optimum.
Theorem C109_aga_local_optimum :
  forall (I : Type) (io : individual_ops I) (fexp : f64 -> f64) (MS : Type) (mdl : model I MS) (PS : Type) (x0 : I)
    (f : PS -> population I -> M (bool * PS)) (fuel : nat) (s : aga_state I MS) (init : list I) (q : aga_params) (ps : PS)
    (r : run_result I (aga_state I MS) PS),
  local_optimum io mdl x0 -> selector_left_alone mdl -> fits_usize (aga_population_size q) -> fits_usize (length init) ->
  (forall ms x y, In x init -> may (m_evaluate mdl ms x) y -> y = x0) ->
  may (evolve_population io fexp mdl (aga_algorithm io fexp mdl) (quiet f) fuel s init q ps) r ->
  forall p x, In p (r_trace r) -> In x (individuals p) -> x = x0.
Proof. exact @aga_local. Qed.
Print Assumptions C109_aga_local_optimum.
Example C109_local_example :
  local_optimum (tour_ops Nat.eqb) (tour_model Nat.eqb Nat.ltb 5 Cycle Swap trap_score) (mkTour [0; 1; 2; 3] (f_of_nat 5)).
Proof. exact (trap_optimum Nat.ltb 5 Cycle Swap (or_introl eq_refl)). Qed.

(** With the other mutations of permutations the search may fail for ever: from one
    tour, a run that waits for a tour that is there neither ends nor panics. *)
Theorem C109_other_mutations_refuted :
  forall (mu : mutation_strategy), mu = Swap \/ mu = Inversion \/ mu = Insertion ->
  exists (score : list nat -> f64) (cities best : list nat) (target : f64) (seed : tour nat),
  NoDup cities /\ Permutation cities best /\ is_finite (score best) = true /\ fle target (score best) = true /\
  Permutation cities (route seed) /\ is_finite (score (route seed)) = true /\
  forall (ltb : nat -> nat -> bool) (steps : nat) (cs : crossover_strategy), cs <> SinglePoint -> length cities < steps ->
  (forall (PS : Type) (fexp : f64 -> f64) (q : ga_params) (s : ga_state (tour nat) unit) (ps : PS) (fuel : nat),
   ga_accepted q -> 2 <= ga_population_size q -> fits_usize (ga_population_size q) -> robust_strategy (ga_selection_strategy q) ->
   let run := evolve_population (tour_ops Nat.eqb) fexp (tour_model Nat.eqb ltb steps cs mu score)
     (ga_algorithm (tour_ops Nat.eqb) fexp (tour_model Nat.eqb ltb steps cs mu score)) (quiet (until (reaches target))) fuel s [seed] q ps in
   (forall r, ~ may run r) /\ ~ may_fail run Panic) /\
  (forall (PS : Type) (fexp : f64 -> f64) (q : aga_params) (s : aga_state (tour nat) unit) (ps : PS) (fuel : nat),
   aga_accepted q -> 2 <= aga_population_size q -> fits_usize (aga_population_size q) -> robust_strategy (aga_selection_strategy q) ->
   let run := evolve_population (tour_ops Nat.eqb) fexp (tour_model Nat.eqb ltb steps cs mu score)
     (aga_algorithm (tour_ops Nat.eqb) fexp (tour_model Nat.eqb ltb steps cs mu score)) (quiet (until (reaches target))) fuel s [seed] q ps in
   (forall r, ~ may run r) /\ ~ may_fail run Panic).
Proof. exact trap_refutes. Qed.
Print Assumptions C109_other_mutations_refuted.
