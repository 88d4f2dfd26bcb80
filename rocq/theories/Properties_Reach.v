(** * Properties_Reach: what runs can reach (C85). *)
From Coq Require Import List Bool Arith NArith ZArith Reals.
From Flocq Require Import Core BinarySingleNaN.
From Verif Require Import Rnd F64 MStats MPopulation MSelection MModel MAlgorithms MOneMax SpecF SpecA SpecR PReach2 PReach3.
Import ListNotations.

(** C85: let [ev] be initial individuals as evaluation may leave them, at least one
    of them valid. If improving mutations lead from each fittest valid one to
    an individual that meets the goal, then a genetic algorithm that both copies and
    mutates and that selects by rank has an execution that gets there: the
    mechanism never rules out the current best as the only parent, its improved
    mutant survives, and nothing pushes it out of the next generation. *)
Theorem C85_ga_reaches :
forall (I : Type) (io : individual_ops I) (fexp : f64 -> f64) (MS : Type) (mdl : model I MS) (PS : Type)
  (goal : I -> bool) (s : ga_state I MS) (init ev : list I) (q : ga_params) (ps : PS),
  valid_is_number io -> equal_means_equal_fitness io -> default_hook mdl ->
  ga_accepted q -> explores q -> rank_based (ga_selection_strategy q) ->
  (Z.of_nat (length init) <= 2 ^ 20)%Z ->
  Forall2 (fun x x' => may (m_evaluate mdl (ga_model s) x) x') init ev ->
  (exists x, In x ev /\ is_valid io x = true) ->
  (forall x, In x ev -> is_valid io x = true ->
     (forall z, In z ev -> is_valid io z = true -> fle (fitness io z) (fitness io x) = true) ->
     exists y, climbs io mdl (ga_model s) x y /\ goal y = true) ->
  exists fuel r y, may (evolve_population io fexp mdl (ga_algorithm io fexp mdl) (quiet (until goal)) fuel s init q ps) r /\
    In y (individuals (r_population r)) /\ goal y = true.
Proof. exact @ga_reaches. Qed.
Print Assumptions C85_ga_reaches.
Example C85_climbs_example : valid_is_number onemax_ops /\ equal_means_equal_fitness onemax_ops /\ default_hook onemax_model /\
  rank_based (StTournament 3) /\
  exists ev, Forall2 (fun x x' => may (m_evaluate onemax_model tt x) x') [onemax_from [false; false]; onemax_from [true; false]] ev /\
    (exists x, In x ev /\ is_valid onemax_ops x = true) /\
    (forall x, In x ev -> is_valid onemax_ops x = true ->
       (forall z, In z ev -> is_valid onemax_ops z = true -> fle (fitness onemax_ops z) (fitness onemax_ops x) = true) ->
       exists y, climbs onemax_ops onemax_model tt x y /\ all_ones y = true).
Proof. exact c85_climbs. Qed.

(** OneMax can be solved from every initial population that has a one somewhere
    (and, by C76, from no other), also with roulette wheel selection: ... *)
Theorem C85_onemax_reaches_optimum :
forall (n : nat), 1 <= n -> (Z.of_nat n <= 2 ^ 53)%Z ->
forall (PS : Type) (fexp : f64 -> f64) (s : ga_state onemax unit) (init : list onemax) (q : ga_params) (ps : PS),
  ga_accepted q -> explores q -> (rank_based (ga_selection_strategy q) \/ ga_selection_strategy q = StRouletteWheel) ->
  (Z.of_nat (length init) <= 2 ^ 20)%Z -> (forall x, In x init -> length (genome x) = n) ->
  (exists x, In x init /\ In true (genome x)) ->
  exists fuel r x, may (evolve_population onemax_ops fexp onemax_model (ga_algorithm onemax_ops fexp onemax_model) (quiet (until all_ones)) fuel s init q ps) r /\
    take_fittest (r_population r) = Ret x /\ length (genome x) = n /\ Forall (eq true) (genome x).
Proof. exact @ga_om_reach. Qed.
Print Assumptions C85_onemax_reaches_optimum.
(** ... and evolve_individual can return the optimum for every seed that has a one. *)
Theorem C85_onemax_seed_reaches_optimum :
forall (n : nat), 1 <= n -> (Z.of_nat n <= 2 ^ 53)%Z ->
forall (PS : Type) (fexp : f64 -> f64) (s : ga_state onemax unit) (seed : onemax) (q : ga_params) (ps : PS),
  ga_accepted q -> explores q -> (rank_based (ga_selection_strategy q) \/ ga_selection_strategy q = StRouletteWheel) ->
  length (genome seed) = n -> In true (genome seed) ->
  exists fuel x r, may (evolve_individual onemax_ops fexp onemax_model (ga_algorithm onemax_ops fexp onemax_model) (quiet (until all_ones)) fuel s seed q ps) (x, r) /\
    length (genome x) = n /\ Forall (eq true) (genome x).
Proof. exact @ga_om_individual. Qed.
Print Assumptions C85_onemax_seed_reaches_optimum.
(** The default parameters meet the conditions *)
Example C85_default_parameters : ga_accepted ga_params_default /\ explores ga_params_default /\ ga_selection_strategy ga_params_default = StRouletteWheel.
Proof. exact default_explores. Qed.
Example C85_example : In true (genome (onemax_from [true; false; false])) /\
  om_climb [2; 5; 1; 3; 4; 5; 4; 1; 2; 4; 0; 5; 3; 4; 3; 3; 2; 4; 4; 5; 5; 5; 0; 3]%N = Some ([true; true; true], 4).
Proof. exact c85_example. Qed.
