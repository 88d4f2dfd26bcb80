(** * Properties_ReachAga: what runs of the adaptive algorithm can reach (C134). *)
From Coq Require Import List Bool Arith NArith ZArith Reals.
From Flocq Require Import Core BinarySingleNaN.
From Verif Require Import Rnd F64 MStats MPopulation MSelection MModel MAlgorithms MOneMax SpecF SpecA SpecR SpecL PReach4 PConv6.
Import ListNotations.

(** C134: let [ev] be initial individuals as evaluation may leave them, at least one
    of them valid. If improving mutations lead from each fittest valid one to the
    goal, the adaptive algorithm has an execution that gets there, with or without
    elites, however its rates move within their ranges. *)
Theorem C134_aga_reaches :
forall (I : Type) (io : individual_ops I) (fexp : f64 -> f64) (MS : Type) (mdl : model I MS) (PS : Type)
  (good : I -> Prop) (goal : I -> bool) (s : aga_state I MS) (init ev : list I) (q : aga_params) (ps : PS),
  valid_is_number io -> equal_means_equal_fitness io -> default_hook mdl ->
  aga_accepted q -> aga_explores q -> rank_based (aga_selection_strategy q) ->
  (Z.of_nat (length init) <= 2 ^ 20)%Z ->
  Forall2 (fun x x' => may (m_evaluate mdl (aga_model s) x) x') init ev ->
  (exists x, In x ev /\ is_valid io x = true) ->
  (forall x, In x ev -> is_valid io x = true -> good x) ->
  (forall x, In x ev -> is_valid io x = true ->
     (forall z, In z ev -> is_valid io z = true -> fle (fitness io z) (fitness io x) = true) ->
     exists y, climbs io mdl (aga_model s) x y /\ goal y = true) ->
  (forall x y, good x -> mutation_improves io mdl (aga_model s) x y -> good y) ->
  diverse_start io mdl good q (aga_model s) init ->
  exists fuel r y, may (evolve_population io fexp mdl (aga_algorithm io fexp mdl) (quiet (until goal)) fuel s init q ps) r /\
    In y (individuals (r_population r)) /\ goal y = true.
Proof. exact @aga_reaches. Qed.
Print Assumptions C134_aga_reaches.

(** OneMax meets all of that: two initial genomes with different numbers of ones
    make the start diverse, whatever the others are. *)
Theorem C134_onemax_reaches_optimum :
forall (n : nat), 1 <= n ->
forall (PS : Type) (fexp : f64 -> f64) (q : aga_params) (s : aga_state onemax unit) (init : list onemax) (x y : onemax) (ps : PS),
  aga_accepted q -> aga_explores q -> rank_based (aga_selection_strategy q) ->
  (Z.of_nat (length init) <= 2 ^ 20)%Z -> (INR n * INR (length init) <= bpow radix2 20)%R ->
  (forall z, In z init -> length (genome z) = n) ->
  In x init -> In y init -> count_occ Bool.bool_dec (genome y) true < count_occ Bool.bool_dec (genome x) true ->
  exists fuel r z, may (evolve_population onemax_ops fexp onemax_model (aga_algorithm onemax_ops fexp onemax_model) (quiet (until all_ones)) fuel s init q ps) r /\
    In z (individuals (r_population r)) /\ all_ones z = true.
Proof. exact om_aga_reaches. Qed.
Print Assumptions C134_onemax_reaches_optimum.

(** Parameters without elites and an initial population that meet the conditions *)
Example C134_example :
  aga_accepted c134_params /\ aga_explores c134_params /\ rank_based (aga_selection_strategy c134_params) /\
  (INR 3 * INR (length c134_init) <= bpow radix2 20)%R /\
  (forall z, In z c134_init -> length (genome z) = 3) /\
  exists x y, In x c134_init /\ In y c134_init /\ count_occ Bool.bool_dec (genome y) true < count_occ Bool.bool_dec (genome x) true.
Proof. exact c134_example. Qed.
