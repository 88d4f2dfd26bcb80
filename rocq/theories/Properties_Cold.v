(** * Properties_Cold: runs with Boltzmann selection that have cooled down (C98). *)
From Coq Require Import List Arith Reals.
From Flocq Require Import Core BinarySingleNaN.
From Verif Require Import Rnd Prob F64 MStats MPopulation MSelection MModel MAlgorithms SpecF SpecA SpecH SpecE ExF ExM ExR ExH PBoltz.
Import ListNotations.

(** C98: once temperature * cooling_rate^(K+1) has fallen below the 710th part of
    the lowest fitness, the fittest individuals are no longer parents. *)
Theorem C98_ga_bred_from_worst :
  forall (I : Type) (io : individual_ops I) (fexp : f64 -> f64) (MS : Type) (mdl : model I MS) (PS : Type)
    (t c : f64) (a : R) (K : nat),
  exp_overflows fexp -> (forall x, ieq io x x = true) ->
  (forall x, is_valid io x = true -> at_least a (fitness io x)) ->
  is_finite t = true -> is_finite c = true -> (0 < B2R t)%R -> (0 < B2R c < 1)%R -> (bpow radix2 (-1000) <= a)%R ->
  (B2R t * (B2R c * (1 + bpow radix2 (-53))) ^ S K * 710 <= a)%R ->
  forall (f : PS -> population I -> M (bool * PS)) (fuel : nat) (s : ga_state I MS) (init : list I) (q : ga_params) (ps : PS)
    (r : run_result I (ga_state I MS) PS),
  selector_left_alone mdl -> fits_usize (ga_population_size q) -> fits_usize (length init) ->
  ga_selection_strategy q = StBoltzmann t c ->
  may (evolve_population io fexp mdl (ga_algorithm io fexp mdl) (quiet f) fuel s init q ps) r ->
  exists e, elite_count (ga_population_size q) (ga_elitism_rate q) e /\ bred_from_worst io fexp mdl e K (r_trace r).
Proof. exact @ga_cold. Qed.
Print Assumptions C98_ga_bred_from_worst.
Theorem C98_aga_bred_from_worst :
  forall (I : Type) (io : individual_ops I) (fexp : f64 -> f64) (MS : Type) (mdl : model I MS) (PS : Type)
    (t c : f64) (a : R) (K : nat),
  exp_overflows fexp -> (forall x, ieq io x x = true) ->
  (forall x, is_valid io x = true -> at_least a (fitness io x)) ->
  is_finite t = true -> is_finite c = true -> (0 < B2R t)%R -> (0 < B2R c < 1)%R -> (bpow radix2 (-1000) <= a)%R ->
  (B2R t * (B2R c * (1 + bpow radix2 (-53))) ^ S K * 710 <= a)%R ->
  forall (f : PS -> population I -> M (bool * PS)) (fuel : nat) (s : aga_state I MS) (init : list I) (q : aga_params) (ps : PS)
    (r : run_result I (aga_state I MS) PS),
  selector_left_alone mdl -> fits_usize (aga_population_size q) -> fits_usize (length init) ->
  aga_selection_strategy q = StBoltzmann t c ->
  may (evolve_population io fexp mdl (aga_algorithm io fexp mdl) (quiet f) fuel s init q ps) r ->
  exists e, elite_count (aga_population_size q) (aga_elitism_rate q) e /\ bred_from_worst io fexp mdl e K (r_trace r).
Proof. exact @aga_cold. Qed.
Print Assumptions C98_aga_bred_from_worst.
Example C98_example :
  exp_overflows ex_exp /\ (forall x, ieq ex_io x x = true) /\ (forall x, is_valid ex_io x = true -> at_least 1 (fitness ex_io x)) /\
  is_finite c98_temperature = true /\ is_finite c98_cooling = true /\ (0 < B2R c98_temperature)%R /\ (0 < B2R c98_cooling < 1)%R /\
  (B2R c98_temperature * (B2R c98_cooling * (1 + bpow radix2 (-53))) ^ 21 * 710 <= 1)%R.
Proof. exact c98_example. Qed.
Example C98_run_example :
  let t := f_lit 1 1024 in
  (B2R t * (B2R c98_cooling * (1 + bpow radix2 (-53))) ^ 1 * 710 <= 1)%R /\
  exists r, may (ex_hist (ex_ga4 f1 f1 (StBoltzmann t c98_cooling))) r /\ length (r_trace r) = 3%nat.
Proof. exact c98_run. Qed.

(** Every temperature and cooling rate below 1 gets there. *)
Theorem C98_cold_in_the_end :
  forall (t c : f64) (a : R), is_finite c = true -> (0 < B2R t)%R -> (0 < B2R c < 1)%R -> (0 < a)%R ->
  exists K0, forall K, (K0 <= K)%nat -> (B2R t * (B2R c * (1 + bpow radix2 (-53))) ^ S K * 710 <= a)%R.
Proof. exact eventually_cold. Qed.
Print Assumptions C98_cold_in_the_end.
