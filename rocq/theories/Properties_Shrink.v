(** * Properties_Shrink: what selection alone does to a population (C133). *)
From Coq Require Import List Bool Arith NArith Reals.
From Flocq Require Import BinarySingleNaN.
From Verif Require Import Rnd Prob F64 MStats MPopulation MSelection MModel MAlgorithms SpecF SpecA SpecH SpecShrink ExF ExM ExR ExH PShrink.
Import ListNotations.

(** C133: without crossover, mutation and local search every population of a run holds only
    individuals of the one before it, ... *)
Theorem C133_ga_sheds :
forall (I : Type) (io : individual_ops I) (fexp : f64 -> f64) (MS : Type) (mdl : model I MS) (PS : Type)
  (f : PS -> population I -> M (bool * PS)) (fuel : nat) (s : ga_state I MS) (init : list I) (q : ga_params) (ps : PS)
  (r : run_result I (ga_state I MS) PS),
  selector_left_alone mdl -> rates_left_alone mdl -> settled mdl ->
  fits_usize (ga_population_size q) -> fits_usize (length init) ->
  flt f0 (ga_crossover_rate q) = false -> flt f0 (ga_mutation_rate q) = false ->
  may (evolve_population io fexp mdl (ga_algorithm io fexp mdl) (quiet f) fuel s init q ps) r -> sheds (r_trace r).
Proof. exact @ga_sheds. Qed.
Print Assumptions C133_ga_sheds.
Theorem C133_aga_sheds :
forall (I : Type) (io : individual_ops I) (fexp : f64 -> f64) (MS : Type) (mdl : model I MS) (PS : Type)
  (f : PS -> population I -> M (bool * PS)) (fuel : nat) (s : aga_state I MS) (init : list I) (q : aga_params) (ps : PS)
  (r : run_result I (aga_state I MS) PS),
  selector_left_alone mdl -> rates_left_alone mdl -> settled mdl ->
  fits_usize (aga_population_size q) -> fits_usize (length init) ->
  flt f0 (fst (aga_crossover_rate_range q)) = false -> flt f0 (snd (aga_crossover_rate_range q)) = false ->
  flt f0 (fst (aga_mutation_rate_range q)) = false -> flt f0 (snd (aga_mutation_rate_range q)) = false ->
  may (evolve_population io fexp mdl (aga_algorithm io fexp mdl) (quiet f) fuel s init q ps) r -> sheds (r_trace r).
Proof. exact @aga_sheds. Qed.
Print Assumptions C133_aga_sheds.
(** ... and, if individuals are equal exactly when they are equally fit, none is larger
    than the one before it: what is lost is never replaced. *)
Theorem C133_ga_never_grows :
forall (I : Type) (io : individual_ops I) (fexp : f64 -> f64) (MS : Type) (mdl : model I MS) (PS : Type)
  (f : PS -> population I -> M (bool * PS)) (fuel : nat) (s : ga_state I MS) (init : list I) (q : ga_params) (ps : PS)
  (r : run_result I (ga_state I MS) PS),
  selector_left_alone mdl -> rates_left_alone mdl -> settled mdl -> valid_is_number io -> fitness_decides io ->
  fits_usize (ga_population_size q) -> fits_usize (length init) ->
  flt f0 (ga_crossover_rate q) = false -> flt f0 (ga_mutation_rate q) = false ->
  may (evolve_population io fexp mdl (ga_algorithm io fexp mdl) (quiet f) fuel s init q ps) r -> never_grows (r_trace r).
Proof. exact @ga_never_grows. Qed.
Print Assumptions C133_ga_never_grows.
Theorem C133_aga_never_grows :
forall (I : Type) (io : individual_ops I) (fexp : f64 -> f64) (MS : Type) (mdl : model I MS) (PS : Type)
  (f : PS -> population I -> M (bool * PS)) (fuel : nat) (s : aga_state I MS) (init : list I) (q : aga_params) (ps : PS)
  (r : run_result I (aga_state I MS) PS),
  selector_left_alone mdl -> rates_left_alone mdl -> settled mdl -> valid_is_number io -> fitness_decides io ->
  fits_usize (aga_population_size q) -> fits_usize (length init) ->
  flt f0 (fst (aga_crossover_rate_range q)) = false -> flt f0 (snd (aga_crossover_rate_range q)) = false ->
  flt f0 (fst (aga_mutation_rate_range q)) = false -> flt f0 (snd (aga_mutation_rate_range q)) = false ->
  may (evolve_population io fexp mdl (aga_algorithm io fexp mdl) (quiet f) fuel s init q ps) r -> never_grows (r_trace r).
Proof. exact @aga_never_grows. Qed.
Print Assumptions C133_aga_never_grows.
(** In these runs the population of four ends with three although population_size is four. *)
Example C133_example :
  selector_left_alone ex_model9 /\ rates_left_alone ex_model9 /\ settled ex_model9 /\ valid_is_number ex_io9 /\ fitness_decides ex_io9 /\
  (exists r, may ex_run9 r /\ map (@individuals nat) (r_trace r) = [[3; 5; 7; 9]; [3; 7; 9]; [3; 7; 9]]) /\
  (exists r, may ex_run9a r /\ map (@individuals nat) (r_trace r) = [[3; 5; 7; 9]; [3; 7; 9]; [3; 7; 9]]).
Proof. exact shrink_example. Qed.

(** Without variation a bred individual is a selected one, with the same chances, ... *)
Theorem C133_breed :
  forall (I : Type) (io : individual_ops I) (fexp : f64 -> f64) (MS : Type) (mdl : model I MS)
    (ms : MS) (p : population I) (b : breeding I) (Q : I -> bool),
  match parent_selector b with Custom _ _ _ _ => False | _ => True end ->
  must (select io fexp (parent_selector b) p) (fun r => In (snd r) (individuals p)) ->
  (forall x, In x (individuals p) -> must (m_improve mdl ms x) (eq x) /\ must (m_evaluate mdl ms x) (eq x) /\
     must (m_can_survive mdl ms x x p) (fun _ => True)) ->
  flt f0 (crossover_rate b) = false -> flt f0 (mutation_rate b) = false ->
  prob (breed io fexp mdl ms p b) Q = prob (select io fexp (parent_selector b) p) (fun r => Q (snd r)).
Proof. exact @plain_law. Qed.
Print Assumptions C133_breed.
(** ... so with k places to fill besides the elites, the individuals with some property (Q) are
    absent from the offspring with the k-th power of the chance that one selection misses them. *)
Theorem C133_lost :
  forall (I : Type) (io : individual_ops I) (fexp : f64 -> f64) (MS : Type) (mdl : model I MS)
    (ms : MS) (p : population I) (b : breeding I) (size : nat) (elites : list I) (Q : I -> bool),
  match parent_selector b with Custom _ _ _ _ => False | _ => True end ->
  must (select io fexp (parent_selector b) p) (fun r => In (snd r) (individuals p)) ->
  (forall x, In x (individuals p) -> must (m_improve mdl ms x) (eq x) /\ must (m_evaluate mdl ms x) (eq x) /\
     must (m_can_survive mdl ms x x p) (fun _ => True)) ->
  flt f0 (crossover_rate b) = false -> flt f0 (mutation_rate b) = false -> 2 <= size - length elites ->
  prob (generate_new_population io fexp mdl ms (b, size) p elites) (fun l => forallb (fun x => negb (Q x)) (skipn (length elites) l))
  = ((1 - prob (select io fexp (parent_selector b) p) (fun r => Q (snd r))) ^ (size - length elites))%R.
Proof. exact @lost_law. Qed.
Print Assumptions C133_lost.
Example C133_lost_example :
  let p := ex_popn ex_io9 [5; 7; 9] in let b := mkBreeding f0 f0 Rank in
  prob (generate_new_population ex_io9 ex_exp ex_model9 tt (b, 3) p [9])
    (fun l => forallb (fun x => negb (x =? 5)) (skipn (length [9]) l)) = (25 / 36)%R.
Proof. exact lost_example. Qed.

(** With different individuals of equal fitness the population can grow, as the same
    individual can stay more than once (C47). *)
Theorem C133_never_grows_refuted : exists r : run_result (nat * nat) (ga_state (nat * nat) unit) unit,
  selector_left_alone ex_model2 /\ rates_left_alone ex_model2 /\ settled ex_model2 /\
  may (evolve_population ex_io2 ex_exp ex_model2 (ga_algorithm ex_io2 ex_exp ex_model2) (quiet (stop_at 1)) 2 (ga_from tt) [(1, 0); (1, 1)]
    (ex_ga4 f0 f0 (StTournament 1)) tt) r /\ ~ never_grows (r_trace r).
Proof. exact grows_refuted. Qed.
Print Assumptions C133_never_grows_refuted.
