(** * Properties_Calls: C115. *)
From Coq Require Import List Bool Arith NArith ZArith.
From Verif Require Import Rnd F64 MStats MPopulation MSelection MModel MAlgorithms SpecF SpecA SpecP ExF ExM ExR ExH ExP
  PCalls2 PCallsEx.
Import ListNotations.
Local Open Scope nat_scope.

(** C115: how often a run calls the user's code.  Watching a method does not change
    what the runs can return ... *)
Theorem C115_same_runs :
forall (I : Type) (io : individual_ops I) (fexp : f64 -> f64) (MS : Type) (mdl : model I MS) (PS : Type)
  (f : PS -> population I -> M (bool * PS)) (w : method) (fuel : nat) (nr : M I) (seed : I) (init : list I) (ps : PS),
  unmarked_model mdl -> (forall ps p, unmarked (f ps p)) ->
  (forall s q r, fits_usize (ga_population_size q) -> 
    (exists n, may_calls (evolve_population io fexp (watch w mdl) (ga_algorithm io fexp (watch w mdl)) (quiet f) fuel s init q ps) n r) <->
    may (evolve_population io fexp mdl (ga_algorithm io fexp mdl) (quiet f) fuel s init q ps) r) /\
  (forall s q r, fits_usize (ga_population_size q) -> unmarked nr -> 
    (exists n, may_calls (evolution_run io fexp (watch w mdl) (ga_algorithm io fexp (watch w mdl)) (quiet f) fuel s (watch_random w nr) q ps) n r) <->
    may (evolution_run io fexp mdl (ga_algorithm io fexp mdl) (quiet f) fuel s nr q ps) r) /\
  (forall s q r, fits_usize (ga_population_size q) -> 
    (exists n, may_calls (evolve_individual io fexp (watch w mdl) (ga_algorithm io fexp (watch w mdl)) (quiet f) fuel s seed q ps) n r) <->
    may (evolve_individual io fexp mdl (ga_algorithm io fexp mdl) (quiet f) fuel s seed q ps) r) /\
  (forall s q r, fits_usize (aga_population_size q) -> 
    (exists n, may_calls (evolve_population io fexp (watch w mdl) (aga_algorithm io fexp (watch w mdl)) (quiet f) fuel s init q ps) n r) <->
    may (evolve_population io fexp mdl (aga_algorithm io fexp mdl) (quiet f) fuel s init q ps) r) /\
  (forall s q r, fits_usize (aga_population_size q) -> unmarked nr -> 
    (exists n, may_calls (evolution_run io fexp (watch w mdl) (aga_algorithm io fexp (watch w mdl)) (quiet f) fuel s (watch_random w nr) q ps) n r) <->
    may (evolution_run io fexp mdl (aga_algorithm io fexp mdl) (quiet f) fuel s nr q ps) r) /\
  (forall s q r, fits_usize (aga_population_size q) -> 
    (exists n, may_calls (evolve_individual io fexp (watch w mdl) (aga_algorithm io fexp (watch w mdl)) (quiet f) fuel s seed q ps) n r) <->
    may (evolve_individual io fexp mdl (aga_algorithm io fexp mdl) (quiet f) fuel s seed q ps) r).
Proof. exact (fun I io fexp MS mdl PS f w fuel nr seed init ps Hm Hf => @c115_same_runs I io fexp MS mdl PS f Hm Hf w fuel nr seed init ps). Qed.
Print Assumptions C115_same_runs.

(** ... one breeding improves and evaluates once and calls everything else at most
    once (crossover not at all when there is only one individual) ... *)
Theorem C115_breed :
forall (I : Type) (io : individual_ops I) (fexp : f64 -> f64) (MS : Type) (mdl : model I MS) (w : method) (ms : MS) (p : population I) (b : breeding I),
  unmarked_model mdl -> unmarked_selector (parent_selector b) ->
  (forall x, (exists n, may_calls (breed io fexp (watch w mdl) ms p b) n x) <-> may (breed io fexp mdl ms p b) x) /\
  (forall n x, may_calls (breed io fexp (watch w mdl) ms p b) n x -> least_breed w <= n <= most_breed w (length (individuals p))).
Proof. exact (fun I io fexp MS mdl w ms p b Hm => @c115_breed I io fexp MS mdl Hm w ms p b). Qed.
Print Assumptions C115_breed.

(** ... and a run breeds as often as the elites leave places (also when the bred
    individual is then dropped, C91), and does nothing else. *)
Theorem C115_ga_calls :
forall (I : Type) (io : individual_ops I) (fexp : f64 -> f64) (MS : Type) (mdl : model I MS) (PS : Type)
  (f : PS -> population I -> M (bool * PS)) (w : method) (fuel : nat) (s : ga_state I MS) (init : list I) (nr : M I) (seed : I)
  (q : ga_params) (ps : PS),
  unmarked_model mdl -> (forall ps p, unmarked (f ps p)) -> fits_usize (ga_population_size q) -> unmarked nr ->
  let size := ga_population_size q in
  let bounds start tr n := exists e, elite_count size (ga_elitism_rate q) e /\
    start + least_calls w size e (removelast tr) <= n <= start + most_calls w size e (removelast tr) in
  (forall n r, may_calls (evolve_population io fexp (watch w mdl) (ga_algorithm io fexp (watch w mdl)) (quiet f) fuel s init q ps) n r ->
     bounds (at_start w (length init)) (r_trace r) n) /\
  (forall n x r, may_calls (evolution_run io fexp (watch w mdl) (ga_algorithm io fexp (watch w mdl)) (quiet f) fuel s (watch_random w nr) q ps) n (x, r) ->
     bounds (at_random_start w size) (r_trace r) n) /\
  (forall n x r, may_calls (evolve_individual io fexp (watch w mdl) (ga_algorithm io fexp (watch w mdl)) (quiet f) fuel s seed q ps) n (x, r) ->
     bounds (at_seeded_start w size) (r_trace r) n).
Proof. exact (fun I io fexp MS mdl PS f w fuel s init nr seed q ps Hm Hf => @c115_ga I io fexp MS mdl PS f Hm Hf w fuel s init nr seed q ps). Qed.
Print Assumptions C115_ga_calls.

Theorem C115_aga_calls :
forall (I : Type) (io : individual_ops I) (fexp : f64 -> f64) (MS : Type) (mdl : model I MS) (PS : Type)
  (f : PS -> population I -> M (bool * PS)) (w : method) (fuel : nat) (s : aga_state I MS) (init : list I) (nr : M I) (seed : I)
  (q : aga_params) (ps : PS),
  unmarked_model mdl -> (forall ps p, unmarked (f ps p)) -> fits_usize (aga_population_size q) -> unmarked nr ->
  let size := aga_population_size q in
  let bounds start tr n := exists e, elite_count size (aga_elitism_rate q) e /\
    start + least_calls w size e (removelast tr) <= n <= start + most_calls w size e (removelast tr) in
  (forall n r, may_calls (evolve_population io fexp (watch w mdl) (aga_algorithm io fexp (watch w mdl)) (quiet f) fuel s init q ps) n r ->
     bounds (at_start w (length init)) (r_trace r) n) /\
  (forall n x r, may_calls (evolution_run io fexp (watch w mdl) (aga_algorithm io fexp (watch w mdl)) (quiet f) fuel s (watch_random w nr) q ps) n (x, r) ->
     bounds (at_random_start w size) (r_trace r) n) /\
  (forall n x r, may_calls (evolve_individual io fexp (watch w mdl) (aga_algorithm io fexp (watch w mdl)) (quiet f) fuel s seed q ps) n (x, r) ->
     bounds (at_seeded_start w size) (r_trace r) n).
Proof. exact (fun I io fexp MS mdl PS f w fuel s init nr seed q ps Hm Hf => @c115_aga I io fexp MS mdl PS f Hm Hf w fuel s init nr seed q ps). Qed.
Print Assumptions C115_aga_calls.

(** The number of evaluations of [run], exactly, ... *)
Theorem C115_evaluations :
forall (I : Type) (io : individual_ops I) (fexp : f64 -> f64) (MS : Type) (mdl : model I MS) (PS : Type)
  (f : PS -> population I -> M (bool * PS)) (fuel : nat) (s : ga_state I MS) (nr : M I) (q : ga_params) (ps : PS) (n : nat) (x : I) (r : run_result I (ga_state I MS) PS),
  unmarked_model mdl -> (forall ps p, unmarked (f ps p)) -> fits_usize (ga_population_size q) -> unmarked nr ->
  may_calls (evolution_run io fexp (watch Evaluate mdl) (ga_algorithm io fexp (watch Evaluate mdl)) (quiet f) fuel s nr q ps) n (x, r) ->
  exists e, elite_count (ga_population_size q) (ga_elitism_rate q) e /\
    n = ga_population_size q + list_sum (map (fun p => ga_population_size q - Nat.min e (length (individuals p))) (removelast (r_trace r))).
Proof. exact (fun I io fexp MS mdl PS f fuel s nr q ps n x r Hm Hf => @c115_evaluations I io fexp MS mdl PS f Hm Hf fuel s nr q ps n x r). Qed.
Print Assumptions C115_evaluations.

(** ... and in terms of the number of generations. *)
Theorem C115_budget :
forall (I : Type) (io : individual_ops I) (fexp : f64 -> f64) (MS : Type) (mdl : model I MS) (PS : Type)
  (f : PS -> population I -> M (bool * PS)) (fuel : nat) (s : ga_state I MS) (nr : M I) (q : ga_params) (ps : PS) (n : nat) (x : I) (r : run_result I (ga_state I MS) PS),
  unmarked_model mdl -> (forall ps p, unmarked (f ps p)) -> fits_usize (ga_population_size q) -> unmarked nr ->
  may_calls (evolution_run io fexp (watch Evaluate mdl) (ga_algorithm io fexp (watch Evaluate mdl)) (quiet f) fuel s nr q ps) n (x, r) ->
  exists e, elite_count (ga_population_size q) (ga_elitism_rate q) e /\
    ga_population_size q + generation (r_population r) * (ga_population_size q - e) <= n <= ga_population_size q * S (generation (r_population r)).
Proof. exact (fun I io fexp MS mdl PS f fuel s nr q ps n x r Hm Hf => @c115_budget I io fexp MS mdl PS f Hm Hf fuel s nr q ps n x r). Qed.
Print Assumptions C115_budget.

Example C115_example : unmarked_model ex_model /\ (forall ps p, unmarked (stop_at (I := nat) 2 ps p)) /\
  (exists r, may_calls (ex_watched Evaluate) (3 + 2 + 2) r /\ map (@individuals nat) (r_trace r) = [[3; 9]; [3; 4; 9]; [4; 9]]) /\
  (exists r, may_calls (ex_watched Mutate) 4 r /\ map (@individuals nat) (r_trace r) = [[3; 9]; [3; 4; 9]; [4; 9]]) /\
  (exists r, may_calls (ex_watched Crossover) 0 r /\ map (@individuals nat) (r_trace r) = [[3; 9]; [3; 4; 9]; [4; 9]]) /\
  (exists r, may_calls (ex_watched PreGeneration) 2 r /\ map (@individuals nat) (r_trace r) = [[3; 9]; [3; 4; 9]; [4; 9]]).
Proof. exact c115_example. Qed.
