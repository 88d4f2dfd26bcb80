(** * Properties_OneMax: C68, C69, C75, C76. *)
From Coq Require Import List Bool Arith NArith ZArith Reals Lia Lra.
From Flocq Require Import Core BinarySingleNaN.
From Verif Require Import Rnd LRnd F64 MStats MPopulation MSelection MModel MAlgorithms MOneMax SpecF SpecA SpecK ExF ExM ExR
  PKeep POneMax POneMax2.
Import ListNotations.
Local Open Scope nat_scope.

(** C68: the fitness of a non-empty genome of at most 2^53 bits is the fraction of ones,
    rounded to nearest even *)
Theorem C68_onemax_fitness :
forall (u : unit) (x : onemax),
  genome x <> [] -> (Z.of_nat (length (genome x)) <= 2 ^ 53)%Z ->
  exists v, onemax_evaluate u x = Ret (mkOneMax (genome x) v) /\ is_finite v = true  /\
  B2R v = round radix2 (FLT_exp (-1074) 53) ZnearestE (INR (count_occ Bool.bool_dec (genome x) true) / INR (length (genome x))) /\
  (0 <= B2R v <= 1)%R  /\
  (B2R v = 1%R <-> Forall (eq true) (genome x)) /\ (B2R v = 0%R <-> Forall (eq false) (genome x)).
Proof. exact onemax_fitness. Qed.
Print Assumptions C68_onemax_fitness.
(** More ones, more fitness *)
Theorem C68_onemax_order :
forall (u : unit) (x y x' y' : onemax),
  genome x <> [] -> length (genome x) = length (genome y) -> (Z.of_nat (length (genome x)) <= 2 ^ 53)%Z ->
  onemax_evaluate u x = Ret x' -> onemax_evaluate u y = Ret y' ->
  (flt (fitness onemax_ops x') (fitness onemax_ops y') = true <-> count_occ Bool.bool_dec (genome x) true < count_occ Bool.bool_dec (genome y) true) /\
  (feq (fitness onemax_ops x') (fitness onemax_ops y') = true <-> count_occ Bool.bool_dec (genome x) true = count_occ Bool.bool_dec (genome y) true).
Proof. exact onemax_order. Qed.
Print Assumptions C68_onemax_order.
(** The empty genome is invalid *)
Theorem C68_onemax_empty :
forall (u : unit) (x : onemax), genome x = [] ->
  exists v, onemax_evaluate u x = Ret (mkOneMax [] v) /\ is_nan v = true /\ is_valid onemax_ops (mkOneMax [] v) = false.
Proof. exact onemax_empty. Qed.
Print Assumptions C68_onemax_empty.
(** Individuals are equal when genome and fitness are; populations lose no genome *)
Theorem C68_onemax_equality :
forall (x y : onemax),
  ieq onemax_ops x y = true <-> genome x = genome y /\ feq (om_fitness x) (om_fitness y) = true.
Proof. exact onemax_equality. Qed.
Print Assumptions C68_onemax_equality.
Theorem C68_new_keeps_genomes :
forall (l : list onemax), l <> [] ->
  must (population_new onemax_ops l) (fun p =>
    forall g, In g (map genome (individuals p)) <-> In g (map genome l)).
Proof. exact onemax_keeps_genomes. Qed.
Print Assumptions C68_new_keeps_genomes.
Theorem C68_replace_keeps_genomes :
forall (p : population onemax) (l : list onemax), l <> [] ->
  must (population_replace onemax_ops p l) (fun '(q, _) =>
    forall g, In g (map genome (individuals q)) <-> In g (map genome l)).
Proof. exact onemax_replace_keeps_genomes. Qed.
Print Assumptions C68_replace_keeps_genomes.
Example C68_example2 :
  ieq onemax_ops (mkOneMax [true; false] f1) (mkOneMax [false; true] f1) = false /\
  option_map (fun p => map genome (individuals p)) (run (population_new onemax_ops
    [mkOneMax [true; false] f1; mkOneMax [true; false] f1; mkOneMax [false; true] f1]) [0]%N) =
  Some [[true; false]; [false; true]].
Proof. exact c68_example2. Qed.
Example C68_example : genome (onemax_from [true; false; true]) <> [] /\ (Z.of_nat (length (genome (onemax_from [true; false; true]))) <= 2 ^ 53)%Z /\
  count_occ Bool.bool_dec (genome (onemax_from [true; false; true])) true = 2.
Proof. exact c68_example. Qed.

(** C69: OneMax runs with a genome length of 1 or more never panic and return when
    the closure stops them *)
Theorem C69_ga_onemax_runs :
forall (PS : Type) (fexp : f64 -> f64) (n : nat) (f : PS -> population onemax -> M (bool * PS)) (s : ga_state onemax unit) (q : ga_params) (ps : PS),
  1 <= n -> fits_usize n ->
  ga_accepted q -> 2 <= ga_population_size q -> fits_usize (ga_population_size q) -> robust_strategy (ga_selection_strategy q) ->
  (forall ps p, must (f ps p) (fun _ => True)) ->
  (forall fuel, ~ may_fail (evolution_run onemax_ops fexp onemax_model (ga_algorithm onemax_ops fexp onemax_model) (quiet f) fuel s (onemax_new_random n) q ps) Panic) /\
  (forall k, (forall ps' p, generation p = k -> must (f ps' p) (fun o => fst o = false)) ->
     must (evolution_run onemax_ops fexp onemax_model (ga_algorithm onemax_ops fexp onemax_model) (quiet f) (S k) s (onemax_new_random n) q ps) (fun _ => True)).
Proof. exact @ga_om_runs. Qed.
Print Assumptions C69_ga_onemax_runs.
Theorem C69_aga_onemax_runs :
forall (PS : Type) (fexp : f64 -> f64) (n : nat) (f : PS -> population onemax -> M (bool * PS)) (s : aga_state onemax unit) (q : aga_params) (ps : PS),
  1 <= n -> fits_usize n ->
  aga_accepted q -> 2 <= aga_population_size q -> fits_usize (aga_population_size q) -> robust_strategy (aga_selection_strategy q) ->
  (forall ps p, must (f ps p) (fun _ => True)) ->
  (forall fuel, ~ may_fail (evolution_run onemax_ops fexp onemax_model (aga_algorithm onemax_ops fexp onemax_model) (quiet f) fuel s (onemax_new_random n) q ps) Panic) /\
  (forall k, (forall ps' p, generation p = k -> must (f ps' p) (fun o => fst o = false)) ->
     must (evolution_run onemax_ops fexp onemax_model (aga_algorithm onemax_ops fexp onemax_model) (quiet f) (S k) s (onemax_new_random n) q ps) (fun _ => True)).
Proof. exact @aga_om_runs. Qed.
Print Assumptions C69_aga_onemax_runs.
(** Every individual shown or returned has the genome length and the score of its genome *)
Theorem C69_ga_onemax_lengths :
forall (PS : Type) (fexp : f64 -> f64) (n : nat) (f : PS -> population onemax -> M (bool * PS)) (fuel : nat) (s : ga_state onemax unit) (q : ga_params) (ps : PS)
  (x : onemax) (r : run_result onemax (ga_state onemax unit) PS),
  fits_usize (ga_population_size q) ->
  may (evolution_run onemax_ops fexp onemax_model (ga_algorithm onemax_ops fexp onemax_model) (quiet f) fuel s (onemax_new_random n) q ps) (x, r) ->
  (length (genome x) = n /\ onemax_evaluate tt x = Ret x) /\
  forall p y, In p (r_trace r) -> In y (individuals p) -> length (genome y) = n /\ onemax_evaluate tt y = Ret y.
Proof. exact @ga_om_lengths. Qed.
Print Assumptions C69_ga_onemax_lengths.
Theorem C69_aga_onemax_lengths :
forall (PS : Type) (fexp : f64 -> f64) (n : nat) (f : PS -> population onemax -> M (bool * PS)) (fuel : nat) (s : aga_state onemax unit) (q : aga_params) (ps : PS)
  (x : onemax) (r : run_result onemax (aga_state onemax unit) PS),
  fits_usize (aga_population_size q) ->
  may (evolution_run onemax_ops fexp onemax_model (aga_algorithm onemax_ops fexp onemax_model) (quiet f) fuel s (onemax_new_random n) q ps) (x, r) ->
  (length (genome x) = n /\ onemax_evaluate tt x = Ret x) /\
  forall p y, In p (r_trace r) -> In y (individuals p) -> length (genome y) = n /\ onemax_evaluate tt y = Ret y.
Proof. exact @aga_om_lengths. Qed.
Print Assumptions C69_aga_onemax_lengths.
(** With length 0 every run panics *)
Theorem C69_ga_onemax_empty :
forall (PS : Type) (fexp : f64 -> f64)
  (progress : PS -> ga_state onemax unit -> population onemax -> M (bool * PS * ga_state onemax unit)) (fuel : nat)
  (s : ga_state onemax unit) (q : ga_params) (ps : PS),
  must_fail (evolution_run onemax_ops fexp onemax_model (ga_algorithm onemax_ops fexp onemax_model) progress fuel s (onemax_new_random 0) q ps) Panic.
Proof. exact @ga_om_empty. Qed.
Print Assumptions C69_ga_onemax_empty.
Theorem C69_aga_onemax_empty :
forall (PS : Type) (fexp : f64 -> f64)
  (progress : PS -> aga_state onemax unit -> population onemax -> M (bool * PS * aga_state onemax unit)) (fuel : nat)
  (s : aga_state onemax unit) (q : aga_params) (ps : PS),
  must_fail (evolution_run onemax_ops fexp onemax_model (aga_algorithm onemax_ops fexp onemax_model) progress fuel s (onemax_new_random 0) q ps) Panic.
Proof. exact @aga_om_empty. Qed.
Print Assumptions C69_aga_onemax_empty.
Example C69_example : ga_accepted ex_half /\ robust_strategy (ga_selection_strategy ex_half) /\
  option_map (fun o => (genome (fst o), length (r_trace (snd o)))) (run (om_run 3 2) [0; 1; 0; 1; 1; 0; 0; 0; 1; 0; 1; 1; 5; 3; 1; 2; 3; 2; 1; 4; 2; 1]%N) = Some ([false; true; true], 3).
Proof. exact c69_example. Qed.

(** C75: what the model's methods keep holds of every individual shown and returned *)
Theorem C75_ga_population_keeps :
forall (I : Type) (io : individual_ops I) (fexp : f64 -> f64) (MS : Type) (mdl : model I MS) (PS : Type) (raw good : I -> Prop)
  (f : PS -> population I -> M (bool * PS)) (fuel : nat) (s : ga_state I MS) (init : list I) (q : ga_params) (ps : PS)
  (r : run_result I (ga_state I MS) PS),
  keeps mdl raw good -> selector_left_alone mdl -> fits_usize (ga_population_size q) -> fits_usize (length init) -> Forall raw init ->
  may (evolve_population io fexp mdl (ga_algorithm io fexp mdl) (quiet f) fuel s init q ps) r ->
  forall p x, In p (r_trace r) -> In x (individuals p) -> good x.
Proof. exact @ga_keeps. Qed.
Print Assumptions C75_ga_population_keeps.
Theorem C75_aga_population_keeps :
forall (I : Type) (io : individual_ops I) (fexp : f64 -> f64) (MS : Type) (mdl : model I MS) (PS : Type) (raw good : I -> Prop)
  (f : PS -> population I -> M (bool * PS)) (fuel : nat) (s : aga_state I MS) (init : list I) (q : aga_params) (ps : PS)
  (r : run_result I (aga_state I MS) PS),
  keeps mdl raw good -> selector_left_alone mdl -> fits_usize (aga_population_size q) -> fits_usize (length init) -> Forall raw init ->
  may (evolve_population io fexp mdl (aga_algorithm io fexp mdl) (quiet f) fuel s init q ps) r ->
  forall p x, In p (r_trace r) -> In x (individuals p) -> good x.
Proof. exact @aga_keeps. Qed.
Print Assumptions C75_aga_population_keeps.
Theorem C75_ga_run_keeps :
forall (I : Type) (io : individual_ops I) (fexp : f64 -> f64) (MS : Type) (mdl : model I MS) (PS : Type) (raw good : I -> Prop)
  (f : PS -> population I -> M (bool * PS)) (fuel : nat) (s : ga_state I MS) (nr : M I) (q : ga_params) (ps : PS)
  (x : I) (r : run_result I (ga_state I MS) PS),
  keeps mdl raw good -> selector_left_alone mdl -> fits_usize (ga_population_size q) -> (forall y, may nr y -> raw y) ->
  may (evolution_run io fexp mdl (ga_algorithm io fexp mdl) (quiet f) fuel s nr q ps) (x, r) ->
  good x /\ forall p y, In p (r_trace r) -> In y (individuals p) -> good y.
Proof. exact @ga_run_keeps. Qed.
Print Assumptions C75_ga_run_keeps.
Theorem C75_aga_run_keeps :
forall (I : Type) (io : individual_ops I) (fexp : f64 -> f64) (MS : Type) (mdl : model I MS) (PS : Type) (raw good : I -> Prop)
  (f : PS -> population I -> M (bool * PS)) (fuel : nat) (s : aga_state I MS) (nr : M I) (q : aga_params) (ps : PS)
  (x : I) (r : run_result I (aga_state I MS) PS),
  keeps mdl raw good -> selector_left_alone mdl -> fits_usize (aga_population_size q) -> (forall y, may nr y -> raw y) ->
  may (evolution_run io fexp mdl (aga_algorithm io fexp mdl) (quiet f) fuel s nr q ps) (x, r) ->
  good x /\ forall p y, In p (r_trace r) -> In y (individuals p) -> good y.
Proof. exact @aga_run_keeps. Qed.
Print Assumptions C75_aga_run_keeps.
Theorem C75_ga_individual_keeps :
forall (I : Type) (io : individual_ops I) (fexp : f64 -> f64) (MS : Type) (mdl : model I MS) (PS : Type) (raw good : I -> Prop)
  (f : PS -> population I -> M (bool * PS)) (fuel : nat) (s : ga_state I MS) (seed : I) (q : ga_params) (ps : PS)
  (x : I) (r : run_result I (ga_state I MS) PS),
  keeps mdl raw good -> selector_left_alone mdl -> fits_usize (ga_population_size q) -> raw seed ->
  may (evolve_individual io fexp mdl (ga_algorithm io fexp mdl) (quiet f) fuel s seed q ps) (x, r) ->
  good x /\ forall p y, In p (r_trace r) -> In y (individuals p) -> good y.
Proof. exact @ga_individual_keeps. Qed.
Print Assumptions C75_ga_individual_keeps.
Theorem C75_aga_individual_keeps :
forall (I : Type) (io : individual_ops I) (fexp : f64 -> f64) (MS : Type) (mdl : model I MS) (PS : Type) (raw good : I -> Prop)
  (f : PS -> population I -> M (bool * PS)) (fuel : nat) (s : aga_state I MS) (seed : I) (q : aga_params) (ps : PS)
  (x : I) (r : run_result I (aga_state I MS) PS),
  keeps mdl raw good -> selector_left_alone mdl -> fits_usize (aga_population_size q) -> raw seed ->
  may (evolve_individual io fexp mdl (aga_algorithm io fexp mdl) (quiet f) fuel s seed q ps) (x, r) ->
  good x /\ forall p y, In p (r_trace r) -> In y (individuals p) -> good y.
Proof. exact @aga_individual_keeps. Qed.
Print Assumptions C75_aga_individual_keeps.
Example C75_example : keeps onemax_model (has_length 3) (fun x => length (genome x) = 3 /\ onemax_evaluate tt x = Ret x) /\
  selector_left_alone onemax_model /\ (forall y, may (onemax_new_random 3) y -> has_length 3 y).
Proof. exact c75_example. Qed.

(** C76: OneMax breeding never makes a bit value no initial genome has *)
Theorem C76_ga_no_new_bits :
forall (PS : Type) (fexp : f64 -> f64) (b : bool) (f : PS -> population onemax -> M (bool * PS)) (fuel : nat) (s : ga_state onemax unit)
  (init : list onemax) (q : ga_params) (ps : PS) (r : run_result onemax (ga_state onemax unit) PS),
  fits_usize (ga_population_size q) -> fits_usize (length init) ->
  (forall x, In x init -> ~ In b (genome x)) ->
  may (evolve_population onemax_ops fexp onemax_model (ga_algorithm onemax_ops fexp onemax_model) (quiet f) fuel s init q ps) r ->
  forall p y, In p (r_trace r) -> In y (individuals p) -> ~ In b (genome y).
Proof. exact @ga_om_no_new. Qed.
Print Assumptions C76_ga_no_new_bits.
Theorem C76_aga_no_new_bits :
forall (PS : Type) (fexp : f64 -> f64) (b : bool) (f : PS -> population onemax -> M (bool * PS)) (fuel : nat) (s : aga_state onemax unit)
  (init : list onemax) (q : aga_params) (ps : PS) (r : run_result onemax (aga_state onemax unit) PS),
  fits_usize (aga_population_size q) -> fits_usize (length init) ->
  (forall x, In x init -> ~ In b (genome x)) ->
  may (evolve_population onemax_ops fexp onemax_model (aga_algorithm onemax_ops fexp onemax_model) (quiet f) fuel s init q ps) r ->
  forall p y, In p (r_trace r) -> In y (individuals p) -> ~ In b (genome y).
Proof. exact @aga_om_no_new. Qed.
Print Assumptions C76_aga_no_new_bits.
(** A uniform seed is all evolve_individual ever finds *)
Theorem C76_ga_uniform_seed :
forall (PS : Type) (fexp : f64 -> f64) (b : bool) (f : PS -> population onemax -> M (bool * PS)) (fuel : nat) (s : ga_state onemax unit)
  (seed : onemax) (q : ga_params) (ps : PS) (x : onemax) (r : run_result onemax (ga_state onemax unit) PS),
  fits_usize (ga_population_size q) -> Forall (eq b) (genome seed) ->
  may (evolve_individual onemax_ops fexp onemax_model (ga_algorithm onemax_ops fexp onemax_model) (quiet f) fuel s seed q ps) (x, r) ->
  Forall (eq b) (genome x) /\ length (genome x) = length (genome seed).
Proof. exact @ga_om_stuck. Qed.
Print Assumptions C76_ga_uniform_seed.
Theorem C76_aga_uniform_seed :
forall (PS : Type) (fexp : f64 -> f64) (b : bool) (f : PS -> population onemax -> M (bool * PS)) (fuel : nat) (s : aga_state onemax unit)
  (seed : onemax) (q : aga_params) (ps : PS) (x : onemax) (r : run_result onemax (aga_state onemax unit) PS),
  fits_usize (aga_population_size q) -> Forall (eq b) (genome seed) ->
  may (evolve_individual onemax_ops fexp onemax_model (aga_algorithm onemax_ops fexp onemax_model) (quiet f) fuel s seed q ps) (x, r) ->
  Forall (eq b) (genome x) /\ length (genome x) = length (genome seed).
Proof. exact @aga_om_stuck. Qed.
Print Assumptions C76_aga_uniform_seed.
Example C76_example : Forall (eq true) (genome (onemax_from (repeat true 3))) /\
  option_map (fun o => (genome (fst o), length (r_trace (snd o)))) (run (om_stuck true 2) [3; 1; 2; 5; 4]%N) = Some ([true; true; true], 3).
Proof. exact c76_example. Qed.
