(** * MAlgorithms: model of src/lib.rs (interpolation), src/algorithms.rs,
    src/algorithms/ga.rs and src/algorithms/aga.rs. *)
From Coq Require Import List Bool Arith NArith ZArith.
From Verif Require Import Rnd F64 MStats MPopulation MSelection MModel.
Import ListNotations.

(** src/lib.rs:39-41 interpolate_f64 *)
Definition interpolate_f64 (mn mx ratio : f64) : f64 := fadd mn (fmul (fsub mx mn) ratio).

(** src/lib.rs:63-65 interpolate_usize; [max - min] underflows when max < min:
    a panic with overflow checks; wrap-around without, see
    [interpolate_usize_word] in MWord. *)
Definition interpolate_usize (mn mx : nat) (ratio : f64) : M nat :=
  _ <- massert (mn <=? mx) ;;
  Ret (f_to_usize (fadd (f_of_nat mn) (fmul (f_of_nat (mx - mn)) ratio))).

(** [(0.0..=1.0).contains(&x)] *)
Definition in_unit_closed (x : f64) : bool := fle f0 x && fle x f1.

Section Algorithms.
Context {I : Type} (io : individual_ops I) (fexp : f64 -> f64).
Context {MS : Type} (mdl : model I MS).

(** src/algorithms.rs:45-254 trait EvolutionAlgorithm: the methods an
    implementor provides (or overrides), for a parameter type [P] and an
    algorithm state [S0].  initialize_population, generate_new_population and
    replace_population are the default methods below. *)
Record algorithm (P S0 : Type) := {
  alg_model : S0 -> MS;
  alg_reproduction_parameters : S0 -> breeding I * nat;
  alg_configure : S0 -> P -> M S0;
  alg_select_elites : S0 -> population I -> list I -> M (list I);
  alg_prepare : S0 -> population I -> M S0;
  alg_initial_population_size : P -> nat
}.
Arguments alg_model {P S0} _ _.
Arguments alg_reproduction_parameters {P S0} _ _.
Arguments alg_configure {P S0} _ _ _.
Arguments alg_select_elites {P S0} _ _ _ _.
Arguments alg_prepare {P S0} _ _ _.
Arguments alg_initial_population_size {P S0} _ _.

(** src/algorithms.rs:134-140 default select_elites *)
Definition default_select_elites (p : population I) (elites : list I) : M (list I) :=
  f <- fittest p ;; Ret (elites ++ [f]).

(** src/algorithms.rs:165-175 initialize_population (default method); the
    parallel evaluation writes each individual in place. *)
Definition initialize_population (ms : MS) (l : list I) : M (population I) :=
  evaluated <- mapM (m_evaluate mdl ms) l ;;
  population_new io (filter (is_valid io) evaluated).

(** src/algorithms.rs:211-232 generate_new_population (default method).  In the
    middle case the bred individual is dropped: the code does not push it. *)
Definition generate_new_population (ms : MS) (params : breeding I * nat) (p : population I) (offspring : list I) : M (list I) :=
  let '(b, offspring_size) := params in
  match offspring_size - length offspring with
  | 0 => Ret offspring
  | 1 => _ <- breed io fexp mdl ms p b ;; Ret offspring
  | size => news <- repeatM size (breed io fexp mdl ms p b) ;; Ret (offspring ++ news)
  end.

(** ** Genetic algorithm *)

(** src/algorithms/ga.rs:10-56 GeneticAlgorithmParameters *)
Record ga_params := mkGaParams {
  ga_population_size : nat;
  ga_elitism_rate : f64;
  ga_crossover_rate : f64;
  ga_mutation_rate : f64;
  ga_selection_strategy : selection_strategy
}.

(** src/algorithms/ga.rs:67-75 Default *)
Definition ga_params_default : ga_params :=
  mkGaParams 100 (f_lit 1 100) (f_lit 8 10) (f_lit 1 10) StRouletteWheel.

(** src/algorithms/ga.rs:87-92 validate *)
Definition ga_validate (q : ga_params) : M unit :=
  _ <- massert (negb (ga_population_size q =? 0)) ;;
  _ <- massert (in_unit_halfopen (ga_elitism_rate q)) ;;
  _ <- massert (in_unit_closed (ga_crossover_rate q)) ;;
  massert (in_unit_closed (ga_mutation_rate q)).

(** src/algorithms/ga.rs:134-139 GeneticAlgorithm *)
Record ga_state := mkGa {
  ga_model : MS;
  ga_size : nat;
  ga_elite_size : nat;
  ga_breeding : breeding I
}.

(** src/algorithms/ga.rs:184-193 From<M> *)
Definition ga_from (ms : MS) : ga_state := mkGa ms 0 0 breeding_default.

(** src/algorithms/ga.rs:155-163 configure *)
Definition ga_configure (s : ga_state) (q : ga_params) : M ga_state :=
  _ <- ga_validate q ;;
  elite <- interpolate_usize 0 (ga_population_size q) (ga_elitism_rate q) ;;
  sel <- create_selector (ga_selection_strategy q) ;;
  Ret (mkGa (ga_model s) (ga_population_size q) elite
         (mkBreeding (ga_crossover_rate q) (ga_mutation_rate q) sel)).

(** src/algorithms/ga.rs:166-175 and src/algorithms/aga.rs:186-195 select_elites *)
Definition select_top (elite_size : nat) (p : population I) (elites : list I) : M (list I) :=
  if negb (elite_size =? 0) then
    let range_start := length (individuals p) - elite_size in
    top <- slice (individuals p) range_start (length (individuals p)) ;;
    Ret (elites ++ top)
  else Ret elites.

(** src/algorithms/ga.rs:178-181 prepare_for_next_population *)
Definition ga_prepare (s : ga_state) (p : population I) : M ga_state :=
  '(ms, b) <- m_pre_generation mdl (ga_model s) p (ga_breeding s) ;;
  sel <- prepare io fexp (parent_selector b) p ;;
  Ret (mkGa ms (ga_size s) (ga_elite_size s) (mkBreeding (crossover_rate b) (mutation_rate b) sel)).

(** src/algorithms/ga.rs:141-182 the trait implementation *)
Definition ga_algorithm : algorithm ga_params ga_state := {|
  alg_model := ga_model;
  alg_reproduction_parameters := fun s => (ga_breeding s, ga_size s);
  alg_configure := ga_configure;
  alg_select_elites := fun s => select_top (ga_elite_size s);
  alg_prepare := ga_prepare;
  alg_initial_population_size := ga_population_size |}.

(** ** Adaptive genetic algorithm *)

(** src/algorithms/aga.rs:12-63 AdaptiveGeneticAlgorithmParameters; a
    [Range<f64>] is a pair (start, end) *)
Record aga_params := mkAgaParams {
  aga_population_size : nat;
  aga_elitism_rate : f64;
  aga_crossover_rate_range : f64 * f64;
  aga_mutation_rate_range : f64 * f64;
  aga_selection_strategy : selection_strategy;
  aga_parameter_adjustment_interval : nat
}.

(** src/algorithms/aga.rs:75-84 Default *)
Definition aga_params_default : aga_params :=
  mkAgaParams 100 (f_lit 1 100) (f_lit 3 10, f1) (f_lit 1 10, f1) StRouletteWheel 1.

(** src/algorithms/aga.rs:96-103 validate *)
Definition aga_validate (q : aga_params) : M unit :=
  _ <- massert (negb (aga_population_size q =? 0)) ;;
  _ <- massert (in_unit_halfopen (aga_elitism_rate q)) ;;
  _ <- massert (in_unit_closed (fst (aga_crossover_rate_range q))) ;;
  _ <- massert (in_unit_closed (snd (aga_crossover_rate_range q))) ;;
  _ <- massert (in_unit_closed (fst (aga_mutation_rate_range q))) ;;
  massert (in_unit_closed (snd (aga_mutation_rate_range q))).

(** src/algorithms/aga.rs:149-158 AdaptiveGeneticAlgorithm *)
Record aga_state := mkAga {
  aga_model : MS;
  aga_size : nat;
  aga_elite_size : nat;
  aga_interval : nat;
  aga_crossover_range : f64 * f64;
  aga_mutation_range : f64 * f64;
  aga_breeding : breeding I;
  aga_reference_std : f64
}.

(** src/algorithms/aga.rs:227-240 From<M> *)
Definition aga_from (ms : MS) : aga_state :=
  mkAga ms 0 0 0 (f0, f0) (f0, f0) breeding_default f0.

(** src/algorithms/aga.rs:174-183 configure *)
Definition aga_configure (s : aga_state) (q : aga_params) : M aga_state :=
  _ <- aga_validate q ;;
  elite <- interpolate_usize 0 (aga_population_size q) (aga_elitism_rate q) ;;
  sel <- create_selector (aga_selection_strategy q) ;;
  Ret (mkAga (aga_model s) (aga_population_size q) elite (aga_parameter_adjustment_interval q)
         (aga_crossover_rate_range q) (aga_mutation_rate_range q)
         (mkBreeding (crossover_rate (aga_breeding s)) (mutation_rate (aga_breeding s)) sel)
         (aga_reference_std s)).

(** src/algorithms/aga.rs:206 diversity *)
Definition aga_diversity (std reference_std : f64) : f64 := f_clamp (fdiv std reference_std) f0 f1.

(** src/algorithms/aga.rs:199-220 the adjustment of the rates: the new
    (reference_std, crossover_rate, mutation_rate) *)
Definition aga_adjust (s : aga_state) (p : population I) : f64 * f64 * f64 :=
  let std := ps_std f64ops (pop_stats p) in
  let b := aga_breeding s in
  match generation p with
  | 0 => (std, snd (aga_crossover_range s), fst (aga_mutation_range s))
  | n =>
      if negb (aga_interval s =? 0) && (n mod aga_interval s =? 0) then
        let diversity := aga_diversity std (aga_reference_std s) in
        (aga_reference_std s,
         interpolate_f64 (fst (aga_crossover_range s)) (snd (aga_crossover_range s)) diversity,
         interpolate_f64 (fst (aga_mutation_range s)) (snd (aga_mutation_range s)) (fsub f1 diversity))
      else (aga_reference_std s, crossover_rate b, mutation_rate b)
  end.

(** src/algorithms/aga.rs:198-224 prepare_for_next_population *)
Definition aga_prepare (s : aga_state) (p : population I) : M aga_state :=
  let '(ref_std, cr, mr) := aga_adjust s p in
  '(ms, b) <- m_pre_generation mdl (aga_model s) p (mkBreeding cr mr (parent_selector (aga_breeding s))) ;;
  sel <- prepare io fexp (parent_selector b) p ;;
  Ret (mkAga ms (aga_size s) (aga_elite_size s) (aga_interval s) (aga_crossover_range s)
         (aga_mutation_range s) (mkBreeding (crossover_rate b) (mutation_rate b) sel) ref_std).

(** src/algorithms/aga.rs:160-225 the trait implementation *)
Definition aga_algorithm : algorithm aga_params aga_state := {|
  alg_model := aga_model;
  alg_reproduction_parameters := fun s => (aga_breeding s, aga_size s);
  alg_configure := aga_configure;
  alg_select_elites := fun s => select_top (aga_elite_size s);
  alg_prepare := aga_prepare;
  alg_initial_population_size := aga_population_size |}.

(** ** src/evolution.rs *)

Context {P S0 : Type} (alg : algorithm P S0).
(** The [progress] closure (FnMut): from its captured state [PS] and the
    population to its answer.  While it runs, the RefCell that holds the algorithm
    is not borrowed, so a closure that has captured the same [Evolution] value may
    start other runs on it: it may also change the algorithm's state [S0]. *)
Context {PS : Type} (progress : PS -> S0 -> population I -> M (bool * PS * S0)).

(** What a run leaves behind: the population, the algorithm (kept in the
    RefCell), the closure's state, and - for the statements only - the list of
    the populations the closure was called with, in order. *)
Record run_result := mkRun {
  r_population : population I;
  r_algorithm : S0;
  r_progress : PS;
  r_trace : list (population I)
}.

(** src/evolution.rs:156-179 one iteration of the loop.  The vector
    [new_population] starts empty (line 157). *)
Definition evolve_step (s : S0) (p : population I) : M (S0 * population I) :=
  s' <- alg_prepare alg s p ;;
  elites <- alg_select_elites alg s' p [] ;;
  offspring <- generate_new_population (alg_model alg s') (alg_reproduction_parameters alg s') p elites ;;
  '(p', _) <- population_replace io p offspring ;;
  Ret (s', p').

(** src/evolution.rs:155-180 the loop; the fuel bounds its iterations, since
    the closure may never return false. *)
Fixpoint evolve_loop (fuel : nat) (s : S0) (p : population I) (ps : PS) (trace : list (population I)) : M run_result :=
  match fuel with
  | O => Fail NoFuel
  | S f =>
      '(continue, ps', s1) <- progress ps s p ;;
      if (continue : bool) then
        '(s', p') <- evolve_step s1 p ;;
        evolve_loop f s' p' ps' (trace ++ [p])
      else Ret (mkRun p s1 ps' (trace ++ [p]))
  end.

(** src/evolution.rs:132-183 evolve_population *)
Definition evolve_population (fuel : nat) (s : S0) (init : list I) (q : P) (ps : PS) : M run_result :=
  s1 <- alg_configure alg s q ;;
  p <- initialize_population (alg_model alg s1) init ;;
  evolve_loop fuel s1 p ps [].

(** src/evolution.rs:48-62 run: the returned individual and the run *)
Definition evolution_run (fuel : nat) (s : S0) (new_random : M I) (q : P) (ps : PS) : M (I * run_result) :=
  init <- extend_population new_random [] (alg_initial_population_size alg q) ;;
  r <- evolve_population fuel s init q ps ;;
  x <- take_fittest (r_population r) ;;
  Ret (x, r).

(** src/evolution.rs:88-105 evolve_individual *)
Definition evolve_individual (fuel : nat) (s : S0) (seed : I) (q : P) (ps : PS) : M (I * run_result) :=
  init <- extend_population_with mdl (alg_model alg s) [] (alg_initial_population_size alg q) seed ;;
  r <- evolve_population fuel s init q ps ;;
  x <- take_fittest (r_population r) ;;
  Ret (x, r).

End Algorithms.

(** A closure that does not touch the [Evolution] value it is called from *)
Definition quiet {I S0 PS : Type} (f : PS -> population I -> M (bool * PS)) (ps : PS) (s : S0) (p : population I) : M (bool * PS * S0) :=
  '(c, ps') <- f ps p ;; Ret (c, ps', s).
Arguments algorithm : clear implicits.
Arguments ga_state : clear implicits.
Arguments aga_state : clear implicits.
Arguments run_result : clear implicits.
Arguments alg_model {I MS P S0} _ _.
Arguments alg_reproduction_parameters {I MS P S0} _ _.
Arguments alg_configure {I MS P S0} _ _ _.
Arguments alg_select_elites {I MS P S0} _ _ _ _.
Arguments alg_prepare {I MS P S0} _ _ _.
Arguments alg_initial_population_size {I MS P S0} _ _.
Arguments r_population {I S0 PS} _.
Arguments r_algorithm {I S0 PS} _.
Arguments r_progress {I S0 PS} _.
Arguments r_trace {I S0 PS} _.
