(** * ExG: a user's algorithm, for the examples of C90 and C91. *)
From Coq Require Import List Bool Arith NArith ZArith.
From Verif Require Import Rnd F64 MStats MPopulation MSelection MModel MAlgorithms ExF ExM ExR.
Import ListNotations.

(** The genetic algorithm without its own select_elites *)
Definition ex_custom : algorithm nat unit ga_params (ga_state nat unit) := {|
  alg_model := ga_model;
  alg_reproduction_parameters := fun s => (ga_breeding s, ga_size s);
  alg_configure := ga_configure;
  alg_select_elites := fun _ => default_select_elites;
  alg_prepare := ga_prepare ex_io ex_exp ex_model;
  alg_initial_population_size := ga_population_size |}.

(** Any population size; half of it elite; crossover and mutation always happen *)
Definition ex_eager (n : nat) : ga_params := mkGaParams n (f_lit 1 2) f1 f1 StRank.
Definition ex_eager_a (n : nat) : aga_params := mkAgaParams n (f_lit 1 2) (f1, f1) (f1, f1) StRank 1.

(** Runs from the individuals 0 (invalid), 3 and 9, up to generation 2 *)
Definition ex_custom_run (n : nat) : M (run_result nat (ga_state nat unit) unit) :=
  evolve_population ex_io ex_exp ex_model ex_custom (quiet (stop_at 2)) 3 (ga_from tt) [0; 3; 9] (ex_eager n) tt.
Definition ex_stuck : M (run_result nat (ga_state nat unit) unit) :=
  evolve_population ex_io ex_exp ex_model (ga_algorithm ex_io ex_exp ex_model) (quiet (stop_at 2)) 3 (ga_from tt) [0; 3; 9] (ex_eager 2) tt.
Definition ex_stuck_a : M (run_result nat (aga_state nat unit) unit) :=
  evolve_population ex_io ex_exp ex_model (aga_algorithm ex_io ex_exp ex_model) (quiet (stop_at 2)) 3 (aga_from tt) [0; 3; 9] (ex_eager_a 2) tt.
