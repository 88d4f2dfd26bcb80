(** * ExY: runs on four cities without mutation, for the examples of C111. *)
From Coq Require Import List Arith ZArith.
From Verif Require Import Rnd F64 MCrossover MMutation MPopulation MSelection MModel MAlgorithms SpecT ExF ExM ExR.
Import ListNotations.
Local Open Scope nat_scope.

(** Four individuals, one elite, and no mutation *)
Definition no_mutation : ga_params := mkGaParams 4 (f_lit 1 4) f1 f0 StRank.

(** Every tour is worth the same *)
Definition flat (_ : list nat) : f64 := f1.

(** A run of one generation *)
Definition tour_run (cs : crossover_strategy) (init : list (list nat)) :=
  evolve_population (tour_ops Nat.eqb) ex_exp (tour_model Nat.eqb Nat.ltb 5 cs Scramble flat)
    (ga_algorithm (tour_ops Nat.eqb) ex_exp (tour_model Nat.eqb Nat.ltb 5 cs Scramble flat)) (quiet (stop_at 1)) 2 (ga_from tt)
    (map (fun r => mkTour r f0) init) no_mutation tt.

(** The routes that the progress closure is shown *)
Definition routes_shown {S0 PS} (r : run_result (tour nat) S0 PS) : list (list (list nat)) :=
  map (fun p => map (@route nat) (individuals p)) (r_trace r).
