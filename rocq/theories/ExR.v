(** * ExR: the concrete runs of the examples. *)
From Coq Require Import List Bool Arith NArith ZArith.
From Verif Require Import Rnd F64 MStats MPopulation MSelection MModel MAlgorithms ExF ExM.
Import ListNotations.

(** A closure that stops the run at generation [n] *)
Definition stop_at {I} (n : nat) (ps : unit) (p : population I) : M (bool * unit) := Ret (generation p <? n, ps).

(** The default parameters with another population size *)
Definition ex_ga (n : nat) : ga_params := mkGaParams n (f_lit 1 100) (f_lit 8 10) (f_lit 1 10) StRouletteWheel.

(** Half of the population is elite *)
Definition ex_half : ga_params := mkGaParams 4 (f_lit 1 2) (f_lit 8 10) (f_lit 1 10) StRank.

(** A run from random individuals *)
Definition ex_run (n : nat) : M (nat * run_result nat (ga_state nat unit) unit) :=
  evolution_run ex_io ex_exp ex_model (ga_algorithm ex_io ex_exp ex_model) (quiet (stop_at n)) (S n) (ga_from tt) (gen_range 1 10) ex_half tt.

(** An adaptive algorithm after some run, its rates lost *)
Definition ex_used : aga_state nat unit :=
  mkAga tt 7 2 3 (f0, f1) (f1, f0) (mkBreeding f_nan f_nan Rank) f0.
