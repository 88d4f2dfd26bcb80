(** * ExO: individuals of three kinds with two scales of fitness, for the examples of C113. *)
From Coq Require Import List Arith NArith ZArith.
From Verif Require Import Rnd F64 MPopulation MSelection MModel MAlgorithms SpecF.
Import ListNotations.
Local Open Scope nat_scope.

(** An individual is small ([Lt]), medium ([Eq]) or large ([Gt]). *)
Definition size_eqb (a b : comparison) : bool :=
  match a, b with Lt, Lt | Eq, Eq | Gt, Gt => true | _, _ => false end.
(** Fitness 1, 2, 3 on one scale and 1, 10, 1000 on the other *)
Definition narrow : individual_ops comparison := {|
  fitness := fun x => f_of_nat (match x with Lt => 1 | Eq => 2 | Gt => 3 end);
  is_valid := fun _ => true; ieq := size_eqb |}.
Definition wide : individual_ops comparison := {|
  fitness := fun x => f_of_nat (match x with Lt => 1 | Eq => 10 | Gt => 1000 end);
  is_valid := fun _ => true; ieq := size_eqb |}.
(** Fitness 2, 4, 6 and 2, 3, 4, for the examples of C128 *)
Definition twice : individual_ops comparison := {|
  fitness := fun x => f_of_nat (match x with Lt => 2 | Eq => 4 | Gt => 6 end);
  is_valid := fun _ => true; ieq := size_eqb |}.
Definition shifted : individual_ops comparison := {|
  fitness := fun x => f_of_nat (match x with Lt => 2 | Eq => 3 | Gt => 4 end);
  is_valid := fun _ => true; ieq := size_eqb |}.
(** Fitness 1, 2 and 3 times 2^-700: the squares of differences are too small for an f64. *)
Definition tiny : individual_ops comparison := {|
  fitness := fun x => BinarySingleNaN.binary_normalize prec emax Hprec Hprec_emax BinarySingleNaN.mode_NE (match x with Lt => 1 | Eq => 2 | Gt => 3 end) (-700) false;
  is_valid := fun _ => true; ieq := size_eqb |}.
(** Mutation makes an individual large, crossover takes the first parent. *)
Definition size_model (io : individual_ops comparison) : model comparison unit := {|
  m_crossover := fun _ a _ => Ret a;
  m_mutate := fun _ _ => Ret Gt;
  m_improve := default_improve;
  m_evaluate := fun _ x => Ret x;
  m_can_survive := default_can_survive io;
  m_pre_generation := default_pre_generation |}.

Definition size_ga (io : individual_ops comparison) (fexp : f64 -> f64) (st : selection_strategy) (g : nat) :=
  evolve_population io fexp (size_model io) (ga_algorithm io fexp (size_model io))
    (quiet (fun (_ : unit) p => Ret (generation p <? g, tt))) (S g) (ga_from tt) [Lt; Eq; Gt]
    (mkGaParams 3 f0 f0 f0 st) tt.
Definition size_aga (io : individual_ops comparison) (fexp : f64 -> f64) (st : selection_strategy) (interval g : nat) :=
  evolve_population io fexp (size_model io) (aga_algorithm io fexp (size_model io))
    (quiet (fun (_ : unit) p => Ret (generation p <? g, tt))) (S g) (aga_from tt) [Lt; Eq; Gt]
    (mkAgaParams 3 f0 (f0, f0) (f0, f1) st interval) tt.
Definition units_pop (io : individual_ops comparison) : population comparison :=
  mkPopulation [Lt; Eq; Gt] 0 0 (stats_of io [Lt; Eq; Gt]).
