(** * MOneMax: model of src/lib.rs:71-168 (module one_max). *)
From Coq Require Import List Bool Arith NArith ZArith.
From Verif Require Import Rnd F64 MStats MOperators MCrossover MMutation MPopulation MSelection MModel MAlgorithms.
Import ListNotations.

(** src/lib.rs:80-84 OneMax *)
Record onemax := mkOneMax { genome : list bool; om_fitness : f64 }.

(** src/lib.rs:96-103 From<Vec<bool>> *)
Definition onemax_from (g : list bool) : onemax := mkOneMax g f0.

(** derived PartialEq on Vec<bool> *)
Fixpoint genome_eqb (a b : list bool) : bool :=
  match a, b with
  | [], [] => true
  | x :: a', y :: b' => Bool.eqb x y && genome_eqb a' b'
  | _, _ => false
  end.

(** src/lib.rs:80 derive(PartialEq); 106-111 Individual (default is_valid) *)
Definition onemax_ops : individual_ops onemax := {|
  fitness := om_fitness;
  is_valid := default_is_valid om_fitness;
  ieq := fun a b => genome_eqb (genome a) (genome b) && feq (om_fitness a) (om_fitness b) |}.

(** rand [Standard] distribution for bool *)
Definition gen_bool : M bool := Draw 2 (fun i => Ret (negb (i =? 0)%N)).

(** src/lib.rs:119-123 new_random *)
Definition onemax_new_random (length : nat) : M onemax :=
  bits <- repeatM length gen_bool ;; Ret (onemax_from bits).

(** src/lib.rs:144-153 crossover (SPX does not use the fuel) *)
Definition onemax_crossover (_ : unit) (a b : onemax) : M onemax :=
  g <- crossover Bool.eqb (fun x y => negb x && y) 0 SinglePoint (genome a) (genome b) ;;
  Ret (onemax_from g).

(** src/lib.rs:156-158 mutate *)
Definition onemax_mutate (_ : unit) (i : onemax) : M onemax :=
  g <- mutate Duplicate (genome i) ;; Ret (mkOneMax g (om_fitness i)).

(** src/lib.rs:162-166 evaluate *)
Definition count_ones (g : list bool) : nat := length (filter (fun b => b) g).
Definition onemax_evaluate (_ : unit) (i : onemax) : M onemax :=
  Ret (mkOneMax (genome i) (fdiv (f_of_nat (count_ones (genome i))) (f_of_nat (length (genome i))))).

(** src/lib.rs:134-167 OneMaxEvolutionModel (improve, can_survive and
    pre_generation are the defaults) *)
Definition onemax_model : model onemax unit := {|
  m_crossover := onemax_crossover;
  m_mutate := onemax_mutate;
  m_improve := default_improve;
  m_evaluate := onemax_evaluate;
  m_can_survive := default_can_survive onemax_ops;
  m_pre_generation := default_pre_generation |}.
