(** * SpecT: the vocabulary of the statements about searching for tours (C109). *)
From Coq Require Import List Bool Arith NArith ZArith Reals.
From Flocq Require Import Core BinarySingleNaN.
From Verif Require Import Rnd F64 MStats MOperators MCrossover MMutation MPopulation MSelection MModel MAlgorithms.
Import ListNotations.

(** A user's individual: a tour and its fitness.  This is not code of the crate: it is
    what a user writes to search the tours with the crate's operators. *)
Record tour (G : Type) := mkTour { route : list G; tour_fitness : f64 }.
Arguments mkTour {G}.
Arguments route {G}.
Arguments tour_fitness {G}.

Fixpoint route_eqb {G} (eqb : G -> G -> bool) (a b : list G) : bool :=
  match a, b with
  | [], [] => true
  | x :: a', y :: b' => eqb x y && route_eqb eqb a' b'
  | _, _ => false
  end.

(** derive(PartialEq), fitness, and the default is_valid *)
Definition tour_ops {G} (eqb : G -> G -> bool) : individual_ops (tour G) := {|
  fitness := tour_fitness;
  is_valid := default_is_valid tour_fitness;
  ieq := fun a b => route_eqb eqb (route a) (route b) && feq (tour_fitness a) (tour_fitness b) |}.

(** A user's model: crossover and mutation are those of the two strategies, the
    fitness of a route is what [score] says, and the rest is the default. *)
Definition tour_model {G} (eqb ltb : G -> G -> bool) (steps : nat) (cs : crossover_strategy) (mu : mutation_strategy)
    (score : list G -> f64) : model (tour G) unit := {|
  m_crossover := fun _ a b => r <- crossover eqb ltb steps cs (route a) (route b) ;; Ret (mkTour r f0);
  m_mutate := fun _ x => r <- mutate mu (route x) ;; Ret (mkTour r (tour_fitness x));
  m_improve := default_improve;
  m_evaluate := fun _ x => Ret (mkTour (route x) (score (route x)));
  m_can_survive := default_can_survive (tour_ops eqb);
  m_pre_generation := default_pre_generation |}.

(** The tour is at least as fit as [target]. *)
Definition reaches {G} (target : f64) (x : tour G) : bool := fge (tour_fitness x) target.

(** Whatever becomes of [x], mutated or not, once improved and evaluated, is [x]
    again, is not valid, or does not survive beside [x]. *)
Definition local_optimum {I MS} (io : individual_ops I) (mdl : model I MS) (x : I) : Prop :=
  ieq io x x = true /\
  forall ms mutant improved y, mutant = x \/ may (m_mutate mdl ms x) mutant ->
    may (m_improve mdl ms mutant) improved -> may (m_evaluate mdl ms improved) y ->
    y = x \/ is_valid io y = false \/ forall p, ~ may (m_can_survive mdl ms y x p) true.

(** Four cities and a score with a local optimum: the tour 0 1 2 3 is worth 5, the
    tour 1 0 3 2 is worth 10, and every other tour is worth 0. *)
Definition trap_score (r : list nat) : f64 :=
  if route_eqb Nat.eqb r [0; 1; 2; 3] then f_of_nat 5
  else if route_eqb Nat.eqb r [1; 0; 3; 2] then f_of_nat 10 else f0.
