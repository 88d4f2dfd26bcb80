(** * MModel: model of src/model.rs (trait EvolutionModel and its default
    methods, ReproductionParameters). *)
From Coq Require Import List Bool Arith NArith ZArith.
From Verif Require Import Rnd F64 MStats MPopulation MSelection.
Import ListNotations.

Section Model.
Context {I : Type} (io : individual_ops I) (fexp : f64 -> f64).

(** src/model.rs:291-306 ReproductionParameters *)
Record breeding := mkBreeding {
  crossover_rate : f64;
  mutation_rate : f64;
  parent_selector : selector I
}.

(** src/model.rs:308-316 Default *)
Definition breeding_default : breeding :=
  mkBreeding (f_lit 8 10) (f_lit 1 10) roulette_new.

(** src/model.rs:23-124, 206-214: the methods of an EvolutionModel that its
    implementor provides or may override.  [MS] is the type of the model value
    itself ([self]).  Every method may draw random numbers or panic. *)
Record model (MS : Type) := {
  m_crossover : MS -> I -> I -> M I;
  m_mutate : MS -> I -> M I;
  m_improve : MS -> I -> M I;
  m_evaluate : MS -> I -> M I;
  m_can_survive : MS -> I -> I -> population I -> M bool;
  m_pre_generation : MS -> population I -> breeding -> M (MS * breeding)
}.
Arguments m_crossover {MS} _ _ _ _.
Arguments m_mutate {MS} _ _ _.
Arguments m_improve {MS} _ _ _.
Arguments m_evaluate {MS} _ _ _.
Arguments m_can_survive {MS} _ _ _ _ _.
Arguments m_pre_generation {MS} _ _ _ _.

(** src/model.rs:86 default improve *)
Definition default_improve {MS} (ms : MS) (i : I) : M I := Ret i.
(** src/model.rs:117-124 default pre_generation *)
Definition default_pre_generation {MS} (ms : MS) (p : population I) (b : breeding) : M (MS * breeding) := Ret (ms, b).
(** src/model.rs:206-214 default can_survive *)
Definition default_can_survive {MS} (ms : MS) (offspring fittest_parent : I) (p : population I) : M bool :=
  Ret (fge (fitness io offspring) (fitness io fittest_parent)).

Context {MS : Type} (mdl : model MS).

(** src/model.rs:154-161 the optional second parent *)
Definition breed_parent2 (p : population I) (b : breeding) (parent1 : I) : M (option I) :=
  if 1 <? length (individuals p) then
    u <- gen_f64 ;;
    if flt u (crossover_rate b) then
      o <- select_distinct io fexp (parent_selector b) p 3 parent1 ;;
      Ret (option_map snd o)
    else Ret None
  else Ret None.

(** src/model.rs:163-184 from the parents to the survivor *)
Definition breed_from (ms : MS) (p : population I) (b : breeding) (parent1 : I) (parent2 : option I) : M I :=
  let fittest_parent :=
    match parent2 with
    | Some q => if fgt (fitness io q) (fitness io parent1) then q else parent1
    | None => parent1
    end in
  offspring <- match parent2 with
               | Some q => m_crossover mdl ms parent1 q
               | None => Ret parent1
               end ;;
  u <- gen_f64 ;;
  offspring <- (if flt u (mutation_rate b) then m_mutate mdl ms offspring else Ret offspring) ;;
  offspring <- m_improve mdl ms offspring ;;
  offspring <- m_evaluate mdl ms offspring ;;
  survives <- (if is_valid io offspring then m_can_survive mdl ms offspring fittest_parent p else Ret false) ;;
  Ret (if survives then offspring else fittest_parent).

(** src/model.rs:144-185 breed (default method) *)
Definition breed (ms : MS) (p : population I) (b : breeding) : M I :=
  '(_, parent1) <- select io fexp (parent_selector b) p ;;
  parent2 <- breed_parent2 p b parent1 ;;
  breed_from ms p b parent1 parent2.

(** src/model.rs:233-248 extend_population; [new_random] is
    [RandomIndividual::new_random] applied to the domain arguments.  The
    parallel [map_init] gives each worker its own generator: every call sees
    arbitrary draws, so running the calls one after the other covers every
    schedule; rayon keeps the results in order. *)
Definition extend_population (new_random : M I) (l : list I) (size : nat) : M (list I) :=
  if size =? 0 then Ret l
  else news <- repeatM size new_random ;; Ret (l ++ news).

(** src/model.rs:264-287 extend_population_with *)
Definition extend_population_with (ms : MS) (l : list I) (size : nat) (seed : I) : M (list I) :=
  if size =? 0 then Ret l
  else if size =? 1 then Ret (l ++ [seed])
  else news <- repeatM (size - 1) (m_mutate mdl ms seed) ;; Ret ((l ++ [seed]) ++ news).

End Model.
Arguments breeding : clear implicits.
Arguments model : clear implicits.
Arguments m_crossover {I MS} _ _ _ _.
Arguments m_mutate {I MS} _ _ _.
Arguments m_improve {I MS} _ _ _.
Arguments m_evaluate {I MS} _ _ _.
Arguments m_can_survive {I MS} _ _ _ _ _.
Arguments m_pre_generation {I MS} _ _ _ _.
