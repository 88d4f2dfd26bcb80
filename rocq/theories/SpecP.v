(** * SpecP: counting calls of user code (C115).

    A draw from an empty range never happens in the code ([gen_range] panics
    instead), so [Draw 0] can serve as a mark: a method of a model that is
    watched leaves one mark each time it is called. *)
From Coq Require Import List Bool Arith NArith.
From Verif Require Import Rnd F64 MStats MPopulation MSelection MModel.
Import ListNotations.

(** [m], called once *)
Definition marked {A} (m : M A) : M A := Draw 0 (fun _ => m).

(** [may_calls m n a]: some execution of [m] returns [a] and passes [n] marks. *)
Fixpoint may_calls {A} (m : M A) (n : nat) (a : A) : Prop :=
  match m with
  | Ret b => b = a /\ n = 0
  | Fail _ => False
  | Draw b k =>
      if (b =? 0)%N then match n with O => False | S n' => may_calls (k 0%N) n' a end
      else exists i, (i < b)%N /\ may_calls (k i) n a
  | Pick b k => exists i, (i < b)%N /\ may_calls (k i) n a
  end.

(** No mark anywhere: nothing draws from an empty range *)
Fixpoint unmarked {A} (m : M A) : Prop :=
  match m with
  | Ret _ | Fail _ => True
  | Draw b k => (0 < b)%N /\ forall i, (i < b)%N -> unmarked (k i)
  | Pick b k => forall i, (i < b)%N -> unmarked (k i)
  end.

(** The methods of a model, and [RandomIndividual::new_random] *)
Inductive method := NewRandom | Crossover | Mutate | Improve | Evaluate | CanSurvive | PreGeneration.

Definition method_eqb (a b : method) : bool :=
  match a, b with
  | NewRandom, NewRandom | Crossover, Crossover | Mutate, Mutate | Improve, Improve
  | Evaluate, Evaluate | CanSurvive, CanSurvive | PreGeneration, PreGeneration => true
  | _, _ => false
  end.

Definition mark_if {A} (b : bool) (m : M A) : M A := if b then marked m else m.

(** The model [mdl], whose method [w] is watched ([new_random] belongs to the
    individuals, see [watch_random]) *)
Definition watch {I MS} (w : method) (mdl : model I MS) : model I MS := {|
  m_crossover := fun ms a b => mark_if (method_eqb w Crossover) (m_crossover mdl ms a b);
  m_mutate := fun ms a => mark_if (method_eqb w Mutate) (m_mutate mdl ms a);
  m_improve := fun ms a => mark_if (method_eqb w Improve) (m_improve mdl ms a);
  m_evaluate := fun ms a => mark_if (method_eqb w Evaluate) (m_evaluate mdl ms a);
  m_can_survive := fun ms a b p => mark_if (method_eqb w CanSurvive) (m_can_survive mdl ms a b p);
  m_pre_generation := fun ms p b => mark_if (method_eqb w PreGeneration) (m_pre_generation mdl ms p b) |}.

Definition watch_random {I} (w : method) (new_random : M I) : M I := mark_if (method_eqb w NewRandom) new_random.

(** User code that draws random numbers from ranges that are not empty *)
Definition unmarked_selector {I} (s : selector I) : Prop :=
  match s with
  | Custom S0 _ prep sel => forall s0 p, unmarked (prep s0 p) /\ unmarked (sel s0 p)
  | _ => True
  end.
Definition unmarked_model {I MS} (mdl : model I MS) : Prop :=
  (forall ms a b, unmarked (m_crossover mdl ms a b)) /\ (forall ms a, unmarked (m_mutate mdl ms a)) /\
  (forall ms a, unmarked (m_improve mdl ms a)) /\ (forall ms a, unmarked (m_evaluate mdl ms a)) /\
  (forall ms a b p, unmarked (m_can_survive mdl ms a b p)) /\
  (forall ms p b, unmarked (m_pre_generation mdl ms p b) /\
     (unmarked_selector (parent_selector b) -> forall ms' b', may (m_pre_generation mdl ms p b) (ms', b') -> unmarked_selector (parent_selector b'))).

(** How often one breeding calls a method, at least and at most; [n] is the number
    of individuals to choose parents from *)
Definition least_breed (w : method) : nat := match w with Improve | Evaluate => 1 | _ => 0 end.
Definition most_breed (w : method) (n : nat) : nat :=
  match w with NewRandom | PreGeneration => 0 | Crossover => if n <=? 1 then 0 else 1 | _ => 1 end.

(** How many individuals are bred from the population [p]: as many as are missing
    once the elites are copied *)
Definition bred {I} (size elites : nat) (p : population I) : nat := size - Nat.min elites (length (individuals p)).

(** How often the generations bred from the populations [ps] call a method *)
Fixpoint least_calls {I} (w : method) (size elites : nat) (ps : list (population I)) : nat :=
  match ps with
  | [] => 0
  | p :: t => (match w with PreGeneration => 1 | _ => bred size elites p * least_breed w end) + least_calls w size elites t
  end.
Fixpoint most_calls {I} (w : method) (size elites : nat) (ps : list (population I)) : nat :=
  match ps with
  | [] => 0
  | p :: t => (match w with PreGeneration => 1 | _ => bred size elites p * most_breed w (length (individuals p)) end)
              + most_calls w size elites t
  end.

(** How often a method is called before the first generation, in a run that starts
    with [n] individuals: each is evaluated once ... *)
Definition at_start (w : method) (n : nat) : nat := match w with Evaluate => n | _ => 0 end.
(** ... and, in [run], made by [new_random] or, in [evolve_individual], except for the
    seed itself, by [mutate]. *)
Definition at_random_start (w : method) (n : nat) : nat := match w with Evaluate | NewRandom => n | _ => 0 end.
Definition at_seeded_start (w : method) (n : nat) : nat := match w with Evaluate => n | Mutate => n - 1 | _ => 0 end.
