(** * SpecO: the vocabulary of the statements that compare two runs (C113, C114). *)
From Coq Require Import List Bool Arith NArith.
From Verif Require Import Rnd F64 MStats MPopulation MSelection MModel MAlgorithms SpecT.
Import ListNotations.

(** Two programs that draw and choose among the same numbers of alternatives and, on
    the same outcomes, end the same way with results related by [R] *)
Fixpoint alike {A B} (R : A -> B -> Prop) (m : M A) (m' : M B) : Prop :=
  match m, m' with
  | Ret a, Ret b => R a b
  | Fail e, Fail e' => e = e'
  | Draw n k, Draw n' k' => n = n' /\ forall i, (i < n)%N -> alike R (k i) (k' i)
  | Pick n k, Pick n' k' => n = n' /\ forall i, (i < n)%N -> alike R (k i) (k' i)
  | _, _ => False
  end.

(** Strategies that look at the order of the individuals only *)
Definition by_rank (s : selection_strategy) : Prop :=
  match s with StTournament _ | StRank | StLinear _ | StElitist _ => True | StRouletteWheel | StBoltzmann _ _ => False end.

Section Twins.
Context {I J : Type} (io : individual_ops I) (jo : individual_ops J) (R : I -> J -> Prop).

(** Related individuals are valid, equal and ordered by fitness alike. *)
Definition same_order : Prop :=
  (forall a b, R a b -> is_valid io a = is_valid jo b) /\
  (forall a b a' b', R a b -> R a' b' -> ieq io a a' = ieq jo b b') /\
  (forall a b a' b', R a b -> R a' b' -> fcmp (fitness io a) (fitness io a') = fcmp (fitness jo b) (fitness jo b')).

Definition same_fitness : Prop := forall a b, R a b -> fitness io a = fitness jo b.

(** Populations of related individuals at the same positions, with the same counters;
    the statistics may differ ... *)
Definition twins (p : population I) (q : population J) : Prop :=
  Forall2 R (individuals p) (individuals q) /\ generation p = generation q /\ stagnation p = stagnation q.
(** ... or not. *)
Definition full_twins (p : population I) (q : population J) : Prop := twins p q /\ pop_stats p = pop_stats q.

(** The operations of two models do the same on related individuals; neither model
    adjusts the parameters before a generation. *)
Definition models_alike {MS} (m : model I MS) (n : model J MS) : Prop :=
  (forall ms a b a' b', R a b -> R a' b' -> alike R (m_crossover m ms a a') (m_crossover n ms b b')) /\
  (forall ms a b, R a b -> alike R (m_mutate m ms a) (m_mutate n ms b)) /\
  (forall ms a b, R a b -> alike R (m_improve m ms a) (m_improve n ms b)) /\
  (forall ms a b, R a b -> alike R (m_evaluate m ms a) (m_evaluate n ms b)) /\
  (forall ms x y a b p q, R x y -> R a b -> twins p q -> alike eq (m_can_survive m ms x a p) (m_can_survive n ms y b q)) /\
  (forall ms p br, m_pre_generation m ms p br = Ret (ms, br)) /\
  (forall ms p br, m_pre_generation n ms p br = Ret (ms, br)).

(** Two runs that showed the closures related populations, generation by generation,
    and ended with related ones *)
Definition twin_runs {S0 S1 PS} (T : population I -> population J -> Prop) (r : run_result I S0 PS) (r' : run_result J S1 PS) : Prop :=
  T (r_population r) (r_population r') /\ r_progress r = r_progress r' /\ Forall2 T (r_trace r) (r_trace r').
Definition twin_results {S0 S1 PS} (T : population I -> population J -> Prop) (x : I * run_result I S0 PS) (y : J * run_result J S1 PS) : Prop :=
  R (fst x) (fst y) /\ twin_runs T (snd x) (snd y).
End Twins.

(** The same tour with the cities renamed *)
Definition renamed {G H} (f : G -> H) (x : tour G) (y : tour H) : Prop :=
  route y = map f (route x) /\ tour_fitness y = tour_fitness x.
