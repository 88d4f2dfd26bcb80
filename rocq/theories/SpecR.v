(** * SpecR: specification of what a run can reach. *)
From Coq Require Import List Bool Arith NArith ZArith Reals.
From Flocq Require Import Core BinarySingleNaN.
From Verif Require Import Rnd F64 MStats MPopulation MSelection MModel MAlgorithms MOneMax SpecF SpecA.
Import ListNotations.

(** One mutation (then improved and evaluated) can turn [x] into the valid and
    strictly fitter [y], which the model lets survive. *)
Definition mutation_improves {I MS} (io : individual_ops I) (mdl : model I MS) (ms : MS) (x y : I) : Prop :=
  exists mutated improved, may (m_mutate mdl ms x) mutated /\ may (m_improve mdl ms mutated) improved /\
    may (m_evaluate mdl ms improved) y /\ is_valid io y = true /\ flt (fitness io x) (fitness io y) = true /\
    forall p, may (m_can_survive mdl ms y x p) true.

(** Some mutations in a row can turn [x] into [y], each an improvement. *)
Inductive climbs {I MS} (io : individual_ops I) (mdl : model I MS) (ms : MS) (x : I) : I -> Prop :=
| climbs_here : climbs io mdl ms x x
| climbs_on y z : climbs io mdl ms x y -> mutation_improves io mdl ms y z -> climbs io mdl ms x z.

(** The progress closure that lets the run go on until some individual meets the goal. *)
Definition until {I PS} (goal : I -> bool) (ps : PS) (p : population I) : M (bool * PS) :=
  Ret (negb (existsb goal (individuals p)), ps).

(** The hook [pre_generation] is the default one. *)
Definition default_hook {I MS} (mdl : model I MS) : Prop :=
  forall ms p b, m_pre_generation mdl ms p b = Ret (ms, b).

(** Strategies that go by rank only. *)
Definition rank_based (s : selection_strategy) : Prop :=
  match s with
  | StTournament size => size <> 0
  | StRank => True
  | StElitist ratio => proper_ratio ratio
  | StLinear b => is_finite b = true /\ (1 + bpow radix2 (-10) <= B2R b <= 2)%R
  | _ => False
  end.

(** A genetic algorithm that both copies and mutates: some offspring have one
    parent only, some are mutated, and at least three places of each generation
    are not for elites. *)
Definition explores (q : ga_params) : Prop :=
  (B2R (ga_crossover_rate q) < 1)%R /\ (0 < B2R (ga_mutation_rate q))%R /\
  (INR (ga_population_size q) * B2R (ga_elitism_rate q) <= INR (ga_population_size q) - 3)%R /\
  (Z.of_nat (ga_population_size q) <= 2 ^ 20)%Z.

(** All bits are set. *)
Definition all_ones (x : onemax) : bool := forallb (fun b => b) (genome x).
