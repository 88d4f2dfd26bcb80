(** * SpecL: the vocabulary of the statements about how soon a run finds the goal. *)
From Coq Require Import List Bool Arith NArith ZArith Reals.
From Flocq Require Import Core BinarySingleNaN.
From Verif Require Import Rnd Prob F64 MStats MPopulation MSelection MModel MAlgorithms SpecF SpecA.
Import ListNotations.

(** An individual mutated, improved and evaluated *)
Definition variant {I MS} (mdl : model I MS) (ms : MS) (x : I) : M I :=
  mutated <- m_mutate mdl ms x ;; improved <- m_improve mdl ms mutated ;; m_evaluate mdl ms improved.

(** The fitness of the [good] individuals climbs a ladder of levels: fitter
    individuals stand at least as high, those at level [top] or above meet the
    goal, and from each level between [low] and [top] the variant of an individual
    stands higher with probability at least [eps]. *)
Definition ladder {I MS} (io : individual_ops I) (mdl : model I MS) (good : I -> Prop) (goal : I -> bool)
    (level : I -> nat) (low top : nat) (eps : R) : Prop :=
  (forall x y, good x -> good y -> fle (fitness io x) (fitness io y) = true -> level x <= level y) /\
  (forall x, good x -> (goal x = true <-> top <= level x)) /\
  (forall ms x, good x -> is_valid io x = true -> low <= level x < top ->
    (eps <= prob (variant mdl ms x) (fun y => is_valid io y && (level x <? level y)))%R).

(** The survival rule is the default one. *)
Definition default_survival {I MS} (io : individual_ops I) (mdl : model I MS) : Prop :=
  forall ms y x p, m_can_survive mdl ms y x p = default_can_survive io ms y x p.

(** Individuals a run can start from: they satisfy [raw], and at least one of
    them is surely valid and at level [low] or above once evaluated. *)
Definition startable_at {I MS} (io : individual_ops I) (mdl : model I MS) (raw : I -> Prop)
    (level : I -> nat) (low : nat) (ms : MS) (init : list I) : Prop :=
  Forall raw init /\
  exists x, In x init /\ must (m_evaluate mdl ms x) (fun y => is_valid io y = true /\ low <= level y).

(** How many generations finding the goal takes at most on average, for
    populations of at most [size] individuals: for each of the levels one waits
    for the fittest individual to be selected (probability at least
    1 / (2 size)), not crossed over, mutated, and mutated for the better. *)
Definition generations (size : nat) (q : ga_params) (levels : nat) (eps : R) : R :=
  (INR levels * (4 * INR size / ((1 - BinarySingleNaN.B2R (ga_crossover_rate q)) *
                                 BinarySingleNaN.B2R (ga_mutation_rate q) * eps)))%R.

(** An adaptive algorithm that copies and mutates whatever the diversity: both
    ranges are the right way round, the crossover range ends below 1 (with a
    margin for rounding), the mutation range starts above 0, and at least three
    places of each generation are not for elites. *)
Definition aga_explores (q : aga_params) : Prop :=
  (B2R (fst (aga_crossover_rate_range q)) <= B2R (snd (aga_crossover_rate_range q)))%R /\
  (B2R (snd (aga_crossover_rate_range q)) + bpow radix2 (-53) < 1)%R /\
  (0 < B2R (fst (aga_mutation_rate_range q)) <= B2R (snd (aga_mutation_rate_range q)))%R /\
  (INR (aga_population_size q) * B2R (aga_elitism_rate q) <= INR (aga_population_size q) - 3)%R /\
  (Z.of_nat (aga_population_size q) <= 2 ^ 20)%Z.

(** Either the rates are never adjusted, or fitness is finite and of moderate size
    and the first population surely has a positive finite deviation. *)
Definition diverse_start {I MS} (io : individual_ops I) (mdl : model I MS) (good : I -> Prop) (q : aga_params)
    (ms : MS) (init : list I) : Prop :=
  aga_parameter_adjustment_interval q = 0 \/
  (forall x, good x -> is_valid io x = true ->
     is_finite (fitness io x) = true /\ (Rabs (B2R (fitness io x)) <= bpow radix2 1021)%R) /\
  must (initialize_population io mdl ms init) (fun p => is_finite (deviation p) = true /\ flt f0 (deviation p) = true).

(** The same bound as [generations], with the least favourable rates *)
Definition aga_generations (size : nat) (q : aga_params) (levels : nat) (eps : R) : R :=
  (INR levels * (4 * INR size / ((1 - (B2R (snd (aga_crossover_rate_range q)) + bpow radix2 (-53))) *
                                 B2R (fst (aga_mutation_rate_range q)) * eps)))%R.
