(** * SpecH: the history of a run, generation by generation (C78-C81). *)
From Coq Require Import List Bool Arith.
From Flocq Require Import BinarySingleNaN.
From Verif Require Import Rnd F64 MStats MPopulation MSelection MModel MAlgorithms SpecF SpecA.
Import ListNotations.

(** The last (fittest) [e] individuals of a population *)
Definition top {I} (e : nat) (p : population I) : list I := skipn (length (individuals p) - e) (individuals p).

(** [p] was made of the individuals [l]: all of them, up to equality. *)
Definition holds {I} (io : individual_ops I) (l : list I) (p : population I) : Prop :=
  individuals p <> [] /\ length (individuals p) <= length l /\ same_individuals io l (individuals p).

(** [p] holds the valid ones of the initial individuals after evaluation. *)
Definition begins {I MS} (io : individual_ops I) (mdl : model I MS) (ms : MS) (init : list I) (p : population I) : Prop :=
  exists evaluated, Forall2 (fun x y => may (m_evaluate mdl ms x) y) init evaluated /\
    holds io (filter (is_valid io) evaluated) p.

(** The populations of a run and how the model value and the breeding parameters
    change with them.  For each population but the last, in order and once: the
    rates are set ([rates]), the hook pre_generation is called, the selection
    mechanism is prepared, and the next population holds the [e] fittest of this
    one and individuals bred from it with the parameters just prepared, filling
    up to [size] unless one is missing (C58). *)
Inductive chronicle {I MS} (io : individual_ops I) (fexp : f64 -> f64) (mdl : model I MS) (size e : nat)
    (rates : population I -> f64 * f64 -> f64 * f64 -> Prop) :
    MS -> breeding I -> list (population I) -> MS -> breeding I -> Prop :=
| chronicle_last ms b p : chronicle io fexp mdl size e rates ms b [p] ms b
| chronicle_next ms b p cr mr ms' b1 sel bred p' t msl bl :
    rates p (crossover_rate b, mutation_rate b) (cr, mr) ->
    may (m_pre_generation mdl ms p (mkBreeding cr mr (parent_selector b))) (ms', b1) ->
    may (prepare io fexp (parent_selector b1) p) sel ->
    length bred = (let missing := size - length (top e p) in if missing =? 1 then 0 else missing) ->
    (forall x, In x bred -> may (breed io fexp mdl ms' p (mkBreeding (crossover_rate b1) (mutation_rate b1) sel)) x) ->
    holds io (top e p ++ bred) p' ->
    chronicle io fexp mdl size e rates ms' (mkBreeding (crossover_rate b1) (mutation_rate b1) sel) (p' :: t) msl bl ->
    chronicle io fexp mdl size e rates ms b (p :: p' :: t) msl bl.

(** The genetic algorithm leaves its rates alone. *)
Definition fixed_rates {I} (p : population I) (old new : f64 * f64) : Prop := new = old.

(** The adaptive one sets them in generation 0 and at every adjustment, by the
    deviation relative to that of generation 0. *)
Definition adaptive_rates {I} (q : aga_params) (std0 : f64) (p : population I) (old new : f64 * f64) : Prop :=
  (generation p = 0 -> new = (snd (aga_crossover_rate_range q), fst (aga_mutation_rate_range q))) /\
  (adjusts (aga_parameter_adjustment_interval q) (generation p) ->
     new = (point (aga_crossover_rate_range q) (diversity_of (deviation p) std0),
            point (aga_mutation_rate_range q) (fsub f1 (diversity_of (deviation p) std0)))) /\
  (generation p <> 0 -> ~ adjusts (aga_parameter_adjustment_interval q) (generation p) -> new = old).

(** Improvement does nothing, and evaluating an evaluated individual again (even
    by a model that the hook has changed) gives it back. *)
Definition settled {I MS} (mdl : model I MS) : Prop :=
  (forall ms x y, may (m_improve mdl ms x) y -> y = x) /\
  (forall ms ms' x y z, may (m_evaluate mdl ms x) y -> may (m_evaluate mdl ms' y) z -> z = y).

(** Every population of the list holds only individuals of the first one. *)
Definition nothing_new {I} (t : list (population I)) : Prop :=
  forall p0 k p x, hd_error t = Some p0 -> nth_error t k = Some p -> In x (individuals p) -> In x (individuals p0).

(** The offspring of generation [k] are bred by Boltzmann selection after exactly
    [k + 1] coolings, with the scaled fitnesses of generation [k] summed up at that
    temperature. *)
Definition cools {I MS} (io : individual_ops I) (fexp : f64 -> f64) (mdl : model I MS) (e : nat) (t c : f64) (trace : list (population I)) : Prop :=
  forall k p p', nth_error trace k = Some p -> nth_error trace (S k) = Some p' ->
  exists ms cr mr v bred,
    split_sum (map (fun x => fexp (fdiv (fitness io x) (cooled (S k) t c))) (individuals p)) v /\
    (forall x, In x bred -> may (breed io fexp mdl ms p (mkBreeding cr mr (Boltzmann (cooled (S k) t c) c v))) x) /\
    holds io (top e p ++ bred) p'.

(** All individuals of the list have one fitness, a finite number. *)
Definition same_fitness {I} (io : individual_ops I) (l : list I) : Prop :=
  exists v, is_finite v = true /\ forall x, In x l -> feq (fitness io x) v = true.
