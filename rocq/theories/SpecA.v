(** * SpecA: specification of the algorithms and of runs. *)
From Coq Require Import List Bool Arith NArith ZArith Reals.
From Flocq Require Import Core BinarySingleNaN.
From Verif Require Import Rnd F64 MStats MPopulation MSelection MModel MAlgorithms SpecF.
Import ListNotations.

(** Two executions that make the same draws and choices and end alike. *)
Fixpoint same_behaviour {A} (m m' : M A) : Prop :=
  match m, m' with
  | Ret a, Ret b => a = b
  | Fail e, Fail e' => e = e'
  | Draw n k, Draw n' k' => n = n' /\ forall i, (i < n)%N -> same_behaviour (k i) (k' i)
  | Pick n k, Pick n' k' => n = n' /\ forall i, (i < n)%N -> same_behaviour (k i) (k' i)
  | _, _ => False
  end.

(** A rate in [0, 1] (in particular not NaN) *)
Definition rate (r : f64) : Prop := is_finite r = true /\ (0 <= B2R r <= 1)%R.

(** A ratio in [0, 1) *)
Definition proper_ratio (r : f64) : Prop := is_finite r = true /\ (0 <= B2R r < 1)%R.

(** The selection strategies that create_selector accepts *)
Definition strategy_accepted (s : selection_strategy) : Prop :=
  match s with
  | StTournament size => size <> 0
  | StBoltzmann _ c => forall sg, c <> B754_zero sg
  | StElitist ratio => proper_ratio ratio
  | _ => True
  end.

Definition ga_accepted (q : ga_params) : Prop :=
  ga_population_size q <> 0 /\ proper_ratio (ga_elitism_rate q) /\ rate (ga_crossover_rate q) /\
  rate (ga_mutation_rate q) /\ strategy_accepted (ga_selection_strategy q).

Definition aga_accepted (q : aga_params) : Prop :=
  aga_population_size q <> 0 /\ proper_ratio (aga_elitism_rate q) /\
  rate (fst (aga_crossover_rate_range q)) /\ rate (snd (aga_crossover_rate_range q)) /\
  rate (fst (aga_mutation_rate_range q)) /\ rate (snd (aga_mutation_rate_range q)) /\
  strategy_accepted (aga_selection_strategy q).

(** [elites] is [size * ratio] rounded down, up to one rounding error; always below [size]. *)
Definition elite_count (size : nat) (ratio : f64) (elites : nat) : Prop :=
  elites < size /\
  ((Z.of_nat size <= 2 ^ 53)%Z ->
   (Zfloor (INR size * B2R ratio) <= Z.of_nat elites <= Zfloor (INR size * B2R ratio) + 1)%Z).

(** ** The adaptive algorithm *)

(** The standard deviation that a population shows *)
Definition deviation {A} (p : population A) : f64 := ps_std f64ops (pop_stats p).

(** A point of a range, computed in floating point *)
Definition point (range : f64 * f64) (t : f64) : f64 := fadd (fst range) (fmul (fsub (snd range) (fst range)) t).

(** The diversity of a population relative to the first one, cut to [0, 1] *)
Definition diversity_of (std std0 : f64) : f64 :=
  let d := fdiv std std0 in if flt d f0 then f0 else if flt f1 d then f1 else d.

(** A generation at which the rates are adjusted *)
Definition adjusts (interval n : nat) : Prop := n <> 0 /\ interval <> 0 /\ Nat.divide interval n.

(** The states the adaptive algorithm goes through: [prepare] is called once for
    each population shown, whose generations count up from 0. *)
Inductive prepared {I MS} (io : individual_ops I) (fexp : f64 -> f64) (mdl : model I MS) (s0 : aga_state I MS) :
    list (population I) -> aga_state I MS -> Prop :=
| prepared_start : prepared io fexp mdl s0 [] s0
| prepared_next ps s p s' : prepared io fexp mdl s0 ps s -> generation p = length ps ->
    may (aga_prepare io fexp mdl s p) s' -> prepared io fexp mdl s0 (ps ++ [p]) s'.

(** The hook [pre_generation] leaves the rates alone. *)
Definition rates_left_alone {I MS} (mdl : model I MS) : Prop :=
  forall ms p b ms' b', may (m_pre_generation mdl ms p b) (ms', b') ->
    crossover_rate b' = crossover_rate b /\ mutation_rate b' = mutation_rate b.

(** The same model with another crossover and another mutation *)
Definition with_variation {I MS} (mdl : model I MS) (c : MS -> I -> I -> M I) (m : MS -> I -> M I) : model I MS :=
  {| m_crossover := c; m_mutate := m; m_improve := m_improve mdl; m_evaluate := m_evaluate mdl;
     m_can_survive := m_can_survive mdl; m_pre_generation := m_pre_generation mdl |}.

(** What a run lets its caller see *)
Definition observe {I S0 PS} (r : run_result I S0 PS) : population I * PS * list (population I) :=
  (r_population r, r_progress r, r_trace r).
Definition observed {I S0 PS} (m : M (run_result I S0 PS)) : M (population I * PS * list (population I)) :=
  r <- m ;; Ret (observe r).

(** ** Runs *)

(** The conversation with a progress closure that does not touch the Evolution
    value: it is asked about each population of the list in turn, answers true for
    all but the last one and false for the last one; its state goes from [ps] to
    [ps']. *)
Inductive asked {I PS} (f : PS -> population I -> M (bool * PS)) : PS -> list (population I) -> PS -> Prop :=
| asked_stop ps p ps' : may (f ps p) (false, ps') -> asked f ps [p] ps'
| asked_on ps p ps' t ps'' : may (f ps p) (true, ps') -> asked f ps' t ps'' -> asked f ps (p :: t) ps''.

(** A valid individual has a number as its fitness (so it is for the default
    is_valid). *)
Definition valid_is_number {I} (io : individual_ops I) : Prop :=
  forall x, is_valid io x = true -> f_is_nan (fitness io x) = false.

(** Equal individuals have equal fitness. *)
Definition equal_means_equal_fitness {I} (io : individual_ops I) : Prop :=
  forall x y, ieq io x y = true -> feq (fitness io x) (fitness io y) = true.

(** The hook [pre_generation] leaves the selection mechanism alone. *)
Definition selector_left_alone {I MS} (mdl : model I MS) : Prop :=
  forall ms p b ms' b', may (m_pre_generation mdl ms p b) (ms', b') -> parent_selector b' = parent_selector b.

(** A model none of whose methods panics on individuals satisfying [G], which
    they keep; the hook leaves the selection mechanism alone. *)
Definition total_model {I MS} (mdl : model I MS) (G : I -> Prop) : Prop :=
  (forall ms a b, G a -> G b -> must (m_crossover mdl ms a b) G) /\
  (forall ms a, G a -> must (m_mutate mdl ms a) G) /\
  (forall ms a, G a -> must (m_improve mdl ms a) G) /\
  (forall ms a, G a -> must (m_evaluate mdl ms a) G) /\
  (forall ms a b p, G a -> G b -> must (m_can_survive mdl ms a b p) (fun _ => True)) /\
  (forall ms p b, must (m_pre_generation mdl ms p b) (fun r => parent_selector (snd r) = parent_selector b)).

(** The strategies whose selection never panics: all but linear ranking, and
    linear ranking with bias 1 or a bias with the margin of C37. *)
Definition robust_strategy (s : selection_strategy) : Prop :=
  match s with
  | StLinear b => b = f1 \/ linear_margin b
  | _ => True
  end.

(** Every population of a run is as promised: well formed, of valid individuals
    only, and from generation 1 on of at most [size] individuals. *)
Definition good_trace {I} (io : individual_ops I) (size : nat) (t : list (population I)) : Prop :=
  forall k p, nth_error t k = Some p ->
    generation p = k /\ well_formed io p /\ (forall x, In x (individuals p) -> is_valid io x = true) /\
    (1 <= k -> length (individuals p) <= size).

(** Individuals a run can start from: they satisfy [G], and at least one of them
    is surely valid once evaluated. *)
Definition startable {I MS} (io : individual_ops I) (mdl : model I MS) (G : I -> Prop) (ms : MS) (init : list I) : Prop :=
  Forall G init /\ exists x, In x init /\ must (m_evaluate mdl ms x) (fun y => is_valid io y = true).

(** The individual that a run returns, and what else its caller sees *)
Definition observed_pair {I S0 PS} (m : M (I * run_result I S0 PS)) : M (I * (population I * PS * list (population I))) :=
  o <- m ;; Ret (fst o, observe (snd o)).
