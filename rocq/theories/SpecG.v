(** * SpecG: algorithms that a user writes, and elitism (C90, C91). *)
From Coq Require Import List Bool Arith Permutation.
From Verif Require Import Rnd F64 MStats MPopulation MSelection MModel MAlgorithms SpecF.
Import ListNotations.

(** A property of the algorithm's state that configure establishes with
    the parameters [q] and that
    prepare_for_next_population and the progress closure keep *)
Definition kept {I MS P S0 PS} (alg : algorithm I MS P S0) (progress : PS -> S0 -> population I -> M (bool * PS * S0)) (q : P) (J : S0 -> Prop) : Prop :=
  (forall s s', may (alg_configure alg s q) s' -> J s') /\
  (forall s p s', J s -> may (alg_prepare alg s p) s' -> J s') /\
  (forall ps s p c ps' s', J s -> may (progress ps s p) (c, ps', s') -> J s').

(** The target size is a usize and the selection mechanism selects members of the
    population. *)
Definition breeds_members {I MS P S0} (io : individual_ops I) (fexp : f64 -> f64) (alg : algorithm I MS P S0) (J : S0 -> Prop) : Prop :=
  forall s, J s -> fits_usize (snd (alg_reproduction_parameters alg s)) /\
    forall p o, individuals p <> [] -> fits_usize (length (individuals p)) ->
      may (select io fexp (parent_selector (fst (alg_reproduction_parameters alg s))) p) o -> In (snd o) (individuals p).

(** select_elites is not overridden. *)
Definition default_elites {I MS P S0} (alg : algorithm I MS P S0) (J : S0 -> Prop) : Prop :=
  forall s p l, J s -> alg_select_elites alg s p l = default_select_elites p l.

(** The best fitness never decreases from one population of the list to a later one. *)
Definition never_worse {I} (io : individual_ops I) (t : list (population I)) : Prop :=
  forall j k p p' x, j <= k -> nth_error t j = Some p -> nth_error t k = Some p' -> In x (individuals p) ->
  exists y, In y (individuals p') /\ fle (fitness io x) (fitness io y) = true.

(** No two individuals of the list are equal. *)
Definition all_different {I} (io : individual_ops I) (l : list I) : Prop :=
  forall i j x y, i <> j -> nth_error l i = Some x -> nth_error l j = Some y -> ieq io x y = false.
