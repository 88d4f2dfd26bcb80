(** * SpecE: the vocabulary of the statement about cold Boltzmann runs (C98). *)
From Coq Require Import List Bool Arith Reals.
From Flocq Require Import Core BinarySingleNaN.
From Verif Require Import Rnd Prob F64 MStats MPopulation MSelection MModel SpecF SpecH.
Import ListNotations.

(** [v] is infinite or finite and at least [a]. *)
Definition at_least (a : R) (v : f64) : Prop := v = f_inf \/ (is_finite v = true /\ (a <= B2R v)%R).

(** exp overflows at 710 and above (it does above 709.78...). *)
Definition exp_overflows (fexp : f64 -> f64) : Prop := forall x, fge x (f_of_Z 710) = true -> fexp x = f_inf.

(** Breeding from the one parent [x] *)
Definition solo {I MS} (io : individual_ops I) (mdl : model I MS) (ms : MS) (rate : f64) (p : population I) (x : I) : M I :=
  u <- gen_f64 ;;
  mutant <- (if flt u rate then m_mutate mdl ms x else Ret x) ;;
  improved <- m_improve mdl ms mutant ;;
  child <- m_evaluate mdl ms improved ;;
  survives <- (if is_valid io child then m_can_survive mdl ms child x p else Ret false) ;;
  Ret (if survives then child else x).

(** From generation [first] on, the population after [p] holds the [e] fittest of
    [p] and individuals bred from the least fit one of [p] alone: breeding has,
    for every event, the probability that breeding from this one parent has, up
    to 2^-51. *)
Definition bred_from_worst {I MS} (io : individual_ops I) (fexp : f64 -> f64) (mdl : model I MS) (e first : nat)
    (trace : list (population I)) : Prop :=
  forall k p p', first <= k -> nth_error trace k = Some p -> nth_error trace (S k) = Some p' ->
  exists ms b bred worst,
    hd_error (individuals p) = Some worst /\
    (forall y, In y (individuals p) -> fle (fitness io worst) (fitness io y) = true) /\
    (forall P, (Rabs (prob (breed io fexp mdl ms p b) P - prob (solo io mdl ms (mutation_rate b) p worst) P) <= bpow radix2 (-51))%R) /\
    (forall x, In x bred -> may (breed io fexp mdl ms p b) x) /\
    holds io (top e p ++ bred) p'.
