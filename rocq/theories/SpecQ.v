(** * SpecQ: the vocabulary of the statements about selection pressure (C106). *)
From Coq Require Import List Bool Arith Reals.
From Verif Require Import Rnd Prob F64 MStats MPopulation MSelection.
Import ListNotations.

(** Selection favours the fitter: for every fitness value [t] a selected individual
    reaches [t] at least as often as an individual taken uniformly from the
    population does, up to [slack]. *)
Definition favours_fitter {I} (io : individual_ops I) (selected : M (nat * I)) (p : population I) (slack : R) : Prop :=
  forall t : f64,
  (INR (length (filter (fun x => fge (fitness io x) t) (individuals p))) / INR (length (individuals p)) - slack
   <= prob selected (fun r => fge (fitness io (snd r)) t))%R.
