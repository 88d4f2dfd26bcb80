(** * SpecCompare: the vocabulary of the statements that compare selection strategies (C123). *)
From Coq Require Import Reals.
From Verif Require Import Rnd Prob F64 MStats MPopulation.

(** The second selection presses at least as hard as the first: for every fitness
    value [t] its individual reaches [t] at least as often, up to [slack]. *)
Definition presses_harder {I} (io : individual_ops I) (first second : M (nat * I)) (slack : R) : Prop :=
  forall t : f64,
  (prob first (fun r => fge (fitness io (snd r)) t) - slack <= prob second (fun r => fge (fitness io (snd r)) t))%R.
