(** * SpecK: the vocabulary of the statements about what runs keep (C75-). *)
From Coq Require Import List.
From Verif Require Import Rnd MModel.
Import ListNotations.

(** The methods of the model turn [raw] individuals into [raw] ones, evaluation
    makes them [good], and [good] ones are [raw]. *)
Definition keeps {I MS} (mdl : model I MS) (raw good : I -> Prop) : Prop :=
  (forall x, good x -> raw x) /\
  (forall ms a b x, good a -> good b -> may (m_crossover mdl ms a b) x -> raw x) /\
  (forall ms a x, raw a -> may (m_mutate mdl ms a) x -> raw x) /\
  (forall ms a x, raw a -> may (m_improve mdl ms a) x -> raw x) /\
  (forall ms a x, raw a -> may (m_evaluate mdl ms a) x -> good x).
