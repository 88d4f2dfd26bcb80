(** * SpecPairs: the parents breeding picks (C132). *)
From Coq Require Import List Bool Arith NArith Reals.
From Verif Require Import Rnd Prob F64 MPopulation MSelection.
Import ListNotations.

Section Pairs.
Context {I : Type} (io : individual_ops I) (fexp : f64 -> f64) (s : selector I) (p : population I).

(** A first parent, then a second one that differs from it, if three tries find one. *)
Definition parents : M ((nat * I) * option (nat * I)) :=
  first <- select io fexp s p ;;
  second <- select_distinct io fexp s p 3 (snd first) ;;
  Ret (first, second).
(** The parents are the individuals number i and j, in this order. *)
Definition are (i j : nat) (z : (nat * I) * option (nat * I)) : bool :=
  (fst (fst z) =? i) && match snd z with Some r => fst r =? j | None => false end.
Definition alone (z : (nat * I) * option (nat * I)) : bool := match snd z with Some _ => false | None => true end.
(** How often a selection returns individual number i. *)
Definition share (i : nat) : R := prob (select io fexp s p) (fun r => fst r =? i).
(** No two individuals are equal. *)
Definition all_different : Prop :=
  forall i j x y, nth_error (individuals p) i = Some x -> nth_error (individuals p) j = Some y -> ieq io x y = (i =? j).
End Pairs.
