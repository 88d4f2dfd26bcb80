(** * SpecBack: the vocabulary of the statements about where offspring take their genes from (C121, C122). *)
From Coq Require Import List Bool Arith Reals.
From Verif Require Import Prob.
Import ListNotations.

(** At every position one child has the gene of one parent and the other child that
    of the other. *)
Definition complementary {G} (p1 p2 c1 c2 : list G) : Prop :=
  length c1 = length p1 /\ length c2 = length p1 /\
  forall i, i < length p1 ->
    (nth_error c1 i = nth_error p1 i /\ nth_error c2 i = nth_error p2 i) \/
    (nth_error c1 i = nth_error p2 i /\ nth_error c2 i = nth_error p1 i).

(** Positions [i] of both lists hold the same gene. *)
Definition same_at {G} (eqb : G -> G -> bool) (i : nat) (l r : list G) : bool :=
  match nth_error l i, nth_error r i with Some x, Some y => eqb x y | _, _ => false end.

(** Among the ranges of [len] positions out of [n], the number of those that
    contain position [i] *)
Definition starts (n len i : nat) : nat := length (filter (fun a => (a <=? i) && (i <? a + len)) (seq 0 (n - len + 1))).
(** The share of position [i] if first the length is taken uniformly among 1 .. n
    and then the start *)
Definition coverage (n i : nat) : R := (Rsum n (fun k => INR (starts n (k + 1) i) / INR (n - k)) / INR n)%R.
