(** * Prob: exact probabilities of the outcomes of a random execution. *)
From Coq Require Import List NArith Reals.
From Verif Require Import Rnd.
Import ListNotations.

(** Probability that [m] returns a value satisfying [P].  A [Draw] is the
    average over its alternatives; a [Pick] is resolved against the event. *)
Definition Rsum (n : nat) (f : nat -> R) : R :=
  fold_right Rplus 0%R (map f (seq 0 n)).

Fixpoint prob {A} (m : M A) (P : A -> bool) : R :=
  match m with
  | Ret a => if P a then 1%R else 0%R
  | Fail _ => 0%R
  | Draw n k => (Rsum (N.to_nat n) (fun i => prob (k (N.of_nat i)) P) / INR (N.to_nat n))%R
  | Pick n k => fold_right Rmin 1%R (map (fun i => prob (k (N.of_nat i)) P) (seq 0 (N.to_nat n)))
  end.

