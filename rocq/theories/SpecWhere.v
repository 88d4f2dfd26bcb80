(** * SpecWhere: the vocabulary of the statements about where mutations act (C124). *)
From Coq Require Import List Bool Arith Reals.
From Verif Require Import Prob MMutation SpecBack.
Import ListNotations.

(** Among the runs of [len] positions out of [n], the number of those that contain
    position [i], but not as the one in the middle *)
Definition turns (n len i : nat) : nat :=
  length (filter (fun a => (a <=? i) && (i <? a + len) && negb (2 * i + 1 =? 2 * a + len)) (seq 0 (n - len + 1))).

(** The probability that a mutation changes the gene at position [i] of [n] distinct
    genes *)
Definition change (s : mutation_strategy) (n i : nat) : R :=
  match s with
  | Swap => 2 / INR n
  | Duplicate => 1 / INR n
  | Insertion => 2 * INR ((i + 1) * (n - i) - 1) / (INR n * INR (n - 1))
  | Inversion => Rsum (n - 1) (fun k => INR (turns n (k + 2) i) / INR (n - 1 - k)) / INR (n - 1)
  | Scramble => Rsum (n - 1) (fun k => INR (starts n (k + 2) i) / INR (n - 1 - k) * (1 - / INR (k + 2))) / INR (n - 1)
  end%R.

(** The mean number of positions it changes *)
Definition changes (s : mutation_strategy) (n : nat) : R :=
  match s with
  | Swap => 2
  | Duplicate => 1
  | Insertion => (INR n + 4) / 3
  | Inversion => Rsum (n - 1) (fun k => INR (2 * ((k + 2) / 2))) / INR (n - 1)
  | Scramble => INR n / 2
  end%R.
