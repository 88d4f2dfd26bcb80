(** * Properties_Where: where mutations act (C124). *)
From Coq Require Import List Bool Arith Reals.
From Verif Require Import Rnd Prob MMutation Spec SpecBack SpecJ SpecWhere PWhere.
Import ListNotations.

(** C124: the probability that a mutation changes what stands at position i of distinct
    genes ... *)
Theorem C124_change :
  forall (G : Type) (eqb : G -> G -> bool), eq_ok eqb ->
  forall (s : mutation_strategy) (l : list G) (i : nat), NoDup l -> 2 <= length l -> i < length l ->
  prob (mutate s l) (fun r => negb (same_at eqb i r l)) = change s (length l) i.
Proof. exact @c124_change. Qed.
Print Assumptions C124_change.
(** ... and the mean number of positions it changes: the sum over all positions. *)
Theorem C124_mean : forall (s : mutation_strategy) (n : nat), 2 <= n -> Rsum n (change s n) = changes s n.
Proof. exact c124_mean. Qed.
Print Assumptions C124_mean.
(** Insertion and scramble change inner positions more often than outer ones. *)
Theorem C124_middle :
  forall (s : mutation_strategy) (n i j : nat), s = Insertion \/ s = Scramble -> 2 <= n -> i <= j -> i + j < n ->
  (change s n i <= change s n j)%R /\ change s n (n - 1 - i) = change s n i.
Proof. exact c124_middle. Qed.
Print Assumptions C124_middle.
(** After a shuffle every position holds every gene equally often, repeated genes
    included. *)
Theorem C124_shuffle :
  forall (G : Type) (h : G -> bool) (l : list G) (j : nat), j < length l ->
  prob (shuffle l) (kind_at h j) = (INR (length (filter h l)) / INR (length l))%R.
Proof. exact c124_shuffle. Qed.
Print Assumptions C124_shuffle.
Example C124_example :
  change Insertion 4 0 = (1 / 2)%R /\ change Insertion 4 1 = (5 / 6)%R /\ change Inversion 3 1 = (1 / 2)%R /\ change Inversion 3 0 = (3 / 4)%R /\
  change Scramble 3 0 = (11 / 24)%R /\ change Scramble 3 1 = (7 / 12)%R /\ changes Insertion 10 = (14 / 3)%R.
Proof. exact c124_example. Qed.
Example C124_case : NoDup [7; 8; 9] /\ prob (mutate Inversion [7; 8; 9]) (fun r => negb (same_at Nat.eqb 1 r [7; 8; 9])) = (1 / 2)%R.
Proof. exact c124_case. Qed.
