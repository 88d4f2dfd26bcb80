(** * Properties_Mutation: theorems about src/operators/mutation.rs (C24-C29, C77). *)
From Coq Require Import List Bool Arith NArith Reals Permutation Lia Lra Factorial.
From Verif Require Import Rnd Prob MMutation Spec PMutation PMutationProb PShuffle.
Import ListNotations.

(** C24: the permutation mutations keep the multiset of genes, for every genome. *)
Theorem C24_mutation_permutation :
  forall (G : Type) (l : list G) (s : mutation_strategy), s <> Duplicate ->
  must (mutate s l) (fun r => Permutation l r /\ length r = length l).
Proof. exact @mutate_perm_length. Qed.
Print Assumptions C24_mutation_permutation.
Example C24_example : Scramble <> Duplicate /\
  run (mutate Scramble [5; 5; 7; 9]) [2; 0; 1; 0; 0]%N = Some [9; 7; 5; 5].
Proof. split; [discriminate|vm_compute; reflexivity]. Qed.

(** C25: the exact effect of each permutation mutation, and every such effect
    is possible. *)
Theorem C25_swap_effect :
  forall (G : Type) (l : list G), 2 <= length l ->
  must (swap_mutation l) (fun r =>
    exists i j, i < length l /\ j < length l /\ i <> j /\ rearranged (swap_src i j) l r).
Proof. exact @swap_effect. Qed.
Print Assumptions C25_swap_effect.
Theorem C25_swap_reaches_all :
  forall (G : Type) (l r : list G) (i j : nat),
  i < length l -> j < length l -> i <> j -> rearranged (swap_src i j) l r -> may (swap_mutation l) r.
Proof. exact @swap_mutation_reach. Qed.
Print Assumptions C25_swap_reaches_all.
Theorem C25_inversion_effect :
  forall (G : Type) (l : list G), 2 <= length l ->
  must (inversion_mutation l) (fun r =>
    exists a b, a + 2 <= b /\ b <= length l /\ rearranged (reverse_src a b) l r).
Proof. exact @inversion_effect. Qed.
Print Assumptions C25_inversion_effect.
Theorem C25_inversion_reaches_all :
  forall (G : Type) (l r : list G) (a b : nat),
  a + 2 <= b -> b <= length l -> rearranged (reverse_src a b) l r -> may (inversion_mutation l) r.
Proof. exact @inversion_mutation_reach. Qed.
Print Assumptions C25_inversion_reaches_all.
Theorem C25_scramble_effect :
  forall (G : Type) (l : list G), 2 <= length l ->
  must (scramble_mutation l) (fun r =>
    exists a b, a + 2 <= b /\ b <= length l /\ scrambled a b l r).
Proof. exact @scramble_effect. Qed.
Print Assumptions C25_scramble_effect.
Theorem C25_scramble_reaches_all :
  forall (G : Type) (l r : list G) (a b : nat),
  a + 2 <= b -> b <= length l -> scrambled a b l r -> may (scramble_mutation l) r.
Proof. exact @scramble_mutation_reach. Qed.
Print Assumptions C25_scramble_reaches_all.
Theorem C25_insertion_effect :
  forall (G : Type) (l : list G), 2 <= length l ->
  must (insertion_mutation l) (fun r =>
    exists i j, i < j /\ j < length l /\ rearranged (move_src j i) l r).
Proof. exact @insertion_effect. Qed.
Print Assumptions C25_insertion_effect.
Theorem C25_insertion_reaches_all_backward :
  forall (G : Type) (l r : list G) (i j : nat),
  i < j -> j < length l -> rearranged (move_src j i) l r -> may (insertion_mutation l) r.
Proof. exact @insertion_mutation_reach. Qed.
Print Assumptions C25_insertion_reaches_all_backward.
Example C25_example :
  2 <= length [1; 2; 3; 4; 5] /\
  run (swap_mutation [1; 2; 3; 4; 5]) [1; 2]%N = Some [1; 4; 3; 2; 5] /\
  run (inversion_mutation [1; 2; 3; 4; 5]) [1; 1]%N = Some [1; 4; 3; 2; 5] /\
  run (insertion_mutation [1; 2; 3; 4; 5]) [3; 1]%N = Some [1; 4; 2; 3; 5] /\
  run (scramble_mutation [1; 2; 3; 4; 5]) [1; 1; 0; 0]%N = Some [1; 3; 4; 2; 5].
Proof. repeat split; repeat constructor. Qed.

(** C26: duplicate mutation copies one gene over another position. *)
Theorem C26_duplicate_effect :
  forall (G : Type) (l : list G), 2 <= length l ->
  must (duplicate_mutation l) (fun r =>
    exists s t, s < length l /\ t < length l /\ s <> t /\ rearranged (copy_src s t) l r).
Proof. exact @duplicate_mutation_spec. Qed.
Print Assumptions C26_duplicate_effect.
Theorem C26_duplicate_reaches_all :
  forall (G : Type) (l r : list G) (s t : nat),
  s < length l -> t < length l -> s <> t -> rearranged (copy_src s t) l r -> may (duplicate_mutation l) r.
Proof. exact @duplicate_mutation_reach. Qed.
Print Assumptions C26_duplicate_reaches_all.
Example C26_example : 2 <= length [1; 2; 3] /\ run (duplicate_mutation [1; 2; 3]) [0; 1]%N = Some [1; 2; 1].
Proof. repeat split; repeat constructor. Qed.

(** C27: fewer than two genes: nothing happens, nothing is drawn. *)
Theorem C27_short_genome_unchanged :
  forall (G : Type) (s : mutation_strategy) (l : list G), length l < 2 -> mutate s l = Ret l.
Proof. exact @mutate_short. Qed.
Print Assumptions C27_short_genome_unchanged.
Example C27_example : length [7] < 2 /\ mutate Duplicate [7] = Ret [7].
Proof. repeat split; repeat constructor. Qed.

(** C28: some moves of a gene to another position never happen ... *)
Theorem C28_insertion_any_move_refuted :
  exists (l r : list nat) (s t : nat),
  NoDup l /\ s < length l /\ t < length l /\ s <> t /\
  rearranged (move_src s t) l r /\ ~ may (insertion_mutation l) r.
Proof. exact insertion_first_to_last. Qed.
Print Assumptions C28_insertion_any_move_refuted.

(** C28: ... in general no move forward by two or more positions does. *)
Theorem C28_insertion_never_forward :
  forall (G : Type) (l r : list G) (s t : nat),
  NoDup l -> s + 2 <= t -> t < length l -> rearranged (move_src s t) l r -> ~ may (insertion_mutation l) r.
Proof. exact @insertion_no_forward. Qed.
Print Assumptions C28_insertion_never_forward.
Example C28_example : 1 + 2 <= 4 /\ 4 < length [1; 2; 3; 4; 5] /\
  forall k, k < 5 -> nth_error [1; 3; 4; 5; 2] k = nth_error [1; 2; 3; 4; 5] (move_src 1 4 k).
Proof.
  repeat split; repeat constructor.
  intros k; do 5 (destruct k as [|k]; [reflexivity|]); intros H; exfalso.
  lia.
Qed.

(** C29: on distinct genes every transposition has probability 2/(n(n-1)). *)
Theorem C29_swap_uniform :
  forall (G : Type) (l : list G) (i j : nat) (P : list G -> bool),
  NoDup l -> i < length l -> j < length l -> i <> j ->
  (forall r, P r = true <-> rearranged (swap_src i j) l r) ->
  prob (swap_mutation l) P = (2 / (INR (length l) * (INR (length l) - 1)))%R.
Proof. exact @swap_mutation_law. Qed.
Print Assumptions C29_swap_uniform.

(** C29: the laws of insertion, duplicate and inversion mutation. *)
Theorem C29_insertion_law :
  forall (G : Type) (l : list G) (i j : nat) (P : list G -> bool),
  NoDup l -> i < j -> j < length l ->
  (forall r, P r = true <-> rearranged (move_src j i) l r) ->
  prob (insertion_mutation l) P = (2 / (INR (length l) * (INR (length l) - 1)))%R.
Proof. exact @insertion_mutation_law. Qed.
Print Assumptions C29_insertion_law.
Theorem C29_duplicate_law :
  forall (G : Type) (l : list G) (s t : nat) (P : list G -> bool),
  NoDup l -> s < length l -> t < length l -> s <> t ->
  (forall r, P r = true <-> rearranged (copy_src s t) l r) ->
  prob (duplicate_mutation l) P = (1 / (INR (length l) * (INR (length l) - 1)))%R.
Proof. exact @duplicate_mutation_law. Qed.
Print Assumptions C29_duplicate_law.
Theorem C29_inversion_law :
  forall (G : Type) (l : list G) (a b : nat) (P : list G -> bool),
  NoDup l -> a + 2 <= b -> b <= length l ->
  (forall r, P r = true <-> rearranged (reverse_src a b) l r) ->
  prob (inversion_mutation l) P = (1 / (INR (length l - 1) * INR (length l - (b - a) + 1)))%R.
Proof. exact @inversion_mutation_law. Qed.
Print Assumptions C29_inversion_law.

(** The hypotheses of C29 can be met. *)
Example C29_example :
  NoDup [1; 2] /\ 0 < length [1; 2] /\ 1 < length [1; 2] /\ 0 <> 1 /\
  forall r, (if list_eq_dec Nat.eq_dec r [2; 1] then true else false) = true
            <-> rearranged (swap_src 0 1) [1; 2] r.
Proof.
  assert (Hs : rearranged (swap_src 0 1) [1; 2] [2; 1]) by (intros [|[|k]]; reflexivity).
  repeat split; auto; try (repeat constructor; cbn; intuition discriminate).
  - destruct (list_eq_dec Nat.eq_dec r [2; 1]) as [->|]; [auto|discriminate].
  - intros Hr; destruct (list_eq_dec Nat.eq_dec r [2; 1]) as [|Hne]; auto.
    exfalso; apply Hne; eapply rearranged_fun; eauto.
Qed.

(** C77: on distinct genes scramble mutation draws the length of its run
    uniformly from 2..n, then its start uniformly, then one of the orders of the
    run's genes uniformly: the probability of a result is the sum over the runs
    outside which it agrees with the genome. *)
Theorem C77_scramble_law :
  forall (G : Type) (l r : list G) (P : list G -> bool) (inside : nat -> nat -> bool),
  NoDup l -> 2 <= length l ->
  (forall x, P x = true <-> x = r) -> (forall a b, inside a b = true <-> scrambled a b l r) ->
  prob (scramble_mutation l) P =
    Rsum (length l - 1) (fun k => Rsum (length l - (k + 2) + 1) (fun a =>
      if inside a (a + (k + 2)) then (/ (INR (length l - 1) * INR (length l - (k + 2) + 1) * INR (fact (k + 2))))%R else 0%R)).
Proof. exact @scramble_law. Qed.
Print Assumptions C77_scramble_law.
(** In particular a scramble leaves the genome unchanged with probability
    (1/2! + ... + 1/n!) / (n - 1). *)
Theorem C77_scramble_unchanged :
  forall (G : Type) (l : list G) (P : list G -> bool),
  NoDup l -> 2 <= length l -> (forall x, P x = true <-> x = l) ->
  prob (scramble_mutation l) P = (Rsum (length l - 1) (fun k => / INR (fact (k + 2))) / INR (length l - 1))%R.
Proof. exact @scramble_identity_law. Qed.
Print Assumptions C77_scramble_unchanged.
(** Every order of distinct genes is as likely an outcome of a shuffle as any
    other. *)
Theorem C77_shuffle_uniform :
  forall (G : Type) (l r : list G) (P : list G -> bool),
  NoDup l -> Permutation l r -> (forall x, P x = true <-> x = r) ->
  prob (shuffle l) P = (/ INR (fact (length l)))%R.
Proof. exact @shuffle_law. Qed.
Print Assumptions C77_shuffle_uniform.
Example C77_example :
  NoDup [1; 2; 3] /\ Permutation [1; 2; 3] [3; 1; 2] /\
  (forall r x, (if list_eq_dec Nat.eq_dec x r then true else false) = true <-> x = r) /\
  run (shuffle [1; 2; 3]) [0; 0]%N = Some [2; 3; 1] /\ run (shuffle [1; 2; 3]) [1; 0]%N = Some [3; 1; 2] /\
  prob (scramble_mutation [1; 2; 3]) (fun x => if list_eq_dec Nat.eq_dec x [1; 2; 3] then true else false) = (1 / 3)%R.
Proof.
  assert (Hd : forall r x, (if list_eq_dec Nat.eq_dec x r then true else false) = true <-> x = r).
  { intros r x; destruct (list_eq_dec Nat.eq_dec x r); split; auto; congruence. }
  assert (Hn : NoDup [1; 2; 3]) by (repeat constructor; cbn; intuition discriminate).
  split; [exact Hn|split; [|split; [exact Hd|split; [vm_compute; reflexivity|split; [vm_compute; reflexivity|]]]]].
  - change [3; 1; 2] with ([3] ++ [1; 2]); rewrite <- Permutation_app_comm; reflexivity.
  - rewrite (scramble_identity_law [1; 2; 3]); [cbn; lra|exact Hn|cbn; lia|exact (Hd _)].
Qed.
