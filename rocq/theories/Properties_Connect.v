(** * Properties_Connect: what repeated mutation can reach (C108). *)
From Coq Require Import List Bool Arith NArith Permutation.
From Verif Require Import Rnd MMutation Spec SpecM PConnect.
Import ListNotations.

(** C108: with each permutation mutation every rearrangement of the genome can be
    reached, by fewer mutations than the genome has genes, and nothing else can;
    scrambling needs one mutation only. *)
Theorem C108_permutations :
  forall (G : Type) (s : mutation_strategy) (g g' : list G), s <> Duplicate -> Permutation g g' ->
  exists k, k <= length g - 1 /\ mutated s k g g'.
Proof. exact @permutations_connected. Qed.
Print Assumptions C108_permutations.
Theorem C108_only_permutations :
  forall (G : Type) (s : mutation_strategy) (k : nat) (g g' : list G), s <> Duplicate -> mutated s k g g' -> Permutation g g'.
Proof. exact @mutated_permutation. Qed.
Print Assumptions C108_only_permutations.
Theorem C108_scramble_once :
  forall (G : Type) (g g' : list G), Permutation g g' -> 2 <= length g -> may (mutate Scramble g) g'.
Proof. exact @scramble_once. Qed.
Print Assumptions C108_scramble_once.

(** With duplicate mutation every genome of the same length that is made of genes of
    the first one and has a gene twice can be reached, and besides the first
    genome nothing else can. *)
Theorem C108_duplicate :
  forall (G : Type) (g g' : list G), g' = g \/ (length g' = length g /\ incl g' g /\ has_repeat g') ->
  exists k, k <= 2 * length g /\ mutated Duplicate k g g'.
Proof. exact @duplicate_reaches. Qed.
Print Assumptions C108_duplicate.
Theorem C108_only_duplicate :
  forall (G : Type) (k : nat) (g g' : list G), mutated Duplicate k g g' ->
  g' = g \/ (length g' = length g /\ incl g' g /\ has_repeat g').
Proof. exact @duplicate_only. Qed.
Print Assumptions C108_only_duplicate.
Example C108_example :
  mutated Insertion 2 [1; 2; 3; 4] [4; 3; 1; 2] /\ Permutation [1; 2; 3; 4] [4; 3; 1; 2] /\
  length [2; 3; 3] = length [1; 2; 3] /\ incl [2; 3; 3] [1; 2; 3] /\ has_repeat [2; 3; 3].
Proof. exact c108_example. Qed.
