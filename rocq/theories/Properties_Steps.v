(** * Properties_Steps: steps of tours under mutation and common neighbours (C116, C117). *)
From Coq Require Import List Bool Arith NArith Permutation.
From Verif Require Import Rnd MOperators MMutation Spec SpecC SpecD SpecM PSteps PCommon.
Import ListNotations.

(** C116: how many steps of a tour one mutation breaks at most ... *)
Theorem C116_steps_kept :
  forall (G : Type) (s : mutation_strategy) (g : list G),
  must (mutate s g) (keeps_but (steps_broken s (length g)) g).
Proof. exact @c116_kept. Qed.
Print Assumptions C116_steps_kept.
(** ... and no smaller number is right. *)
Theorem C116_steps_attained :
  forall s : mutation_strategy,
  exists g g' : list nat, NoDup g /\ may (mutate s g) g' /\ ~ keeps_but (steps_broken s (length g) - 1) g g'.
Proof. exact c116_attained. Qed.
Print Assumptions C116_steps_attained.
Example C116_example :
  run (mutate Inversion [1; 2; 3; 4; 5; 6]) [2; 1]%N = Some [1; 5; 4; 3; 2; 6] /\
  steps_broken Inversion 6 = 2 /\ cyc_adj [1; 5; 4; 3; 2; 6] 6 1 /\ cyc_adj [1; 5; 4; 3; 2; 6] 2 3.
Proof. exact c116_example. Qed.

(** C117: the number of common neighbours of two tours counts the steps that the
    tours share ... *)
Theorem C117_counts_steps :
  forall (G : Type) (eqb ltb : G -> G -> bool), eq_ok eqb -> lt_total ltb -> (forall a, ltb a a = false) ->
  forall (m : nat) (g g' : list G), 3 <= length g -> length g = length g' ->
  must (common_neighbors eqb ltb g g') (fun r => keeps_but m g g' <-> length g <= length r + m).
Proof. exact @c117_steps. Qed.
Print Assumptions C117_counts_steps.
(** ... each pair is listed once ... *)
Theorem C117_listed_once :
  forall (G : Type) (eqb ltb : G -> G -> bool),
  forall g g' : list G, NoDup g -> Permutation g g' -> 3 <= length g ->
  must (common_neighbors eqb ltb g g') (fun r => NoDup r /\ length r <= length g).
Proof. exact @c117_once. Qed.
Print Assumptions C117_listed_once.
(** ... the order of the arguments does not matter ... *)
Theorem C117_symmetric :
  forall (G : Type) (eqb ltb : G -> G -> bool), eq_ok eqb -> lt_total ltb -> (forall a, ltb a a = false) ->
  forall g g' : list G, NoDup g -> Permutation g g' -> 3 <= length g ->
  must (common_neighbors eqb ltb g g') (fun r => must (common_neighbors eqb ltb g' g) (fun r' => Permutation r r')).
Proof. exact @c117_symmetric. Qed.
Print Assumptions C117_symmetric.
(** ... all steps are shared exactly by the same tour read from any position in
    either direction ... *)
Theorem C117_same_tour :
  forall (G : Type) (eqb ltb : G -> G -> bool), eq_ok eqb -> lt_total ltb -> (forall a, ltb a a = false) ->
  forall g g' : list G, NoDup g -> Permutation g g' -> 3 <= length g ->
  must (common_neighbors eqb ltb g g') (fun r => length r = length g <-> turned g g' \/ turned (rev g) g').
Proof. exact @c117_same_tour. Qed.
Print Assumptions C117_same_tour.
(** ... two tours never differ in a single step ... *)
Theorem C117_no_single :
  forall (G : Type) (eqb ltb : G -> G -> bool), eq_ok eqb -> lt_total ltb -> (forall a, ltb a a = false) ->
  forall g g' : list G, NoDup g -> Permutation g g' -> 3 <= length g ->
  must (common_neighbors eqb ltb g g') (fun r => length r <> length g - 1).
Proof. exact @c117_no_single. Qed.
Print Assumptions C117_no_single.
(** ... the number of steps not shared obeys the triangle inequality ... *)
Theorem C117_triangle :
  forall (G : Type) (eqb ltb : G -> G -> bool), eq_ok eqb ->
  forall g1 g2 g3 : list G, NoDup g1 -> Permutation g1 g2 -> Permutation g2 g3 -> 3 <= length g1 ->
  must (common_neighbors eqb ltb g1 g2) (fun r12 => must (common_neighbors eqb ltb g2 g3) (fun r23 =>
    must (common_neighbors eqb ltb g1 g3) (fun r13 => length r12 + length r23 <= length g1 + length r13))).
Proof. exact @c117_triangle. Qed.
Print Assumptions C117_triangle.
(** ... and grows by at most [steps_broken] with each mutation. *)
Theorem C117_mutations :
  forall (G : Type) (eqb ltb : G -> G -> bool), eq_ok eqb -> lt_total ltb -> (forall a, ltb a a = false) ->
  forall (s : mutation_strategy) (k : nat) (g g' : list G), s <> Duplicate -> NoDup g -> 3 <= length g ->
  mutated s k g g' ->
  must (common_neighbors eqb ltb g g') (fun r => length g <= length r + k * steps_broken s (length g)).
Proof. exact @c117_mutations. Qed.
Print Assumptions C117_mutations.
Example C117_example :
  NoDup [1; 2; 3; 4; 5] /\ Permutation [1; 2; 3; 4; 5] [4; 3; 2; 1; 5] /\ Permutation [4; 3; 2; 1; 5] [1; 3; 5; 2; 4] /\
  turned (rev [1; 2; 3; 4; 5]) [4; 3; 2; 1; 5] /\
  common_neighbors Nat.eqb Nat.ltb [1; 2; 3; 4; 5] [4; 3; 2; 1; 5] = Ret [(1, 2); (2, 3); (3, 4); (4, 5); (1, 5)] /\
  common_neighbors Nat.eqb Nat.ltb [1; 2; 3; 4; 5] [1; 3; 5; 2; 4] = Ret [] /\
  common_neighbors Nat.eqb Nat.ltb [1; 2; 3; 4; 5] [1; 4; 3; 2; 5] = Ret [(2, 3); (3, 4); (1, 5)] /\
  mutated Inversion 1 [1; 2; 3; 4; 5] [1; 4; 3; 2; 5].
Proof. exact c117_example. Qed.
