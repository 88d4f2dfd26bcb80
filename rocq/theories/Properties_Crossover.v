(** * Properties_Crossover: theorems about src/operators/crossover.rs (C09-C23). *)
From Coq Require Import List Bool Arith NArith Permutation.
From Verif Require Import Rnd MOperators MCrossover Spec PCrossoverGpx PCrossoverScx PCrossoverErx PErxExact PTours
  PCrossoverPmx PCrossoverOx PCrossoverCx PCrossoverAll DocExamples.
Import ListNotations.

(** The parents of the documentation examples are permutation parents. *)
Example doc_parents_ok : eq_ok Nat.eqb /\ perm_parents parent1 parent2 /\ 2 <= length parent1.
Proof. exact doc_parents_perm. Qed.

(** ** GPX2 *)

(** C09: with a selector that always answers a valid index, GPX2 terminates
    without panic and returns a permutation of parent1. *)
Theorem C09_gpx2_permutation :
  forall (G : Type) (eqb ltb : G -> G -> bool), eq_ok eqb ->
  forall (S0 : Type) (sel : S0 -> option G -> list (list G) -> M (nat * S0)),
  (forall s o ps, ps <> [] -> must (sel s o ps) (fun r => fst r < length ps)) ->
  forall (p1 p2 : list G) (s : S0), NoDup p1 ->
  must (generalized_partition_2_crossover eqb ltb p1 p2 sel s) (fun r => Permutation p1 r).
Proof. exact @gpx2_perm. Qed.
Print Assumptions C09_gpx2_permutation.

(** C09: the offspring is the concatenation of the common partitions in some
    order (for arbitrary genomes). *)
Theorem C09_gpx2_concatenates_partitions :
  forall (G : Type) (eqb ltb : G -> G -> bool), eq_ok eqb ->
  forall (S0 : Type) (sel : S0 -> option G -> list (list G) -> M (nat * S0)),
  (forall s o ps, ps <> [] -> must (sel s o ps) (fun r => fst r < length ps)) ->
  forall (p1 p2 : list G) (s : S0),
  must (generalized_partition_2_crossover eqb ltb p1 p2 sel s) (fun r =>
    NoDup r /\ (forall x, In x r <-> In x p1) /\
    exists ps qs, common_partitions eqb ltb p1 p2 = Ret ps /\ Permutation ps qs /\ r = concat qs).
Proof. exact @gpx2_genes. Qed.
Print Assumptions C09_gpx2_concatenates_partitions.

(** C09: the order is the one the selector answers: at each step it is shown the
    last gene placed (None at the start) and the remaining partitions, and the
    one it answers is appended. *)
Theorem C09_gpx2_follows_selector :
  forall (G : Type) (eqb ltb : G -> G -> bool), eq_ok eqb ->
  forall (S0 : Type) (sel : S0 -> option G -> list (list G) -> M (nat * S0)),
  (forall s o ps, ps <> [] -> must (sel s o ps) (fun r => fst r < length ps)) ->
  forall (p1 p2 : list G) (s : S0),
  must (generalized_partition_2_crossover eqb ltb p1 p2 sel s) (fun r =>
    exists ps, common_partitions eqb ltb p1 p2 = Ret ps /\ assembled sel s [] ps r).
Proof. exact @gpx2_spec. Qed.
Print Assumptions C09_gpx2_follows_selector.

(** C09: a selector that answers an index out of range makes GPX2 panic. *)
Theorem C09_gpx2_bad_selector_panics :
  forall (G S0 : Type) (eqb ltb : G -> G -> bool) (p1 p2 : list G)
    (sel : S0 -> option G -> list (list G) -> M (nat * S0)) (s : S0),
  eq_ok eqb -> p1 <> [] ->
  (forall s o ps, must (sel s o ps) (fun r => length ps <= fst r)) ->
  must_fail (generalized_partition_2_crossover eqb ltb p1 p2 sel s) Panic.
Proof. exact @gpx2_bad_selector. Qed.
Print Assumptions C09_gpx2_bad_selector_panics.
Example C09_example :
  (forall (s : unit) (o : option nat) (ps : list (list nat)), ps <> [] ->
     must (i <- gen_range 0 (length ps) ;; Ret (i, tt)) (fun r => fst r < length ps)) /\
  run (generalized_partition_2_crossover Nat.eqb Nat.ltb parent1 parent2
    (fun (_ : unit) _ ps => i <- gen_range 0 (length ps) ;; Ret (i, tt)) tt) [2; 1; 0]%N
  = Some [4; 5; 6; 1; 2; 3; 0; 9; 8; 7].
Proof. split; [exact gpx2_selector_ok|vm_compute; reflexivity]. Qed.

(** C10: the documented panic for parents of different lengths does not happen
    with GPX2: every execution returns a permutation of parent1. *)
Theorem C10_gpx2_length_check_refuted :
  exists p1 p2 : list nat, length p1 <> length p2 /\
  forall fuel, must (crossover Nat.eqb Nat.ltb fuel GeneralizedPartition2 p1 p2) (fun r => Permutation p1 r).
Proof. exact gpx2_mismatch_witness. Qed.
Print Assumptions C10_gpx2_length_check_refuted.

(** ** SCX *)

(** C11: SCX returns a permutation that starts at the pivot. *)
Theorem C11_scx_permutation :
  forall (G : Type) (eqb : G -> G -> bool) (p1 p2 : list G) (pivot : G),
  eq_ok eqb -> perm_parents p1 p2 -> In pivot p1 ->
  must (sequential_constructive_crossover eqb p1 p2 pivot)
    (fun r => Permutation p1 r /\ hd_error r = Some pivot).
Proof. exact @scx_perm. Qed.
Print Assumptions C11_scx_permutation.

(** C11: a pivot that is no gene of parent1 makes it panic. *)
Theorem C11_scx_bad_pivot_panics :
  forall (G : Type) (eqb : G -> G -> bool) (p1 p2 : list G) (pivot : G),
  eq_ok eqb -> length p1 = length p2 -> 2 <= length p1 -> ~ In pivot p1 ->
  must_fail (sequential_constructive_crossover eqb p1 p2 pivot) Panic.
Proof. exact @scx_bad_pivot. Qed.
Print Assumptions C11_scx_bad_pivot_panics.

(** C12: every gene after the first obeys [scx_rule] (Spec.v). *)
Theorem C12_scx_rule :
  forall (G : Type) (eqb : G -> G -> bool) (p1 p2 : list G) (pivot : G),
  eq_ok eqb -> perm_parents p1 p2 -> In pivot p1 ->
  must (sequential_constructive_crossover eqb p1 p2 pivot) (fun r =>
    forall i c x, nth_error r i = Some c -> nth_error r (S i) = Some x ->
      scx_rule p1 p2 (firstn (S i) r) c x).
Proof. exact @scx_rule_all. Qed.
Print Assumptions C12_scx_rule.
(** C12: and nothing else obeys it. *)
Theorem C12_scx_exact :
  forall (G : Type) (eqb : G -> G -> bool), eq_ok eqb ->
  forall (p1 p2 : list G) (pivot : G) (r : list G), perm_parents p1 p2 -> In pivot p1 ->
  (may (sequential_constructive_crossover eqb p1 p2 pivot) r <->
   length r = length p1 /\ hd_error r = Some pivot /\
   forall i c x, nth_error r i = Some c -> nth_error r (S i) = Some x -> scx_rule p1 p2 (firstn (S i) r) c x).
Proof. exact @scx_exact. Qed.
Print Assumptions C12_scx_exact.
Example C11_C12_example :
  perm_parents parent1 parent2 /\ In 2 parent1 /\
  sequential_constructive_crossover Nat.eqb parent1 parent2 2 = Ret [2; 1; 8; 9; 0; 7; 4; 5; 6; 3].
Proof. split; [exact (proj1 (proj2 doc_parents_perm))|split; [cbn; auto|exact doc_scx]]. Qed.

(** ** ERX *)

(** C13: ERX returns a permutation that starts at the pivot, for every iteration
    order of its hash sets. *)
Theorem C13_erx_permutation :
  forall (G : Type) (eqb : G -> G -> bool) (p1 p2 : list G) (pivot : G),
  eq_ok eqb -> perm_parents p1 p2 -> In pivot p1 ->
  must (edge_recombination_crossover eqb p1 p2 pivot)
    (fun r => Permutation p1 r /\ hd_error r = Some pivot).
Proof. exact @erx_perm. Qed.
Print Assumptions C13_erx_permutation.

(** C13: a pivot that is no gene of the parents makes it panic. *)
Theorem C13_erx_bad_pivot_panics :
  forall (G : Type) (eqb : G -> G -> bool) (p1 p2 : list G) (pivot : G),
  eq_ok eqb -> length p1 = length p2 -> 2 <= length p1 -> ~ In pivot p1 -> ~ In pivot p2 ->
  must_fail (edge_recombination_crossover eqb p1 p2 pivot) Panic.
Proof. exact @erx_bad_pivot. Qed.
Print Assumptions C13_erx_bad_pivot_panics.

(** C14: every gene after the first obeys [erx_rule] (Spec.v). *)
Theorem C14_erx_rule :
  forall (G : Type) (eqb : G -> G -> bool) (p1 p2 : list G) (pivot : G),
  eq_ok eqb -> perm_parents p1 p2 -> In pivot p1 ->
  must (edge_recombination_crossover eqb p1 p2 pivot) (fun r =>
    forall i c x, nth_error r i = Some c -> nth_error r (S i) = Some x ->
      erx_rule p1 p2 (firstn (S i) r) c x).
Proof. exact @erx_rule_all. Qed.
Print Assumptions C14_erx_rule.
(** C14: and every order of the genes that obeys it can be the offspring, for some
    iteration order of the hash sets. *)
Theorem C14_erx_exact :
  forall (G : Type) (eqb : G -> G -> bool) (p1 p2 : list G) (pivot : G) (r : list G),
  eq_ok eqb -> perm_parents p1 p2 -> In pivot p1 ->
  (may (edge_recombination_crossover eqb p1 p2 pivot) r <->
   Permutation p1 r /\ hd_error r = Some pivot /\
   forall i c x, nth_error r i = Some c -> nth_error r (S i) = Some x -> erx_rule p1 p2 (firstn (S i) r) c x).
Proof. exact @erx_exact. Qed.
Print Assumptions C14_erx_exact.
Example C13_C14_example :
  perm_parents parent1 parent2 /\ In 3 parent1 /\
  run (edge_recombination_crossover Nat.eqb parent1 parent2 3) [] = Some [3; 2; 1; 0; 9; 8; 7; 6; 5; 4].
Proof. split; [exact (proj1 (proj2 doc_parents_perm))|split; [cbn; auto|vm_compute; reflexivity]]. Qed.

(** ** PMX *)

(** C15: a permutation; parent1 inside the range; outside it the gene of parent2
    followed through the mapping segment1 -> segment2 until it leaves segment1. *)
Theorem C15_pmx_offspring :
  forall (G : Type) (eqb : G -> G -> bool) (p1 p2 : list G) (fuel a b : nat),
  eq_ok eqb -> perm_parents p1 p2 -> a <= b -> b <= length p1 -> b - a < fuel ->
  must (partially_mapped_crossover eqb fuel p1 p2 (a, b)) (fun r =>
    Permutation p1 r /\
    (forall i, a <= i < b -> nth_error r i = nth_error p1 i) /\
    (forall i g, ~ (a <= i < b) -> nth_error p2 i = Some g ->
       exists x, nth_error r i = Some x /\ pmx_maps (segment p1 a b) (segment p2 a b) g x) /\
    (forall i g, ~ (a <= i < b) -> nth_error p2 i = Some g -> ~ In g (segment p1 a b) ->
       nth_error r i = Some g)).
Proof. exact @pmx_offspring. Qed.
Print Assumptions C15_pmx_offspring.

(** C15: a range outside the parents makes it panic. *)
Theorem C15_pmx_bad_range_panics :
  forall (G : Type) (eqb : G -> G -> bool) (fuel : nat) (p1 p2 : list G) (a b : nat),
  length p1 = length p2 -> 2 <= length p1 -> b < a \/ length p1 < b ->
  must_fail (partially_mapped_crossover eqb fuel p1 p2 (a, b)) Panic.
Proof. exact @pmx_bad_range. Qed.
Print Assumptions C15_pmx_bad_range_panics.
Example C15_example :
  perm_parents parent1 parent2 /\ 1 <= 4 /\ 4 <= length parent1 /\ 4 - 1 < 4 /\
  partially_mapped_crossover Nat.eqb 4 parent1 parent2 (1, 4) = Ret [8; 1; 2; 3; 4; 5; 6; 7; 0; 9].
Proof.
  split; [exact (proj1 (proj2 doc_parents_perm))|].
  repeat split; try (repeat constructor); vm_compute; reflexivity.
Qed.

(** C16: on permutation parents b - a + 1 tests (b - a replacements) of the inner
    loop are enough, in every execution. *)
Theorem C16_pmx_terminates :
  forall (G : Type) (eqb : G -> G -> bool) (p1 p2 : list G) (a b : nat),
  eq_ok eqb -> perm_parents p1 p2 -> a <= b -> b <= length p1 ->
  must (partially_mapped_crossover eqb (S (b - a)) p1 p2 (a, b)) (fun _ => True).
Proof. exact @pmx_terminates. Qed.
Print Assumptions C16_pmx_terminates.

(** C16: with repeated genes there are parents on which it never ends. *)
Theorem C16_pmx_termination_refuted :
  exists (p1 p2 : list nat) (a b : nat), length p1 = length p2 /\ a <= b <= length p1 /\
  forall fuel, must_fail (partially_mapped_crossover Nat.eqb fuel p1 p2 (a, b)) NoFuel.
Proof. exact pmx_diverges_witness. Qed.
Print Assumptions C16_pmx_termination_refuted.

(** ** OX *)

(** C17: a permutation equal to parent1 on the range; read cyclically from b it
    is the genes of parent2 (read cyclically from b) outside the segment, then
    the segment. *)
Theorem C17_ox_offspring :
  forall (G : Type) (eqb : G -> G -> bool) (p1 p2 : list G) (fuel a b : nat),
  eq_ok eqb -> perm_parents p1 p2 -> a < b -> b <= length p1 -> length p1 < fuel ->
  must (order_crossover eqb fuel p1 p2 (a, b)) (fun r =>
    Permutation p1 r /\
    (forall i, a <= i < b -> nth_error r i = nth_error p1 i) /\
    forall keep : G -> bool, (forall g, keep g = true <-> ~ In g (segment p1 a b)) ->
      rotated r b = filter keep (rotated p2 b) ++ segment p1 a b).
Proof. exact @ox_offspring. Qed.
Print Assumptions C17_ox_offspring.
Example C17_example :
  perm_parents parent1 parent2 /\ 1 < 4 /\ 4 <= length parent1 /\ length parent1 < 11 /\
  order_crossover Nat.eqb 11 parent1 parent2 (1, 4) = Ret [7; 1; 2; 3; 4; 5; 6; 8; 9; 0].
Proof.
  split; [exact (proj1 (proj2 doc_parents_perm))|].
  repeat split; try (repeat constructor); vm_compute; reflexivity.
Qed.

(** C17: a range outside the parents makes it panic. *)
Theorem C17_ox_bad_range_panics :
  forall (G : Type) (eqb : G -> G -> bool) (fuel : nat) (p1 p2 : list G) (a b : nat),
  length p1 = length p2 -> 2 <= length p1 -> b < a \/ length p1 < b ->
  must_fail (order_crossover eqb fuel p1 p2 (a, b)) Panic.
Proof. exact @ox_bad_range. Qed.
Print Assumptions C17_ox_bad_range_panics.

(** C18: with the empty range a..a, a < n, the result is n copies of parent1[0]. *)
Theorem C18_ox_empty_range :
  forall (G : Type) (eqb : G -> G -> bool) (fuel : nat) (p1 p2 : list G) (a : nat) (g0 : G),
  length p1 = length p2 -> 2 <= length p1 -> a < length p1 -> hd_error p1 = Some g0 -> 0 < fuel ->
  must (order_crossover eqb fuel p1 p2 (a, a)) (fun r => r = repeat g0 (length p1)).
Proof. exact @ox_empty_range. Qed.
Print Assumptions C18_ox_empty_range.

(** C18: with the empty range n..n it never ends. *)
Theorem C18_ox_end_range_diverges :
  forall (G : Type) (eqb : G -> G -> bool) (fuel : nat) (p1 p2 : list G),
  length p1 = length p2 -> 2 <= length p1 ->
  must_fail (order_crossover eqb fuel p1 p2 (length p1, length p1)) NoFuel.
Proof. exact @ox_end_range_diverges. Qed.
Print Assumptions C18_ox_end_range_diverges.

(** C18: "OX returns a permutation for every range inside the parents" is false. *)
Theorem C18_ox_every_range_refuted :
  exists (p1 p2 : list nat) (a b : nat), perm_parents p1 p2 /\ a <= b <= length p1 /\
  must (order_crossover Nat.eqb 100 p1 p2 (a, b)) (fun r => ~ Permutation p1 r).
Proof. exact ox_empty_witness. Qed.
Print Assumptions C18_ox_every_range_refuted.

(** C18: with repeated genes it may never end even on a non-empty range. *)
Theorem C18_ox_termination_refuted :
  exists (p1 p2 : list nat) (a b : nat), length p1 = length p2 /\ a < b <= length p1 /\
  forall fuel, must_fail (order_crossover Nat.eqb fuel p1 p2 (a, b)) NoFuel.
Proof. exact ox_diverges_witness. Qed.
Print Assumptions C18_ox_termination_refuted.

(** ** CX *)

(** C19: a permutation; each position comes from the parent chosen for its
    cycle; the cycle of position 0 comes from parent1 and successive cycles (in
    the order of their first positions) alternate. *)
Theorem C19_cx_offspring :
  forall (G : Type) (eqb : G -> G -> bool) (p1 p2 : list G),
  eq_ok eqb -> perm_parents p1 p2 ->
  must (cycle_crossover eqb p1 p2) (fun r =>
    Permutation p1 r /\
    exists from1 : nat -> bool,
      (forall i, i < length p1 -> nth_error r i = nth_error (if from1 i then p1 else p2) i) /\
      from1 0 = true /\
      (forall i j, cx_link p1 p2 i j -> from1 i = from1 j) /\
      (forall i j, cx_leader p1 p2 i -> cx_leader p1 p2 j -> i < j ->
         (forall k, i < k < j -> ~ cx_leader p1 p2 k) -> from1 j = negb (from1 i))).
Proof. exact @cx_offspring. Qed.
Print Assumptions C19_cx_offspring.
Example C19_example :
  perm_parents parent1 parent2 /\
  cycle_crossover Nat.eqb parent1 parent2 = Ret [0; 9; 2; 3; 4; 5; 6; 7; 8; 1].
Proof. split; [exact (proj1 (proj2 doc_parents_perm))|vm_compute; reflexivity]. Qed.

(** ** SPX *)

(** C20: parent1 before the point, parent2 from it on, for all genomes and points. *)
Theorem C20_spx_offspring :
  forall (G : Type) (p1 p2 : list G) (point : nat), length p1 = length p2 ->
  must (single_point_crossover p1 p2 point) (fun r => r = firstn point p1 ++ skipn point p2).
Proof. exact @spx_spec. Qed.
Print Assumptions C20_spx_offspring.
Example C20_example :
  length parent1 = length parent2 /\
  single_point_crossover parent1 parent2 4 = Ret [0; 1; 2; 3; 4; 5; 6; 3; 2; 1].
Proof. split; reflexivity. Qed.

(** ** All strategies *)

(** C21: all crossovers but GPX2 reject parents of different lengths. *)
Theorem C21_length_mismatch_panics :
  forall (G : Type) (eqb : G -> G -> bool) (p1 p2 : list G), length p1 <> length p2 ->
  (forall pivot, must_fail (sequential_constructive_crossover eqb p1 p2 pivot) Panic) /\
  (forall pivot, must_fail (edge_recombination_crossover eqb p1 p2 pivot) Panic) /\
  (forall fuel range, must_fail (partially_mapped_crossover eqb fuel p1 p2 range) Panic) /\
  (forall fuel range, must_fail (order_crossover eqb fuel p1 p2 range) Panic) /\
  must_fail (cycle_crossover eqb p1 p2) Panic /\
  (forall point, must_fail (single_point_crossover p1 p2 point) Panic).
Proof. exact @mismatch_all. Qed.
Print Assumptions C21_length_mismatch_panics.
Example C21_example : length [1; 2] <> length [1; 2; 3].
Proof. discriminate. Qed.

(** C22: every permutation strategy is total on non-empty permutation parents. *)
Theorem C22_crossover_permutation :
  forall (G : Type) (eqb ltb : G -> G -> bool), eq_ok eqb ->
  forall (fuel : nat) (s : crossover_strategy) (p1 p2 : list G),
  NoDup p1 -> Permutation p1 p2 -> p1 <> [] -> length p1 < fuel -> s <> SinglePoint ->
  must (crossover eqb ltb fuel s p1 p2) (fun r => Permutation p1 r).
Proof. exact @crossover_perm. Qed.
Print Assumptions C22_crossover_permutation.
Theorem C22_crossover_single_point :
  forall (G : Type) (eqb ltb : G -> G -> bool) (fuel : nat) (p1 p2 : list G),
  length p1 = length p2 -> p1 <> [] ->
  must (crossover eqb ltb fuel SinglePoint p1 p2) (fun r =>
    exists point, point < length p1 /\ r = firstn point p1 ++ skipn point p2).
Proof. exact @crossover_spx. Qed.
Print Assumptions C22_crossover_single_point.
Theorem C22_crossover_single_point_reaches_all :
  forall (G : Type) (eqb ltb : G -> G -> bool) (fuel : nat) (p1 p2 : list G) (point : nat),
  length p1 = length p2 -> point < length p1 ->
  may (crossover eqb ltb fuel SinglePoint p1 p2) (firstn point p1 ++ skipn point p2).
Proof. exact @crossover_spx_reach. Qed.
Print Assumptions C22_crossover_single_point_reaches_all.
Theorem C22_crossover_empty_parents :
  forall (G : Type) (eqb ltb : G -> G -> bool) (fuel : nat) (s : crossover_strategy),
  match s with
  | GeneralizedPartition2 | Cycle => must (crossover eqb ltb fuel s [] []) (fun r => r = [])
  | _ => must_fail (crossover eqb ltb fuel s [] []) Panic
  end.
Proof. exact @crossover_empty. Qed.
Print Assumptions C22_crossover_empty_parents.
Example C22_example :
  perm_parents parent1 parent2 /\ parent1 <> [] /\ length parent1 < 11 /\ Order <> SinglePoint /\
  run (crossover Nat.eqb Nat.ltb 11 Order parent1 parent2) [2; 1]%N = Some [7; 1; 2; 3; 4; 5; 6; 8; 9; 0].
Proof.
  split; [exact (proj1 (proj2 doc_parents_perm))|].
  repeat split; try discriminate; try (repeat constructor); vm_compute; reflexivity.
Qed.

(** C23: crossover of a genome with itself returns the genome. *)
Theorem C23_same_parents :
  forall (G : Type) (eqb : G -> G -> bool) (p : list G) (fuel a b point : nat),
  eq_ok eqb -> NoDup p -> a < b -> b <= length p -> length p < fuel ->
  must (partially_mapped_crossover eqb fuel p p (a, b)) (fun r => r = p) /\
  must (order_crossover eqb fuel p p (a, b)) (fun r => r = p) /\
  must (cycle_crossover eqb p p) (fun r => r = p) /\
  must (single_point_crossover p p point) (fun r => r = p).
Proof. exact @same_parents. Qed.
Print Assumptions C23_same_parents.
Example C23_example : NoDup parent1 /\ 1 < 4 /\ 4 <= length parent1 /\ length parent1 < 11.
Proof. split; [exact (proj1 (proj1 (proj2 doc_parents_perm)))|repeat split; repeat constructor]. Qed.
