(** * Properties_GpxSteps: the steps that both parents share in an offspring (C118). *)
From Coq Require Import List Bool Arith NArith Permutation.
From Verif Require Import Rnd MOperators MCrossover Spec SpecD PGpxSteps.
Import ListNotations.

(** C118: GPX2 keeps every step that the parents share but at most one ... *)
Theorem C118_gpx2_loses_one :
  forall (G : Type) (eqb ltb : G -> G -> bool), eq_ok eqb -> lt_total ltb ->
  forall (S0 : Type) (sel : S0 -> option G -> list (list G) -> M (nat * S0)),
  (forall s o ps, ps <> [] -> must (sel s o ps) (fun r => fst r < length ps)) ->
  forall (p1 p2 : list G) (s : S0), NoDup p1 -> 3 <= length p1 -> 3 <= length p2 ->
  must (generalized_partition_2_crossover eqb ltb p1 p2 sel s) (fun r => loses_one p1 p2 r).
Proof. exact @c118_one. Qed.
Print Assumptions C118_gpx2_loses_one.
(** ... and all of them when the first and the last gene of parent1 are not
    neighbours in parent2 ... *)
Theorem C118_gpx2_keeps_all :
  forall (G : Type) (eqb ltb : G -> G -> bool), eq_ok eqb -> lt_total ltb ->
  forall (S0 : Type) (sel : S0 -> option G -> list (list G) -> M (nat * S0)),
  (forall s o ps, ps <> [] -> must (sel s o ps) (fun r => fst r < length ps)) ->
  forall (p1 p2 : list G) (s : S0), NoDup p1 -> 3 <= length p1 -> 3 <= length p2 ->
  (forall x y, hd_error p1 = Some x -> last (map Some p1) None = Some y -> ~ cyc_adj p2 x y) ->
  must (generalized_partition_2_crossover eqb ltb p1 p2 sel s) (fun r =>
    forall a b, cyc_adj p1 a b -> cyc_adj p2 a b -> cyc_adj r a b).
Proof. exact @c118_all. Qed.
Print Assumptions C118_gpx2_keeps_all.
(** ... so the offspring is, but for one step, as near to each parent as the
    parents are to each other. *)
Theorem C118_gpx2_distance :
  forall (G : Type) (eqb ltb : G -> G -> bool), eq_ok eqb -> lt_total ltb ->
  forall (S0 : Type) (sel : S0 -> option G -> list (list G) -> M (nat * S0)),
  (forall s o ps, ps <> [] -> must (sel s o ps) (fun r => fst r < length ps)) -> (forall a, ltb a a = false) ->
  forall (p1 p2 : list G) (s : S0), NoDup p1 -> Permutation p1 p2 -> 3 <= length p1 ->
  must (generalized_partition_2_crossover eqb ltb p1 p2 sel s) (fun r =>
    must (common_neighbors eqb ltb p1 p2) (fun c =>
      must (common_neighbors eqb ltb p1 r) (fun c1 => length c <= length c1 + 1) /\
      must (common_neighbors eqb ltb p2 r) (fun c2 => length c <= length c2 + 1))).
Proof. exact @c118_counts. Qed.
Print Assumptions C118_gpx2_distance.
(** A shared step can be lost ... *)
Theorem C118_gpx2_keeps_all_refuted :
  exists p1 p2 r : list nat, NoDup p1 /\ Permutation p1 p2 /\
  may (crossover Nat.eqb Nat.ltb 0 GeneralizedPartition2 p1 p2) r /\
  ~ (forall a b, cyc_adj p1 a b -> cyc_adj p2 a b -> cyc_adj r a b).
Proof. exact c118_tight. Qed.
Print Assumptions C118_gpx2_keeps_all_refuted.
(** ... and the other crossovers that keep permutations can lose more than one. *)
Theorem C118_other_crossovers_refuted :
  forall s : crossover_strategy, s <> GeneralizedPartition2 -> s <> SinglePoint ->
  exists p1 p2 r : list nat, NoDup p1 /\ Permutation p1 p2 /\
  may (crossover Nat.eqb Nat.ltb 100 s p1 p2) r /\ ~ loses_one p1 p2 r.
Proof. exact c118_others. Qed.
Print Assumptions C118_other_crossovers_refuted.
Example C118_example :
  common_partitions Nat.eqb Nat.ltb [1; 2; 3; 4; 5; 6] [2; 1; 4; 3; 6; 5] = Ret [[1; 2]; [3; 4]; [5; 6]] /\
  common_neighbors Nat.eqb Nat.ltb [1; 2; 3; 4; 5; 6] [2; 1; 4; 3; 6; 5] = Ret [(1, 2); (3, 4); (5, 6)] /\
  ~ cyc_adj [2; 1; 4; 3; 6; 5] 1 6 /\
  run (crossover Nat.eqb Nat.ltb 0 GeneralizedPartition2 [1; 2; 3; 4; 5; 6] [2; 1; 4; 3; 6; 5]) [1; 0; 0]%N = Some [3; 4; 1; 2; 5; 6].
Proof. exact c118_example. Qed.
