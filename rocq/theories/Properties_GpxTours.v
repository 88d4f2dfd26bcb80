(** * Properties_GpxTours: what GPX2 sees of its second parent (C131). *)
From Coq Require Import List Bool Arith NArith Permutation Reals Factorial.
From Verif Require Import Rnd Prob MOperators MCrossover Spec SpecC PErxExact PTours PGpxTours.
Import ListNotations.

(** C131: GPX2 sees of parent2 only which steps of parent1 it takes: two second parents
    that agree on these give the same computation, for every selector. *)
Theorem C131_gpx2_shared_steps :
  forall (G : Type) (eqb ltb : G -> G -> bool), eq_ok eqb -> lt_total ltb ->
  forall (S0 : Type) (p1 p2 q2 : list G) (sel : S0 -> option G -> list (list G) -> M (nat * S0)) (s : S0),
  length p1 <= length p2 -> length q2 = length p2 ->
  (forall a b, cyc_adj p1 a b -> (cyc_adj p2 a b <-> cyc_adj q2 a b)) ->
  generalized_partition_2_crossover eqb ltb p1 p2 sel s = generalized_partition_2_crossover eqb ltb p1 q2 sel s.
Proof. exact @gpx2_steps. Qed.
Print Assumptions C131_gpx2_shared_steps.
(** So it does not matter where parent2 starts and in which direction it is written down. *)
Theorem C131_gpx2_second :
  forall (G : Type) (eqb ltb : G -> G -> bool), eq_ok eqb -> lt_total ltb ->
  forall (S0 : Type) (p1 p2 q2 : list G) (sel : S0 -> option G -> list (list G) -> M (nat * S0)) (s : S0),
  length p1 <= length p2 -> turned p2 q2 \/ turned (rev p2) q2 ->
  generalized_partition_2_crossover eqb ltb p1 p2 sel s = generalized_partition_2_crossover eqb ltb p1 q2 sel s.
Proof. exact @gpx2_tour. Qed.
Print Assumptions C131_gpx2_second.
(** With parents that share no step the offspring is a random order of the genes, all orders
    equally likely: nothing of the parents is left. *)
Theorem C131_gpx2_strangers :
  forall (G : Type) (eqb ltb : G -> G -> bool), eq_ok eqb ->
  forall (fuel : nat) (p1 p2 r : list G) (P : list G -> bool), NoDup p1 -> Permutation p1 r ->
  (forall a b, cyc_adj p1 a b -> ~ cyc_adj p2 a b) -> (forall x, P x = true <-> x = r) ->
  prob (crossover eqb ltb fuel GeneralizedPartition2 p1 p2) P = (/ INR (fact (length p1)))%R.
Proof. exact @gpx2_strangers. Qed.
Print Assumptions C131_gpx2_strangers.
Example C131_example :
  perm_parents eight eight2 /\ turned (rev eight2) (rotated (rev eight2) 3) /\
  common_partitions Nat.eqb Nat.ltb eight (rotated (rev eight2) 3) = Ret [[0; 1]; [2; 3]; [4]; [5; 6]; [7]] /\
  (forall a b, cyc_adj [0; 1; 2; 3; 4] a b -> ~ cyc_adj [0; 2; 4; 1; 3] a b) /\ NoDup [0; 1; 2; 3; 4].
Proof. exact gpx2_tour_example. Qed.
Print Assumptions C131_example.
(** It does matter where parent1 starts ... *)
Theorem C131_gpx2_first_refuted :
  exists p1 q1 p2 r : list nat, perm_parents p1 p2 /\ turned p1 q1 /\
  may (crossover Nat.eqb Nat.ltb 0 GeneralizedPartition2 p1 p2) r /\ ~ may (crossover Nat.eqb Nat.ltb 0 GeneralizedPartition2 q1 p2) r.
Proof. exact gpx2_first_refuted. Qed.
Print Assumptions C131_gpx2_first_refuted.
(** ... and to every other strategy but ERX (C125) where parent2 does. *)
Theorem C131_others_refuted :
  forall s : crossover_strategy, s <> GeneralizedPartition2 -> s <> EdgeRecombination ->
  exists p1 p2 q2 r : list nat, perm_parents p1 p2 /\ turned p2 q2 /\
  may (crossover Nat.eqb Nat.ltb 100 s p1 p2) r /\ ~ may (crossover Nat.eqb Nat.ltb 100 s p1 q2) r.
Proof. exact tour_others. Qed.
Print Assumptions C131_others_refuted.
