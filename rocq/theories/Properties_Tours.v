(** * Properties_Tours: SCX and ERX on tours (C125). *)
From Coq Require Import List Bool Arith Permutation.
From Verif Require Import Rnd MCrossover Spec SpecC PErxExact PTours.
Import ListNotations.

(** C125: it does not matter to ERX where parent2 starts and in which direction it is
    written down. *)
Theorem C125_erx_second :
  forall (G : Type) (eqb : G -> G -> bool), eq_ok eqb ->
  forall (p1 p2 q2 : list G) (pivot : G) (r : list G),
  perm_parents p1 p2 -> turned p2 q2 \/ turned (rev p2) q2 -> In pivot p1 ->
  (may (edge_recombination_crossover eqb p1 p2 pivot) r <-> may (edge_recombination_crossover eqb p1 q2 pivot) r).
Proof. exact @erx_second. Qed.
Print Assumptions C125_erx_second.
(** For offspring that take only steps of the parents this is so for parent1 as well, and
    the parents can be exchanged. *)
Theorem C125_erx_first :
  forall (G : Type) (eqb : G -> G -> bool), eq_ok eqb ->
  forall (p1 q1 p2 : list G) (pivot : G) (r : list G),
  perm_parents p1 p2 -> turned p1 q1 \/ turned (rev p1) q1 -> In pivot p1 ->
  (forall i c x, nth_error r i = Some c -> nth_error r (S i) = Some x -> cyc_adj p1 c x \/ cyc_adj p2 c x) ->
  (may (edge_recombination_crossover eqb p1 p2 pivot) r <-> may (edge_recombination_crossover eqb q1 p2 pivot) r).
Proof. exact @erx_first. Qed.
Print Assumptions C125_erx_first.
Theorem C125_erx_exchange :
  forall (G : Type) (eqb : G -> G -> bool), eq_ok eqb ->
  forall (p1 p2 : list G) (pivot : G) (r : list G), perm_parents p1 p2 -> In pivot p1 ->
  (forall i c x, nth_error r i = Some c -> nth_error r (S i) = Some x -> cyc_adj p1 c x \/ cyc_adj p2 c x) ->
  (may (edge_recombination_crossover eqb p1 p2 pivot) r <-> may (edge_recombination_crossover eqb p2 p1 pivot) r).
Proof. exact @erx_swapped. Qed.
Print Assumptions C125_erx_exchange.
(** Where a dead end is met it does matter where parent1 starts ... *)
Theorem C125_erx_first_any_refuted :
  exists (p1 q1 p2 : list nat) (pivot : nat) (r : list nat),
  perm_parents p1 p2 /\ turned p1 q1 /\ In pivot p1 /\
  may (edge_recombination_crossover Nat.eqb p1 p2 pivot) r /\ ~ may (edge_recombination_crossover Nat.eqb q1 p2 pivot) r.
Proof. exact erx_first_refuted. Qed.
Print Assumptions C125_erx_first_any_refuted.
(** ... and for SCX it matters where parent2 starts. *)
Theorem C125_scx_second_refuted :
  exists (p1 p2 q2 : list nat) (pivot : nat) (r : list nat),
  perm_parents p1 p2 /\ turned p2 q2 /\ In pivot p1 /\
  may (sequential_constructive_crossover Nat.eqb p1 p2 pivot) r /\ ~ may (sequential_constructive_crossover Nat.eqb p1 q2 pivot) r.
Proof. exact scx_second_refuted. Qed.
Print Assumptions C125_scx_second_refuted.
Example C125_example :
  perm_parents eight eight2 /\ turned (rev eight2) (rotated (rev eight2) 3) /\
  may (edge_recombination_crossover Nat.eqb eight (rotated (rev eight2) 3) 4) [4; 3; 1; 0; 7; 2; 5; 6].
Proof. exact tours_example. Qed.
