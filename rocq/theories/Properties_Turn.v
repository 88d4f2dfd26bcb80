(** * Properties_Turn: turning and rearranging both parents (C127). *)
From Coq Require Import List Bool Arith.
From Verif Require Import Rnd MCrossover Spec PTurn.
Import ListNotations.

(** C127: OX reads its parents as circles: with both parents started k positions further
    on and the range moved along, the offspring is turned the same way. *)
Theorem C127_ox_turned :
  forall (G : Type) (eqb : G -> G -> bool), eq_ok eqb ->
  forall (p1 p2 r : list G) (fuel a b k : nat),
  perm_parents p1 p2 -> k <= a -> a < b -> b <= length p1 -> length p1 < fuel ->
  may (order_crossover eqb fuel p1 p2 (a, b)) r ->
  must (order_crossover eqb fuel (rotated p1 k) (rotated p2 k) (a - k, b - k)) (fun r' => r' = rotated r k).
Proof. exact @ox_turned. Qed.
Print Assumptions C127_ox_turned.
Theorem C127_pmx_turned :
  forall (G : Type) (eqb : G -> G -> bool), eq_ok eqb ->
  forall (p1 p2 r : list G) (fuel a b k : nat),
  perm_parents p1 p2 -> k <= a -> a <= b -> b <= length p1 -> b - a < fuel ->
  may (partially_mapped_crossover eqb fuel p1 p2 (a, b)) r ->
  must (partially_mapped_crossover eqb fuel (rotated p1 k) (rotated p2 k) (a - k, b - k)) (fun r' => r' = rotated r k).
Proof. exact @pmx_turn. Qed.
Print Assumptions C127_pmx_turned.
(** PMX goes by positions only as far as they are in the range: rearranging the
    positions of both parents in the same way, those of one range onto another, rearranges
    the offspring. *)
Theorem C127_pmx_rearranged :
  forall (G : Type) (eqb : G -> G -> bool), eq_ok eqb ->
  forall (p1 p2 q1 q2 : list G) (s : nat -> nat) (a b a' b' : nat),
  perm_parents p1 p2 -> length q1 = length p1 -> length q2 = length p1 -> b <= length p1 -> b' <= length p1 ->
  (forall i, i < length p1 -> s i < length p1) -> (forall i j, i < length p1 -> j < length p1 -> s i = s j -> i = j) ->
  (forall i, i < length p1 -> nth_error q1 i = nth_error p1 (s i)) ->
  (forall i, i < length p1 -> nth_error q2 i = nth_error p2 (s i)) ->
  (forall i, i < length p1 -> (a' <= i < b' <-> a <= s i < b)) ->
  forall (fuel : nat) (r : list G), a <= b -> a' <= b' -> b - a < fuel -> b' - a' < fuel ->
  may (partially_mapped_crossover eqb fuel p1 p2 (a, b)) r ->
  must (partially_mapped_crossover eqb fuel q1 q2 (a', b')) (fun r' =>
    length r' = length r /\ forall i, i < length p1 -> nth_error r' i = nth_error r (s i)).
Proof. exact @pmx_moved. Qed.
Print Assumptions C127_pmx_rearranged.
(** OX has a direction, CX a first position. *)
Theorem C127_ox_reversed_refuted :
  exists (p1 p2 r : list nat) (a b fuel : nat),
  perm_parents p1 p2 /\ a < b /\ b <= length p1 /\ length p1 < fuel /\
  may (order_crossover Nat.eqb fuel p1 p2 (a, b)) r /\
  must (order_crossover Nat.eqb fuel (rev p1) (rev p2) (length p1 - b, length p1 - a)) (fun r' => r' <> rev r).
Proof. exact ox_reversed_refuted. Qed.
Print Assumptions C127_ox_reversed_refuted.
Theorem C127_cx_turned_refuted :
  exists (p1 p2 r : list nat) (k : nat),
  perm_parents p1 p2 /\ k <= length p1 /\ may (cycle_crossover Nat.eqb p1 p2) r /\
  must (cycle_crossover Nat.eqb (rotated p1 k) (rotated p2 k)) (fun r' => r' <> rotated r k).
Proof. exact cx_turned_refuted. Qed.
Print Assumptions C127_cx_turned_refuted.
Example C127_example :
  perm_parents [0; 1; 2; 3; 4] [3; 1; 4; 0; 2] /\
  order_crossover Nat.eqb 6 [0; 1; 2; 3; 4] [3; 1; 4; 0; 2] (2, 4) = Ret [4; 0; 2; 3; 1] /\
  order_crossover Nat.eqb 6 [2; 3; 4; 0; 1] [4; 0; 2; 3; 1] (0, 2) = Ret [2; 3; 1; 4; 0] /\
  partially_mapped_crossover Nat.eqb 6 [0; 1; 2; 3; 4] [1; 2; 3; 4; 0] (1, 3) = Ret [3; 1; 2; 4; 0] /\
  partially_mapped_crossover Nat.eqb 6 [4; 3; 2; 1; 0] [0; 4; 3; 2; 1] (2, 4) = Ret [0; 4; 2; 1; 3].
Proof. exact turn_example. Qed.
