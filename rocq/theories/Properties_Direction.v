(** * Properties_Direction: mutations and the direction of a route (C129). *)
From Coq Require Import List Bool Arith Reals.
From Verif Require Import Rnd Prob MMutation Spec SpecT PDirection.
Import ListNotations.

(** C129: swap, scramble, inversion and duplicate mutation treat both directions of a
    genome alike: the backwards written genome becomes the backwards written result with
    the same probability. *)
Theorem C129_direction :
  forall {G : Type} (eqb : G -> G -> bool), eq_ok eqb ->
  forall (s : mutation_strategy) (l r : list G), s <> Insertion -> NoDup l ->
  prob (mutate s (rev l)) (route_eqb eqb (rev r)) = prob (mutate s l) (route_eqb eqb r).
Proof. exact @c129_direction. Qed.
Print Assumptions C129_direction.
Example C129_example :
  prob (mutate Scramble [0; 1; 2; 3]) (route_eqb Nat.eqb [1; 0; 2; 3]) = (7 / 72)%R /\
  prob (mutate Scramble [3; 2; 1; 0]) (route_eqb Nat.eqb [3; 2; 0; 1]) = (7 / 72)%R.
Proof. exact c129_example. Qed.
Print Assumptions C129_example.
(** Insertion mutation does not: it always moves a gene towards the front. *)
Theorem C129_insertion_refuted :
  exists l r : list nat, NoDup l /\
  prob (mutate Insertion (rev l)) (route_eqb Nat.eqb (rev r)) <> prob (mutate Insertion l) (route_eqb Nat.eqb r).
Proof. exact c129_refuted. Qed.
Print Assumptions C129_insertion_refuted.
Theorem C129_insertion_numbers :
  prob (mutate Insertion [0; 1; 2]) (route_eqb Nat.eqb [2; 0; 1]) = (1 / 3)%R /\
  prob (mutate Insertion [2; 1; 0]) (route_eqb Nat.eqb [1; 0; 2]) = 0%R.
Proof. exact c129_insertion_refuted. Qed.
Print Assumptions C129_insertion_numbers.
(** Swap and duplicate mutation do not even depend on which positions are neighbours:
    rearranging the positions of genome and result in the same way changes nothing. *)
Theorem C129_positions :
  forall {G : Type} (eqb : G -> G -> bool), eq_ok eqb ->
  forall (m : mutation_strategy) (s : nat -> nat) (l l' r r' : list G),
  m = Swap \/ m = Duplicate ->
  (forall i, i < length l -> s i < length l) -> (forall i j, i < length l -> j < length l -> s i = s j -> i = j) ->
  length l' = length l -> length r = length l -> length r' = length l ->
  (forall i, i < length l -> nth_error l' i = nth_error l (s i)) -> (forall i, i < length l -> nth_error r' i = nth_error r (s i)) ->
  prob (mutate m l') (route_eqb eqb r') = prob (mutate m l) (route_eqb eqb r).
Proof. exact @c129_positions. Qed.
Print Assumptions C129_positions.
Example C129_positions_example :
  prob (mutate Swap [0; 1; 2]) (route_eqb Nat.eqb [2; 1; 0]) = (1 / 3)%R /\
  prob (mutate Swap [1; 2; 0]) (route_eqb Nat.eqb [1; 0; 2]) = (1 / 3)%R.
Proof. exact c129_example2. Qed.
Print Assumptions C129_positions_example.
(** The others do: where a round tour starts makes a difference. *)
Theorem C129_turned_refuted :
  forall m : mutation_strategy, m = Inversion \/ m = Insertion \/ m = Scramble ->
  exists (l r : list nat) (k : nat), NoDup l /\ k <= length l /\
  prob (mutate m (rotated l k)) (route_eqb Nat.eqb (rotated r k)) <> prob (mutate m l) (route_eqb Nat.eqb r).
Proof. exact c129_turned_refuted. Qed.
Print Assumptions C129_turned_refuted.
