(** * Properties_Back: crossing the children back (C121) and the shares of the
    parents in the offspring (C122). *)
From Coq Require Import List Bool Arith Reals Permutation.
From Verif Require Import Rnd Prob MOperators MCrossover Spec SpecBack PBack PCover DocExamples.
Import ListNotations.

(** C121: the two children of CX (parents in one order and in the other) have at
    every position the genes of the two parents, and crossing them gives the parents
    back. *)
Theorem C121_cycle_back :
  forall (G : Type) (eqb : G -> G -> bool), eq_ok eqb -> forall p1 p2 c1 c2 : list G, perm_parents p1 p2 ->
  may (cycle_crossover eqb p1 p2) c1 -> may (cycle_crossover eqb p2 p1) c2 ->
  complementary p1 p2 c1 c2 /\
  must (cycle_crossover eqb c1 c2) (fun r => r = p1) /\ must (cycle_crossover eqb c2 c1) (fun r => r = p2).
Proof. exact @cx_back. Qed.
Print Assumptions C121_cycle_back.

(** C121: the same for SPX with the same point, on any genomes of equal length. *)
Theorem C121_single_point_back :
  forall (G : Type) (p1 p2 c1 c2 : list G) (point : nat), length p1 = length p2 ->
  may (single_point_crossover p1 p2 point) c1 -> may (single_point_crossover p2 p1 point) c2 ->
  complementary p1 p2 c1 c2 /\
  must (single_point_crossover c1 c2 point) (fun r => r = p1) /\ must (single_point_crossover c2 c1 point) (fun r => r = p2).
Proof. exact @spx_back. Qed.
Print Assumptions C121_single_point_back.

(** C121: PMX with the same range gives the parents back too. *)
Theorem C121_partially_mapped_back :
  forall (G : Type) (eqb : G -> G -> bool), eq_ok eqb -> forall (p1 p2 c1 c2 : list G) (fuel a b : nat),
  perm_parents p1 p2 -> a <= b -> b <= length p1 -> b - a < fuel ->
  may (partially_mapped_crossover eqb fuel p1 p2 (a, b)) c1 -> may (partially_mapped_crossover eqb fuel p2 p1 (a, b)) c2 ->
  must (partially_mapped_crossover eqb fuel c1 c2 (a, b)) (fun r => r = p1) /\
  must (partially_mapped_crossover eqb fuel c2 c1 (a, b)) (fun r => r = p2).
Proof. exact @pmx_back. Qed.
Print Assumptions C121_partially_mapped_back.
Example C121_example :
  perm_parents parent1 parent2 /\
  cycle_crossover Nat.eqb parent1 parent2 = Ret [0; 9; 2; 3; 4; 5; 6; 7; 8; 1] /\
  cycle_crossover Nat.eqb parent2 parent1 = Ret [8; 1; 0; 7; 4; 5; 6; 3; 2; 9] /\
  partially_mapped_crossover Nat.eqb 4 parent1 parent2 (1, 4) = Ret [8; 1; 2; 3; 4; 5; 6; 7; 0; 9] /\
  partially_mapped_crossover Nat.eqb 4 parent2 parent1 (1, 4) = Ret [2; 9; 0; 7; 4; 5; 6; 3; 8; 1] /\
  single_point_crossover parent1 parent2 3 = Ret [0; 1; 2; 7; 4; 5; 6; 3; 2; 1].
Proof. exact back_example. Qed.

(** C121: OX does not. *)
Theorem C121_order_back_refuted :
  exists (p1 p2 c1 c2 : list nat) (a b fuel : nat),
  perm_parents p1 p2 /\ a < b /\ b <= length p1 /\ length p1 < fuel /\
  may (order_crossover Nat.eqb fuel p1 p2 (a, b)) c1 /\ may (order_crossover Nat.eqb fuel p2 p1 (a, b)) c2 /\
  must (order_crossover Nat.eqb fuel c1 c2 (a, b)) (fun r => r <> p1).
Proof. exact ox_no_way_back. Qed.
Print Assumptions C121_order_back_refuted.

(** C122: SPX takes position i from parent1 with probability (n-1-i)/n, so the last
    one always comes from parent2 ... *)
Theorem C122_single_point_share :
  forall (G : Type) (eqb ltb : G -> G -> bool), eq_ok eqb -> forall (fuel : nat) (p1 p2 : list G) (i : nat),
  length p1 = length p2 -> (i < length p1)%nat -> same_at eqb i p1 p2 = false ->
  prob (crossover eqb ltb fuel SinglePoint p1 p2) (fun r => same_at eqb i r p1) = (INR (length p1 - 1 - i) / INR (length p1))%R /\
  prob (crossover eqb ltb fuel SinglePoint p1 p2) (fun r => same_at eqb i r p2) = (INR (i + 1) / INR (length p1))%R.
Proof. exact @spx_share. Qed.
Print Assumptions C122_single_point_share.
(** ... and separates the positions i < j with probability (j-i)/n, always parent1
    at i and parent2 at j. *)
Theorem C122_single_point_linkage :
  forall (G : Type) (eqb ltb : G -> G -> bool), eq_ok eqb -> forall (fuel : nat) (p1 p2 : list G) (i j : nat),
  length p1 = length p2 -> (i < j < length p1)%nat -> same_at eqb i p1 p2 = false -> same_at eqb j p1 p2 = false ->
  prob (crossover eqb ltb fuel SinglePoint p1 p2) (fun r => same_at eqb i r p1 && same_at eqb j r p2) = (INR (j - i) / INR (length p1))%R /\
  prob (crossover eqb ltb fuel SinglePoint p1 p2) (fun r => same_at eqb i r p2 && same_at eqb j r p1) = 0%R.
Proof. exact @spx_linkage. Qed.
Print Assumptions C122_single_point_linkage.

(** C122: the range of random_range contains position i with probability
    [coverage n i]: the same from both ends, growing towards the middle, the harmonic
    number over n at the ends, on average (n+1)/2 positions. *)
Theorem C122_range_coverage :
  forall n i : nat, (i < n)%nat -> prob (random_range n) (fun r => (fst r <=? i) && (i <? snd r))%nat = coverage n i.
Proof. exact range_coverage. Qed.
Print Assumptions C122_range_coverage.
Theorem C122_coverage_mirror : forall n i : nat, (i < n)%nat -> coverage n (n - 1 - i) = coverage n i.
Proof. exact coverage_mirror. Qed.
Print Assumptions C122_coverage_mirror.
Theorem C122_coverage_middle : forall n i j : nat, (i <= j)%nat -> (i + j < n)%nat -> (coverage n i <= coverage n j)%R.
Proof. exact coverage_middle. Qed.
Print Assumptions C122_coverage_middle.
Theorem C122_coverage_ends : forall n : nat, (0 < n)%nat -> coverage n 0 = (Rsum n (fun k => / INR (k + 1)) / INR n)%R.
Proof. exact coverage_end. Qed.
Print Assumptions C122_coverage_ends.
Theorem C122_coverage_total : forall n : nat, (0 < n)%nat -> Rsum n (coverage n) = ((INR n + 1) / 2)%R.
Proof. exact coverage_total. Qed.
Print Assumptions C122_coverage_total.

(** C122: so PMX and OX keep the gene of parent1 at position i at least that often,
    on average at more than half of the positions. *)
Theorem C122_kept_position :
  forall (G : Type) (eqb ltb : G -> G -> bool), eq_ok eqb ->
  forall (fuel : nat) (s : crossover_strategy) (p1 p2 : list G) (i : nat), s = PartiallyMapped \/ s = Order ->
  perm_parents p1 p2 -> (length p1 < fuel)%nat -> (i < length p1)%nat ->
  (coverage (length p1) i <= prob (crossover eqb ltb fuel s p1 p2) (fun r => same_at eqb i r p1))%R.
Proof. exact @kept_position. Qed.
Print Assumptions C122_kept_position.
Theorem C122_kept_half :
  forall (G : Type) (eqb ltb : G -> G -> bool), eq_ok eqb ->
  forall (fuel : nat) (s : crossover_strategy) (p1 p2 : list G), s = PartiallyMapped \/ s = Order ->
  perm_parents p1 p2 -> (length p1 < fuel)%nat -> p1 <> [] ->
  ((INR (length p1) + 1) / 2 <= Rsum (length p1) (fun i => prob (crossover eqb ltb fuel s p1 p2) (fun r => same_at eqb i r p1)))%R.
Proof. exact @kept_half. Qed.
Print Assumptions C122_kept_half.
Example C122_example : coverage 3 0 = (11 / 18)%R /\ coverage 3 1 = (7 / 9)%R /\ coverage 3 2 = (11 / 18)%R.
Proof. exact cover_example. Qed.
Example C122_example_single_point :
  forall ltb : bool -> bool -> bool,
  length [true; true; true] = length [false; false; false] /\ same_at Bool.eqb 0 [true; true; true] [false; false; false] = false /\
  prob (crossover Bool.eqb ltb 0 SinglePoint [true; true; true] [false; false; false]) (fun r => same_at Bool.eqb 0 r [true; true; true]) = (2 / 3)%R /\
  prob (crossover Bool.eqb ltb 0 SinglePoint [true; true; true] [false; false; false]) (fun r => same_at Bool.eqb 2 r [true; true; true]) = 0%R.
Proof. exact spx_share_example. Qed.
