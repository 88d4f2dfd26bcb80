(** * Properties_Operators: theorems about src/operators.rs (C01-C08). *)
From Coq Require Import List Bool Arith NArith Reals Permutation.
From Verif Require Import Rnd Prob MOperators Spec POperatorsRandom POperatorsNeighbors.
Import ListNotations.

(** C01: for n >= 2 two distinct indices below n, never a panic. *)
Theorem C01_random_pair_distinct :
  forall n, 2 <= n ->
  must (random_pair n) (fun r => fst r < n /\ snd r < n /\ fst r <> snd r).
Proof. exact random_pair_must. Qed.
Print Assumptions C01_random_pair_distinct.
Example C01_example : 2 <= 10 /\ run (random_pair 10) [4; 4]%N = Some (4, 5).
Proof. split; [repeat constructor|reflexivity]. Qed.

(** C01: for n < 2 it always panics. *)
Theorem C01_random_pair_panics : forall n, n < 2 -> must_fail (random_pair n) Panic.
Proof. exact random_pair_panics. Qed.
Print Assumptions C01_random_pair_panics.
Example C01_panics_example : random_pair 1 = Fail Panic.
Proof. reflexivity. Qed.

(** C02: every ordered pair of distinct indices has probability 1/(n(n-1)). *)
Theorem C02_random_pair_uniform :
  forall n a b, a < n -> b < n -> a <> b ->
  prob (random_pair n) (fun r => Nat.eqb (fst r) a && Nat.eqb (snd r) b)
  = (1 / (INR n * (INR n - 1)))%R.
Proof. exact random_pair_prob. Qed.
Print Assumptions C02_random_pair_uniform.
Example C02_example : 0 < 3 /\ 2 < 3 /\ 0 <> 2 /\ may (random_pair 3) (0, 2).
Proof. repeat split; auto; apply random_pair_reach; auto. Qed.

(** C03: admissible bounds: the range is inside 0..n and its length is in bounds. *)
Theorem C03_bounded_range_in_bounds :
  forall n min_len max_len, min_len <= max_len -> max_len <= n ->
  must (bounded_random_range n min_len max_len)
    (fun r => fst r <= snd r /\ snd r <= n /\ min_len <= snd r - fst r <= max_len).
Proof. exact bounded_random_range_must. Qed.
Print Assumptions C03_bounded_range_in_bounds.
Example C03_example : 3 <= 5 /\ 5 <= 10 /\ run (bounded_random_range 10 3 5) [1; 3]%N = Some (3, 7).
Proof. repeat split; repeat constructor. Qed.

(** C03: every admissible range can be returned. *)
Theorem C03_bounded_range_reaches_all :
  forall n min_len max_len a b, a <= b -> b <= n -> min_len <= b - a <= max_len ->
  may (bounded_random_range n min_len max_len) (a, b).
Proof. exact bounded_random_range_reach. Qed.
Print Assumptions C03_bounded_range_reaches_all.
Example C03_reach_example : 2 <= 5 /\ 5 <= 6 /\ 1 <= 5 - 2 <= 3.
Proof. repeat split; repeat constructor. Qed.

(** C03: inverted bounds always panic. *)
Theorem C03_bounded_range_inverted_panics :
  forall n min_len max_len, max_len < min_len ->
  must_fail (bounded_random_range n min_len max_len) Panic.
Proof. exact bounded_random_range_panics. Qed.
Print Assumptions C03_bounded_range_inverted_panics.

(** C03: with max_len > n some draw panics (overflow checks on). *)
Theorem C03_bounded_range_too_long_may_panic :
  forall n min_len max_len, min_len <= max_len -> n < max_len ->
  may_fail (bounded_random_range n min_len max_len) Panic.
Proof. exact bounded_random_range_may_panic. Qed.
Print Assumptions C03_bounded_range_too_long_may_panic.

(** C03: random_range returns a non-empty sub-range of 0..n, and every one. *)
Theorem C03_random_range_in_bounds :
  forall n, 1 <= n -> must (random_range n) (fun r => fst r < snd r /\ snd r <= n).
Proof. exact random_range_must. Qed.
Print Assumptions C03_random_range_in_bounds.
Theorem C03_random_range_reaches_all :
  forall n a b, a < b -> b <= n -> may (random_range n) (a, b).
Proof. exact random_range_reach. Qed.
Print Assumptions C03_random_range_reaches_all.
Theorem C03_random_range_zero_panics : must_fail (random_range 0) Panic.
Proof. exact random_range_panics. Qed.
Print Assumptions C03_random_range_zero_panics.
Example C03_random_range_example : run (random_range 10) [4; 2]%N = Some (2, 7).
Proof. reflexivity. Qed.

(** C04: the exact law of bounded_random_range and random_range. *)
Theorem C04_bounded_range_law :
  forall n min_len max_len s l, min_len <= l <= max_len -> max_len <= n -> s + l <= n ->
  prob (bounded_random_range n min_len max_len)
    (fun r => Nat.eqb (fst r) s && Nat.eqb (snd r) (s + l))
  = (1 / (INR (max_len - min_len + 1) * INR (n - l + 1)))%R.
Proof. exact bounded_random_range_prob. Qed.
Print Assumptions C04_bounded_range_law.
Example C04_example : 3 <= 4 <= 5 /\ 5 <= 10 /\ 3 + 4 <= 10.
Proof. repeat split; repeat constructor. Qed.
Theorem C04_random_range_law :
  forall n s l, 1 <= l -> s + l <= n ->
  prob (random_range n) (fun r => Nat.eqb (fst r) s && Nat.eqb (snd r) (s + l))
  = (1 / (INR n * INR (n - l + 1)))%R.
Proof. exact random_range_prob. Qed.
Print Assumptions C04_random_range_law.

(** C04: "uniformly distributed" is false for every n >= 2: the range 0..1 is
    strictly less likely than the range 0..n. *)
Theorem C04_uniform_refuted :
  forall n, 2 <= n ->
  (prob (random_range n) (fun r => Nat.eqb (fst r) 0 && Nat.eqb (snd r) 1)
   < prob (random_range n) (fun r => Nat.eqb (fst r) 0 && Nat.eqb (snd r) n))%R.
Proof. exact random_range_not_uniform. Qed.
Print Assumptions C04_uniform_refuted.

(** C05: returned pairs are cyclic neighbours in both genomes; no panic. *)
Theorem C05_common_neighbors_sound :
  forall (G : Type) (eqb ltb : G -> G -> bool), eq_ok eqb ->
  forall g1 g2 : list G,
  must (common_neighbors eqb ltb g1 g2)
    (fun r => forall a b, In (a, b) r -> cyc_adj g1 a b /\ cyc_adj g2 a b).
Proof. exact @common_neighbors_sound. Qed.
Print Assumptions C05_common_neighbors_sound.
Example C05_example :
  eq_ok Nat.eqb /\
  common_neighbors Nat.eqb Nat.ltb [1; 2; 3; 4; 5] [1; 3; 2; 4; 5] = Ret [(2, 3); (4, 5); (1, 5)].
Proof. split; [exact Nat.eqb_eq|reflexivity]. Qed.

(** C06: for genome1 of at least 2 and genome2 of at least 3 genes, exactly the
    pairs adjacent in both genomes, smaller gene first. *)
Theorem C06_common_neighbors_exact :
  forall (G : Type) (eqb ltb : G -> G -> bool), eq_ok eqb ->
  forall g1 g2 : list G, lt_total ltb -> (forall a, ltb a a = false) ->
  2 <= length g1 -> 3 <= length g2 ->
  must (common_neighbors eqb ltb g1 g2)
    (fun r => forall a b, In (a, b) r <-> ltb b a = false /\ cyc_adj g1 a b /\ cyc_adj g2 a b).
Proof. exact @common_neighbors_exact. Qed.
Print Assumptions C06_common_neighbors_exact.
Example C06_example :
  lt_total Nat.ltb /\ (forall a, Nat.ltb a a = false) /\
  2 <= length [1; 2; 3; 4; 5] /\ 3 <= length [1; 3; 2; 4; 5].
Proof.
  repeat split; try (repeat constructor); [|exact Nat.ltb_irrefl].
  intros a b H; rewrite <- Nat.leb_antisym.
  destruct (Nat.leb_spec a b) as [H1|H1]; [apply Nat.ltb_lt|apply Nat.ltb_ge, Nat.lt_le_incl; exact H1].
  apply Nat.le_neq; split; assumption.
Qed.

(** C06: without the length condition completeness fails, and the answer depends
    on the order of the arguments. *)
Theorem C06_short_genome_refuted :
  exists g1 g2 : list nat,
    cyc_adj g1 0 1 /\ cyc_adj g2 0 1 /\
    common_neighbors Nat.eqb Nat.ltb g1 g2 = Ret [] /\
    common_neighbors Nat.eqb Nat.ltb g2 g1 = Ret [(0, 1); (0, 1)].
Proof.
  exists [0; 1; 2], [0; 1].
  repeat split; try reflexivity; left; exists 0; split; reflexivity.
Qed.
Print Assumptions C06_short_genome_refuted.

(** C07: the partitions of common_partitions partition genome1 (each gene in
    exactly one), are non-empty, and their consecutive genes are cyclic
    neighbours in both genomes. *)
Theorem C07_common_partitions :
  forall (G : Type) (eqb ltb : G -> G -> bool) (g1 g2 : list G),
  eq_ok eqb -> NoDup g1 ->
  must (common_partitions eqb ltb g1 g2) (fun ps =>
    Permutation g1 (concat ps) /\
    (forall p, In p ps -> p <> []) /\
    (forall p a b, In p ps -> consec p a b -> cyc_adj g1 a b /\ cyc_adj g2 a b)).
Proof. exact @common_partitions_spec. Qed.
Print Assumptions C07_common_partitions.

(** C07: each partition starts at the first gene of genome1 not yet in a
    partition and cannot be extended at its end. *)
Theorem C07_common_partitions_order :
  forall (G : Type) (eqb ltb : G -> G -> bool) (g1 g2 : list G),
  eq_ok eqb -> lt_total ltb -> 2 <= length g1 -> 3 <= length g2 ->
  must (common_partitions eqb ltb g1 g2) (fun ps =>
    forall before p after, ps = before ++ p :: after ->
      (forall z b, last (map Some p) None = Some z -> cyc_adj g1 z b -> cyc_adj g2 z b ->
         In b (concat before ++ p)) /\
      (exists h t, p = h :: t /\ first_not_in g1 (concat before) h)).
Proof. exact @common_partitions_order. Qed.
Print Assumptions C07_common_partitions_order.
Example C07_example :
  NoDup [1; 2; 3; 4; 5] /\
  common_partitions Nat.eqb Nat.ltb [1; 2; 3; 4; 5] [1; 3; 2; 4; 5] = Ret [[1; 5; 4]; [2; 3]].
Proof.
  split; [|reflexivity].
  repeat constructor; cbn; intuition discriminate.
Qed.

(** C08: the genes of a partition need not be in the order of the parents: in the
    documented example 5 comes right before 4 in a partition, but 4 comes before
    5 in both parents. *)
Theorem C08_order_refuted :
  exists (g1 g2 p : list nat) rest a b,
    NoDup g1 /\ Permutation g1 g2 /\
    common_partitions Nat.eqb Nat.ltb g1 g2 = Ret (p :: rest) /\
    consec p a b /\ consec g1 b a /\ consec g2 b a /\ ~ consec g1 a b /\ ~ consec g2 a b.
Proof. exact partition_order_witness. Qed.
Print Assumptions C08_order_refuted.

(** C08: a run common to both parents can be split into two partitions: the last
    gene of one partition is a neighbour, in both parents, of the first gene of
    another one. *)
Theorem C08_maximal_refuted :
  exists (g1 g2 p q : list nat) ps a b,
    NoDup g1 /\ Permutation g1 g2 /\
    common_partitions Nat.eqb Nat.ltb g1 g2 = Ret ps /\
    nth_error ps 0 = Some p /\ nth_error ps 2 = Some q /\
    hd_error p = Some a /\ last (map Some q) None = Some b /\
    cyc_adj g1 b a /\ cyc_adj g2 b a.
Proof. exact partition_maximal_witness. Qed.
Print Assumptions C08_maximal_refuted.
