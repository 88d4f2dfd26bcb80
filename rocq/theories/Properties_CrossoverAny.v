(** * Properties_CrossoverAny: crossovers of arbitrary parents (C86-C88). *)
From Coq Require Import List Bool Arith NArith Permutation.
From Verif Require Import Rnd MOperators MCrossover Spec SpecC PCrossoverAll PCrossoverAny PCrossoverAny2
  PCrossoverAny3 PCrossoverSame DocExamples.
Import ListNotations.

(** C86: what a crossover returns when the parents are arbitrary gene lists. *)
Theorem C86_any_parents :
  forall (G : Type) (eqb ltb : G -> G -> bool), eq_ok eqb ->
  forall (fuel : nat) (s : crossover_strategy) (p1 p2 r : list G),
  may (crossover eqb ltb fuel s p1 p2) r ->
  (forall x, In x r -> In x p1 \/ In x p2) /\
  (s <> GeneralizedPartition2 -> length r = length p1 /\ length p2 = length p1) /\
  match s with
  | GeneralizedPartition2 => NoDup r /\ forall x, In x r <-> In x p1
  | SequentialConstructive | EdgeRecombination => NoDup r
  | Cycle | SinglePoint => forall i, nth_error r i = nth_error p1 i \/ nth_error r i = nth_error p2 i
  | PartiallyMapped | Order => True
  end.
Proof. exact @crossover_any. Qed.
Print Assumptions C86_any_parents.
Theorem C86_pmx_any_parents :
  forall (G : Type) (eqb : G -> G -> bool), eq_ok eqb ->
  forall (fuel : nat) (p1 p2 : list G) (a b : nat) (r : list G),
  length p1 = length p2 -> 2 <= length p1 -> a <= b -> b <= length p1 ->
  may (partially_mapped_crossover eqb fuel p1 p2 (a, b)) r ->
  length r = length p1 /\
  (forall i, a <= i < b -> nth_error r i = nth_error p1 i) /\
  (forall i g, ~ (a <= i < b) -> nth_error p2 i = Some g ->
     exists x, nth_error r i = Some x /\ pmx_chain (segment p1 a b) (segment p2 a b) g x).
Proof. exact @pmx_any. Qed.
Print Assumptions C86_pmx_any_parents.
Theorem C86_ox_any_parents :
  forall (G : Type) (eqb : G -> G -> bool), eq_ok eqb ->
  forall (p1 p2 : list G), length p1 = length p2 ->
  forall (a b : nat), a < b -> b <= length p1 ->
  forall (fuel : nat) (r : list G) (keep : G -> bool) (m : nat), 2 <= length p1 ->
  may (order_crossover eqb fuel p1 p2 (a, b)) r ->
  (forall g, keep g = true <-> ~ In g (segment p1 a b)) -> length p1 - (b - a) <= m ->
  length r = length p1 /\ (forall i, a <= i < b -> nth_error r i = nth_error p1 i) /\
  rotated r b =
    firstn (length p1 - (b - a)) (repeated (filter keep (rotated p2 b)) m) ++ segment p1 a b.
Proof. exact @ox_any. Qed.
Print Assumptions C86_ox_any_parents.
Theorem C86_too_few_genes_panic :
  forall (G : Type) (eqb : G -> G -> bool), eq_ok eqb ->
  forall (p1 p2 genes : list G) (pivot : G), 2 <= length p1 ->
  (forall x, In x p1 \/ In x p2 -> In x genes) -> length genes < length p1 ->
  must_fail (sequential_constructive_crossover eqb p1 p2 pivot) Panic /\
  must_fail (edge_recombination_crossover eqb p1 p2 pivot) Panic.
Proof. exact @both_few. Qed.
Print Assumptions C86_too_few_genes_panic.
(** Parents over two genes: PMX and OX answer with repeated genes, SCX and ERX
    cannot fill four positions. *)
Example C86_example :
  may (crossover Nat.eqb Nat.ltb 20 PartiallyMapped [0; 1; 0; 1] [1; 2; 0; 0]) [0; 1; 2; 2] /\
  may (crossover Nat.eqb Nat.ltb 20 Order [0; 0; 0; 0] [1; 0; 0; 0]) [1; 0; 1; 1] /\
  (forall x, In x [0; 0; 1; 1] \/ In x [0; 1; 0; 1] -> In x [0; 1]) /\ length [0; 1] < length [0; 0; 1; 1].
Proof. exact any_parents_example. Qed.

(** C87: which crossovers come to an end. *)
Theorem C87_strategies_end :
  forall (G : Type) (eqb ltb : G -> G -> bool), eq_ok eqb ->
  forall (fuel : nat) (s : crossover_strategy) (p1 p2 : list G),
  s <> PartiallyMapped -> s <> Order -> ~ may_fail (crossover eqb ltb fuel s p1 p2) NoFuel.
Proof. exact @crossover_halts. Qed.
Print Assumptions C87_strategies_end.
Theorem C87_operators_end :
  forall (G : Type) (eqb : G -> G -> bool) (p1 p2 : list G),
  (forall pivot, ~ may_fail (sequential_constructive_crossover eqb p1 p2 pivot) NoFuel) /\
  (forall pivot, ~ may_fail (edge_recombination_crossover eqb p1 p2 pivot) NoFuel) /\
  ~ may_fail (cycle_crossover eqb p1 p2) NoFuel /\
  (forall point, ~ may_fail (single_point_crossover p1 p2 point) NoFuel).
Proof. exact @operators_halt. Qed.
Print Assumptions C87_operators_end.
Theorem C87_pmx_ends_iff :
  forall (G : Type) (eqb : G -> G -> bool), eq_ok eqb ->
  forall (p1 p2 : list G) (a b : nat),
  length p1 = length p2 -> 2 <= length p1 -> a <= b -> b <= length p1 ->
  (exists fuel, must (partially_mapped_crossover eqb fuel p1 p2 (a, b)) (fun _ => True)) <->
  (forall i g, ~ (a <= i < b) -> nth_error p2 i = Some g ->
     exists x, pmx_chain (segment p1 a b) (segment p2 a b) g x).
Proof. exact @pmx_ends_iff. Qed.
Print Assumptions C87_pmx_ends_iff.
Theorem C87_pmx_fuel :
  forall (G : Type) (eqb : G -> G -> bool), eq_ok eqb ->
  forall (fuel : nat) (p1 p2 : list G) (a b : nat),
  length p1 = length p2 -> 2 <= length p1 -> a <= b -> b <= length p1 -> b - a < fuel ->
  (forall i g, ~ (a <= i < b) -> nth_error p2 i = Some g ->
     exists x, pmx_chain (segment p1 a b) (segment p2 a b) g x) ->
  must (partially_mapped_crossover eqb fuel p1 p2 (a, b)) (fun _ => True).
Proof. exact @pmx_ends. Qed.
Print Assumptions C87_pmx_fuel.
Theorem C87_pmx_hangs :
  forall (G : Type) (eqb : G -> G -> bool), eq_ok eqb ->
  forall (fuel : nat) (p1 p2 : list G) (a b : nat),
  length p1 = length p2 -> 2 <= length p1 -> a <= b -> b <= length p1 ->
  (exists i g, ~ (a <= i < b) /\ nth_error p2 i = Some g /\
     forall x, ~ pmx_chain (segment p1 a b) (segment p2 a b) g x) ->
  must_fail (partially_mapped_crossover eqb fuel p1 p2 (a, b)) NoFuel.
Proof. exact @pmx_hangs. Qed.
Print Assumptions C87_pmx_hangs.
Theorem C87_ox_ends_iff :
  forall (G : Type) (eqb : G -> G -> bool), eq_ok eqb ->
  forall (p1 p2 : list G), length p1 = length p2 ->
  forall (a b : nat), a < b -> b <= length p1 -> 2 <= length p1 ->
  (exists fuel, must (order_crossover eqb fuel p1 p2 (a, b)) (fun _ => True)) <->
  (b - a = length p1 \/ exists g, In g p2 /\ ~ In g (segment p1 a b)).
Proof. exact @ox_ends_iff. Qed.
Print Assumptions C87_ox_ends_iff.
Theorem C87_ox_fuel :
  forall (G : Type) (eqb : G -> G -> bool), eq_ok eqb ->
  forall (p1 p2 : list G), length p1 = length p2 ->
  forall (a b : nat), a < b -> b <= length p1 ->
  forall (fuel : nat), 2 <= length p1 -> length p1 * length p1 < fuel ->
  (b - a = length p1 \/ exists g, In g p2 /\ ~ In g (segment p1 a b)) ->
  must (order_crossover eqb fuel p1 p2 (a, b)) (fun _ => True).
Proof. exact @ox_ends. Qed.
Print Assumptions C87_ox_fuel.
Theorem C87_ox_hangs :
  forall (G : Type) (eqb : G -> G -> bool), eq_ok eqb ->
  forall (p1 p2 : list G), length p1 = length p2 ->
  forall (a b : nat), a < b -> b <= length p1 ->
  forall (fuel : nat), b - a < length p1 -> (forall g, In g p2 -> In g (segment p1 a b)) ->
  must_fail (order_crossover eqb fuel p1 p2 (a, b)) NoFuel.
Proof. exact @ox_hangs. Qed.
Print Assumptions C87_ox_hangs.
(** One pair of parents for each side of the two characterisations. *)
Example C87_example :
  pmx_chain (segment [0; 1; 0; 1] 0 2) (segment [1; 2; 0; 0] 0 2) 0 2 /\
  (forall x, ~ pmx_chain (segment [0; 1; 2] 0 1) (segment [0; 1; 0] 0 1) 0 x) /\
  (In 1 [1; 0; 0; 0] /\ ~ In 1 (segment [0; 0; 0; 0] 1 2)) /\
  (forall g, In g [0; 0; 0] -> In g (segment [0; 1; 2] 0 1)).
Proof. exact ends_example. Qed.

(** C88: a genome crossed with itself gives the same closed tour. *)
Theorem C88_same_tour :
  forall (G : Type) (eqb ltb : G -> G -> bool), eq_ok eqb ->
  forall (p : list G), NoDup p ->
  forall (fuel : nat) (s : crossover_strategy), p <> [] -> length p < fuel ->
  must (crossover eqb ltb fuel s p p) (fun r => turned p r \/ turned (rev p) r).
Proof. exact @crossover_same. Qed.
Print Assumptions C88_same_tour.
Theorem C88_scx_same :
  forall (G : Type) (eqb : G -> G -> bool), eq_ok eqb ->
  forall (p : list G), NoDup p ->
  forall (k : nat) (pivot : G), nth_error p k = Some pivot ->
  must (sequential_constructive_crossover eqb p p pivot) (fun r => r = rotated p k).
Proof. exact (fun G eqb => @PCrossoverSame.scx_same G eqb eqb). Qed.
Print Assumptions C88_scx_same.
Theorem C88_erx_same :
  forall (G : Type) (eqb : G -> G -> bool), eq_ok eqb ->
  forall (p : list G), NoDup p ->
  forall (k : nat) (pivot : G), nth_error p k = Some pivot ->
  must (edge_recombination_crossover eqb p p pivot)
    (fun r => r = rotated p k \/ r = rotated (rev p) (length p - 1 - k)).
Proof. exact @erx_same. Qed.
Print Assumptions C88_erx_same.
Theorem C88_gpx2_same :
  forall (G : Type) (eqb ltb : G -> G -> bool), eq_ok eqb ->
  forall (p : list G), NoDup p ->
  forall (S0 : Type) (sel : S0 -> option G -> list (list G) -> M (nat * S0)) (s : S0),
  (forall s o ps, ps <> [] -> must (sel s o ps) (fun r => fst r < length ps)) ->
  must (generalized_partition_2_crossover eqb ltb p p sel s) (fun r => turned p r \/ turned (rev p) r).
Proof. exact @gpx2_same. Qed.
Print Assumptions C88_gpx2_same.
(** SCX turns the genome, ERX can also reverse it. *)
Example C88_example :
  NoDup parent1 /\ parent1 <> [] /\ length parent1 < 11 /\
  run (sequential_constructive_crossover Nat.eqb parent1 parent1 3) [] = Some (rotated parent1 3) /\
  may (edge_recombination_crossover Nat.eqb [0; 1; 2; 3] [0; 1; 2; 3] 1) (rotated (rev [0; 1; 2; 3]) 2).
Proof. exact same_example. Qed.
