(** * Properties_Laws: the distributions of the crossover strategies (C93), the
    outcomes of breed (C94), nested runs (C95) and the default parameters (C56). *)
From Coq Require Import List Bool Arith NArith Reals Permutation Factorial.
From Verif Require Import Rnd Prob F64 MOperators MCrossover MStats MPopulation MSelection MModel MAlgorithms
  Spec SpecF SpecA SpecB PCrossoverLaw PBreed PNested DocExamples ExF ExM ExR.
Import ListNotations.

(** C93: single point crossover cuts at each of the n positions 0 .. n-1 with the
    same probability. *)
Theorem C93_single_point_law :
  forall (G : Type) (eqb ltb : G -> G -> bool) (fuel : nat) (p1 p2 : list G) (P : list G -> bool),
  length p1 = length p2 -> p1 <> [] ->
  prob (crossover eqb ltb fuel SinglePoint p1 p2) P =
  (Rsum (length p1) (fun c => if P (firstn c p1 ++ skipn c p2) then 1 else 0) / INR (length p1))%R.
Proof. exact @spx_law. Qed.
Print Assumptions C93_single_point_law.

(** C93: PMX and OX use a range of uniform length 1 .. n and, given the length, of
    uniform start. *)
Theorem C93_partially_mapped_law :
  forall (G : Type) (eqb ltb : G -> G -> bool) (fuel : nat) (p1 p2 : list G) (P : list G -> bool), p1 <> [] ->
  prob (crossover eqb ltb fuel PartiallyMapped p1 p2) P =
  (Rsum (length p1) (fun k => Rsum (length p1 - k) (fun s =>
     prob (partially_mapped_crossover eqb fuel p1 p2 (s, (s + S k)%nat)) P) / INR (length p1 - k)) / INR (length p1))%R.
Proof. exact @pmx_law. Qed.
Print Assumptions C93_partially_mapped_law.
Theorem C93_order_law :
  forall (G : Type) (eqb ltb : G -> G -> bool) (fuel : nat) (p1 p2 : list G) (P : list G -> bool), p1 <> [] ->
  prob (crossover eqb ltb fuel Order p1 p2) P =
  (Rsum (length p1) (fun k => Rsum (length p1 - k) (fun s =>
     prob (order_crossover eqb fuel p1 p2 (s, (s + S k)%nat)) P) / INR (length p1 - k)) / INR (length p1))%R.
Proof. exact @ox_law. Qed.
Print Assumptions C93_order_law.

(** C93: SCX and ERX start from each gene of parent1 with the same probability ... *)
Theorem C93_sequential_constructive_law :
  forall (G : Type) (eqb ltb : G -> G -> bool) (fuel : nat) (p1 p2 : list G) (P : list G -> bool) (d : G), p1 <> [] ->
  prob (crossover eqb ltb fuel SequentialConstructive p1 p2) P =
  (Rsum (length p1) (fun i => prob (sequential_constructive_crossover eqb p1 p2 (nth i p1 d)) P) / INR (length p1))%R.
Proof. exact @scx_law. Qed.
Print Assumptions C93_sequential_constructive_law.
Theorem C93_edge_recombination_law :
  forall (G : Type) (eqb ltb : G -> G -> bool) (fuel : nat) (p1 p2 : list G) (P : list G -> bool) (d : G), p1 <> [] ->
  prob (crossover eqb ltb fuel EdgeRecombination p1 p2) P =
  (Rsum (length p1) (fun i => prob (edge_recombination_crossover eqb p1 p2 (nth i p1 d)) P) / INR (length p1))%R.
Proof. exact @erx_law. Qed.
Print Assumptions C93_edge_recombination_law.
(** ... so on permutation parents each gene is the first of the offspring with
    probability 1/n. *)
Theorem C93_first_gene_uniform :
  forall (G : Type) (eqb ltb : G -> G -> bool), eq_ok eqb ->
  forall (fuel : nat) (s : crossover_strategy) (p1 p2 : list G) (x : G) (P : list G -> bool),
  s = SequentialConstructive \/ s = EdgeRecombination ->
  perm_parents p1 p2 -> In x p1 -> (forall r, P r = true <-> hd_error r = Some x) ->
  prob (crossover eqb ltb fuel s p1 p2) P = (1 / INR (length p1))%R.
Proof. exact @first_gene_uniform. Qed.
Print Assumptions C93_first_gene_uniform.

(** C93: GPX2 puts the common partitions in each of their k! orders with the same
    probability. *)
Theorem C93_partition_orders_uniform :
  forall (G : Type) (eqb ltb : G -> G -> bool), eq_ok eqb ->
  forall (fuel : nat) (p1 p2 : list G) (ps qs : list (list G)) (P : list G -> bool),
  common_partitions eqb ltb p1 p2 = Ret ps -> Permutation ps qs ->
  (forall r, P r = true <-> r = concat qs) ->
  prob (crossover eqb ltb fuel GeneralizedPartition2 p1 p2) P = (/ INR (fact (length ps)))%R.
Proof. exact @gpx2_uniform. Qed.
Print Assumptions C93_partition_orders_uniform.
Example C93_example :
  perm_parents parent1 parent2 /\ In 3 parent1 /\
  common_partitions Nat.eqb Nat.ltb parent1 parent2 = Ret [[0; 9; 8]; [1; 2; 3]; [4; 5; 6]; [7]].
Proof. exact c93_example. Qed.

(** C94: the possible results of breed, exactly: parents in the order of their
    selection, the second one different from the first; their crossover, perhaps
    mutated, improved and evaluated; it survives or the fitter parent (the first
    one on a tie) takes its place. *)
Theorem C94_breed_outcomes :
  forall (I : Type) (io : individual_ops I) (fexp : f64 -> f64) (MS : Type) (mdl : model I MS)
    (ms : MS) (p : population I) (b : breeding I) (x : I),
  may (breed io fexp mdl ms p b) x <->
  exists i a second, may (select io fexp (parent_selector b) p) (i, a) /\
    second_parent io fexp p b a second /\ offspring_of io mdl ms p b a second x.
Proof. exact @breed_iff. Qed.
Print Assumptions C94_breed_outcomes.
Example C94_example :
  second_parent ex_io ex_exp (ex_popn ex_io [4; 5; 6]) (mkBreeding f1 f0 (Tournament 1)) 4 (Some 6) /\
  ~ second_parent ex_io ex_exp (ex_popn ex_io [4; 5; 6]) (mkBreeding f1 f0 (Tournament 1)) 4 (Some 4) /\
  offspring_of ex_io ex_model tt (ex_popn ex_io [4; 5; 6]) (mkBreeding f1 f0 (Tournament 1)) 4 (Some 6) 10.
Proof. exact c94_example. Qed.

(** C95: a run started by the progress closure on the same Evolution value
    reconfigures the run around it: from the next generation on the populations
    are as large as the parameters of the inner run allow ... *)
Theorem C95_ga_nested_run :
  forall (I : Type) (io : individual_ops I) (fexp : f64 -> f64) (MS : Type) (mdl : model I MS) (PS PS' : Type)
    (g fuel' : nat) (init' : list I) (q q' : ga_params) (f' : PS' -> population I -> M (bool * PS')) (ps' : PS')
    (f : PS -> population I -> M (bool * PS)) (fuel : nat) (s : ga_state I MS) (init : list I) (ps : PS)
    (r : run_result I (ga_state I MS) PS),
  fits_usize (ga_population_size q) -> fits_usize (ga_population_size q') ->
  may (evolve_population io fexp mdl (ga_algorithm io fexp mdl)
         (nested_at io fexp mdl (ga_algorithm io fexp mdl) g fuel' init' q' f' ps' f) fuel s init q ps) r ->
  forall k p, nth_error (r_trace r) k = Some p -> 0 < k ->
  length (individuals p) <= (if k <=? g then ga_population_size q else ga_population_size q').
Proof. exact @ga_nested. Qed.
Print Assumptions C95_ga_nested_run.
Theorem C95_aga_nested_run :
  forall (I : Type) (io : individual_ops I) (fexp : f64 -> f64) (MS : Type) (mdl : model I MS) (PS PS' : Type)
    (g fuel' : nat) (init' : list I) (q q' : aga_params) (f' : PS' -> population I -> M (bool * PS')) (ps' : PS')
    (f : PS -> population I -> M (bool * PS)) (fuel : nat) (s : aga_state I MS) (init : list I) (ps : PS)
    (r : run_result I (aga_state I MS) PS),
  fits_usize (aga_population_size q) -> fits_usize (aga_population_size q') ->
  may (evolve_population io fexp mdl (aga_algorithm io fexp mdl)
         (nested_at io fexp mdl (aga_algorithm io fexp mdl) g fuel' init' q' f' ps' f) fuel s init q ps) r ->
  forall k p, nth_error (r_trace r) k = Some p -> 0 < k ->
  length (individuals p) <= (if k <=? g then aga_population_size q else aga_population_size q').
Proof. exact @aga_nested. Qed.
Print Assumptions C95_aga_nested_run.
(** ... and can exceed the population size the outer run was given: C64 needs the
    closure to leave the Evolution value alone. *)
Theorem C95_own_size_refuted : exists (r : run_result nat (ga_state nat unit) unit) (p : population nat),
  may (evolve_population ex_io ex_exp ex_model (ga_algorithm ex_io ex_exp ex_model)
    (nested_at ex_io ex_exp ex_model (ga_algorithm ex_io ex_exp ex_model) 0 1 [1; 2] (ex_ga 6) (stop_at 0) tt (stop_at 1))
    2 (ga_from tt) [1; 2] (ex_ga 2) tt) r /\
  nth_error (r_trace r) 1 = Some p /\ ga_population_size (ex_ga 2) < length (individuals p).
Proof. exact nested_refuted. Qed.
Print Assumptions C95_own_size_refuted.

(** C56: the documented default values. *)
Theorem C56_default_values :
  (ga_population_size ga_params_default = 100 /\
   closest (ga_elitism_rate ga_params_default) (1 / 100) /\
   closest (ga_crossover_rate ga_params_default) (8 / 10) /\
   closest (ga_mutation_rate ga_params_default) (1 / 10) /\
   ga_selection_strategy ga_params_default = StRouletteWheel) /\
  (aga_population_size aga_params_default = 100 /\
   closest (aga_elitism_rate aga_params_default) (1 / 100) /\
   closest (fst (aga_crossover_rate_range aga_params_default)) (3 / 10) /\
   closest (snd (aga_crossover_rate_range aga_params_default)) 1 /\
   closest (fst (aga_mutation_rate_range aga_params_default)) (1 / 10) /\
   closest (snd (aga_mutation_rate_range aga_params_default)) 1 /\
   aga_selection_strategy aga_params_default = StRouletteWheel /\
   aga_parameter_adjustment_interval aga_params_default = 1) /\
  (closest (crossover_rate (breeding_default (I := unit))) (8 / 10) /\
   closest (mutation_rate (breeding_default (I := unit))) (1 / 10) /\
   parent_selector (breeding_default (I := unit)) = roulette_new).
Proof. exact default_values. Qed.
Print Assumptions C56_default_values.
