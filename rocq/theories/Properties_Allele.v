(** * Properties_Allele: what crossover keeps, and runs without mutation (C111). *)
From Coq Require Import List Bool Arith NArith ZArith Permutation.
From Verif Require Import Rnd F64 MOperators MCrossover MMutation MPopulation MSelection MModel MAlgorithms MOneMax
  Spec SpecF SpecA SpecT SpecY ExF ExM ExR ExY PAllele PAlleleEx.
Import ListNotations.
Local Open Scope nat_scope.

(** C111: what both parents have at a position every offspring has there, with CX and
    SPX for any parents, with PMX when no gene of parent1 repeats. *)
Theorem C111_agreement_kept :
  forall (G : Type) (eqb ltb : G -> G -> bool), eq_ok eqb ->
  forall (fuel : nat) (s : crossover_strategy) (p1 p2 r : list G) (i : nat) (g : G),
  positional s \/ s = PartiallyMapped /\ NoDup p1 ->
  may (crossover eqb ltb fuel s p1 p2) r -> holds_at i g p1 -> holds_at i g p2 -> holds_at i g r.
Proof. exact @crossover_agree. Qed.
Print Assumptions C111_agreement_kept.
(** The other strategies do not keep it. *)
Theorem C111_agreement_refuted :
  forall s : crossover_strategy, ~ positional s -> s <> PartiallyMapped ->
  exists (p1 p2 r : list nat) (i g : nat), perm_parents p1 p2 /\ length p1 < 5 /\
    may (crossover Nat.eqb Nat.ltb 5 s p1 p2) r /\ holds_at i g p1 /\ holds_at i g p2 /\ ~ holds_at i g r.
Proof. exact others_break. Qed.
Print Assumptions C111_agreement_refuted.
(** PMX can put a gene where neither parent has it. *)
Theorem C111_pmx_positional_refuted :
  exists (p1 p2 r : list nat) (i g : nat), perm_parents p1 p2 /\ length p1 < 5 /\
    may (crossover Nat.eqb Nat.ltb 5 PartiallyMapped p1 p2) r /\ ~ holds_at i g p1 /\ ~ holds_at i g p2 /\ holds_at i g r.
Proof. exact pmx_invents. Qed.
Print Assumptions C111_pmx_positional_refuted.

(** C111: whatever crossover, improvement and evaluation keep holds throughout a run
    whose mutation rate is not above 0, whatever mutation does. *)
Theorem C111_ga_without_mutation :
  forall (I : Type) (io : individual_ops I) (fexp : f64 -> f64) (MS : Type) (mdl : model I MS) (PS : Type) (raw good : I -> Prop)
    (f : PS -> population I -> M (bool * PS)) (fuel : nat) (s : ga_state I MS) (init : list I) (q : ga_params) (ps : PS)
    (r : run_result I (ga_state I MS) PS),
  crossing_keeps mdl raw good -> selector_left_alone mdl -> rates_left_alone mdl ->
  fits_usize (ga_population_size q) -> fits_usize (length init) -> Forall raw init ->
  flt f0 (ga_mutation_rate q) = false ->
  may (evolve_population io fexp mdl (ga_algorithm io fexp mdl) (quiet f) fuel s init q ps) r ->
  forall p x, In p (r_trace r) -> In x (individuals p) -> good x.
Proof. exact @ga_crossing. Qed.
Print Assumptions C111_ga_without_mutation.
Theorem C111_aga_without_mutation :
  forall (I : Type) (io : individual_ops I) (fexp : f64 -> f64) (MS : Type) (mdl : model I MS) (PS : Type) (raw good : I -> Prop)
    (f : PS -> population I -> M (bool * PS)) (fuel : nat) (s : aga_state I MS) (init : list I) (q : aga_params) (ps : PS)
    (r : run_result I (aga_state I MS) PS),
  crossing_keeps mdl raw good -> selector_left_alone mdl -> rates_left_alone mdl ->
  fits_usize (aga_population_size q) -> fits_usize (length init) -> Forall raw init ->
  flt f0 (fst (aga_mutation_rate_range q)) = false -> flt f0 (snd (aga_mutation_rate_range q)) = false ->
  may (evolve_population io fexp mdl (aga_algorithm io fexp mdl) (quiet f) fuel s init q ps) r ->
  forall p x, In p (r_trace r) -> In x (individuals p) -> good x.
Proof. exact @aga_crossing. Qed.
Print Assumptions C111_aga_without_mutation.

(** C111: a position at which all initial tours agree stays as it is ... *)
Theorem C111_ga_tour_agreement :
  forall (G : Type) (eqb ltb : G -> G -> bool) (steps : nat) (cs : crossover_strategy) (mu : mutation_strategy) (score : list G -> f64),
  eq_ok eqb -> forall (PS : Type) (fexp : f64 -> f64) (cities : list G) (i : nat) (g : G)
    (f : PS -> population (tour G) -> M (bool * PS)) (fuel : nat) (s : ga_state (tour G) unit) (init : list (tour G)) (q : ga_params) (ps : PS)
    (r : run_result (tour G) (ga_state (tour G) unit) PS),
  positional cs \/ cs = PartiallyMapped /\ NoDup cities /\ length cities < steps ->
  (cs = PartiallyMapped -> forall x, In x init -> Permutation cities (route x)) ->
  (forall x, In x init -> holds_at i g (route x)) ->
  fits_usize (ga_population_size q) -> fits_usize (length init) -> flt f0 (ga_mutation_rate q) = false ->
  may (evolve_population (tour_ops eqb) fexp (tour_model eqb ltb steps cs mu score)
    (ga_algorithm (tour_ops eqb) fexp (tour_model eqb ltb steps cs mu score)) (quiet f) fuel s init q ps) r ->
  forall p x, In p (r_trace r) -> In x (individuals p) -> holds_at i g (route x).
Proof. exact @ga_fixed. Qed.
Print Assumptions C111_ga_tour_agreement.
Theorem C111_aga_tour_agreement :
  forall (G : Type) (eqb ltb : G -> G -> bool) (steps : nat) (cs : crossover_strategy) (mu : mutation_strategy) (score : list G -> f64),
  eq_ok eqb -> forall (PS : Type) (fexp : f64 -> f64) (cities : list G) (i : nat) (g : G)
    (f : PS -> population (tour G) -> M (bool * PS)) (fuel : nat) (s : aga_state (tour G) unit) (init : list (tour G)) (q : aga_params) (ps : PS)
    (r : run_result (tour G) (aga_state (tour G) unit) PS),
  positional cs \/ cs = PartiallyMapped /\ NoDup cities /\ length cities < steps ->
  (cs = PartiallyMapped -> forall x, In x init -> Permutation cities (route x)) ->
  (forall x, In x init -> holds_at i g (route x)) ->
  fits_usize (aga_population_size q) -> fits_usize (length init) ->
  flt f0 (fst (aga_mutation_rate_range q)) = false -> flt f0 (snd (aga_mutation_rate_range q)) = false ->
  may (evolve_population (tour_ops eqb) fexp (tour_model eqb ltb steps cs mu score)
    (aga_algorithm (tour_ops eqb) fexp (tour_model eqb ltb steps cs mu score)) (quiet f) fuel s init q ps) r ->
  forall p x, In p (r_trace r) -> In x (individuals p) -> holds_at i g (route x).
Proof. exact @aga_fixed. Qed.
Print Assumptions C111_aga_tour_agreement.
(** ... and with CX and SPX a gene that no initial tour has at a position never gets there. *)
Theorem C111_ga_tour_lost_gene :
  forall (G : Type) (eqb ltb : G -> G -> bool) (steps : nat) (cs : crossover_strategy) (mu : mutation_strategy) (score : list G -> f64),
  eq_ok eqb -> forall (PS : Type) (fexp : f64 -> f64) (i : nat) (g : G)
    (f : PS -> population (tour G) -> M (bool * PS)) (fuel : nat) (s : ga_state (tour G) unit) (init : list (tour G)) (q : ga_params) (ps : PS)
    (r : run_result (tour G) (ga_state (tour G) unit) PS),
  positional cs -> (forall x, In x init -> ~ holds_at i g (route x)) ->
  fits_usize (ga_population_size q) -> fits_usize (length init) -> flt f0 (ga_mutation_rate q) = false ->
  may (evolve_population (tour_ops eqb) fexp (tour_model eqb ltb steps cs mu score)
    (ga_algorithm (tour_ops eqb) fexp (tour_model eqb ltb steps cs mu score)) (quiet f) fuel s init q ps) r ->
  forall p x, In p (r_trace r) -> In x (individuals p) -> ~ holds_at i g (route x).
Proof. exact @ga_lost. Qed.
Print Assumptions C111_ga_tour_lost_gene.
Theorem C111_aga_tour_lost_gene :
  forall (G : Type) (eqb ltb : G -> G -> bool) (steps : nat) (cs : crossover_strategy) (mu : mutation_strategy) (score : list G -> f64),
  eq_ok eqb -> forall (PS : Type) (fexp : f64 -> f64) (i : nat) (g : G)
    (f : PS -> population (tour G) -> M (bool * PS)) (fuel : nat) (s : aga_state (tour G) unit) (init : list (tour G)) (q : aga_params) (ps : PS)
    (r : run_result (tour G) (aga_state (tour G) unit) PS),
  positional cs -> (forall x, In x init -> ~ holds_at i g (route x)) ->
  fits_usize (aga_population_size q) -> fits_usize (length init) ->
  flt f0 (fst (aga_mutation_rate_range q)) = false -> flt f0 (snd (aga_mutation_rate_range q)) = false ->
  may (evolve_population (tour_ops eqb) fexp (tour_model eqb ltb steps cs mu score)
    (aga_algorithm (tour_ops eqb) fexp (tour_model eqb ltb steps cs mu score)) (quiet f) fuel s init q ps) r ->
  forall p x, In p (r_trace r) -> In x (individuals p) -> ~ holds_at i g (route x).
Proof. exact @aga_lost. Qed.
Print Assumptions C111_aga_tour_lost_gene.
(** C111: a bit that all initial OneMax genomes share stays shared. *)
Theorem C111_ga_onemax_shared_bit :
  forall (PS : Type) (fexp : f64 -> f64) (i : nat) (b : bool) (f : PS -> population onemax -> M (bool * PS)) (fuel : nat)
    (s : ga_state onemax unit) (init : list onemax) (q : ga_params) (ps : PS) (r : run_result onemax (ga_state onemax unit) PS),
  (forall x, In x init -> holds_at i b (genome x)) ->
  fits_usize (ga_population_size q) -> fits_usize (length init) -> flt f0 (ga_mutation_rate q) = false ->
  may (evolve_population onemax_ops fexp onemax_model (ga_algorithm onemax_ops fexp onemax_model) (quiet f) fuel s init q ps) r ->
  forall p x, In p (r_trace r) -> In x (individuals p) -> holds_at i b (genome x).
Proof. exact @ga_bits. Qed.
Print Assumptions C111_ga_onemax_shared_bit.
Theorem C111_aga_onemax_shared_bit :
  forall (PS : Type) (fexp : f64 -> f64) (i : nat) (b : bool) (f : PS -> population onemax -> M (bool * PS)) (fuel : nat)
    (s : aga_state onemax unit) (init : list onemax) (q : aga_params) (ps : PS) (r : run_result onemax (aga_state onemax unit) PS),
  (forall x, In x init -> holds_at i b (genome x)) ->
  fits_usize (aga_population_size q) -> fits_usize (length init) ->
  flt f0 (fst (aga_mutation_rate_range q)) = false -> flt f0 (snd (aga_mutation_rate_range q)) = false ->
  may (evolve_population onemax_ops fexp onemax_model (aga_algorithm onemax_ops fexp onemax_model) (quiet f) fuel s init q ps) r ->
  forall p x, In p (r_trace r) -> In x (individuals p) -> holds_at i b (genome x).
Proof. exact @aga_bits. Qed.
Print Assumptions C111_aga_onemax_shared_bit.

(** Runs of this kind with PMX and with CX: all tours have 3 at the end *)
Example C111_example : NoDup [0; 1; 2; 3] /\ flt f0 (ga_mutation_rate no_mutation) = false /\ fits_usize (ga_population_size no_mutation) /\
  (exists r, may (tour_run PartiallyMapped [[0; 1; 2; 3]; [1; 2; 0; 3]]) r /\
     routes_shown r = [[[0; 1; 2; 3]; [1; 2; 0; 3]]; [[1; 2; 0; 3]; [0; 2; 1; 3]; [0; 1; 2; 3]]]) /\
  (exists r, may (tour_run Cycle [[0; 1; 2; 3]; [1; 2; 0; 3]]) r /\
     routes_shown r = [[[0; 1; 2; 3]; [1; 2; 0; 3]]; [[1; 2; 0; 3]; [0; 1; 2; 3]]]).
Proof. exact c111_example. Qed.
(** With OX an agreement of all initial tours is lost in one generation ... *)
Theorem C111_tour_agreement_refuted :
  exists r, may (tour_run Order [[0; 1; 2; 3]; [1; 0; 2; 3]]) r /\
  exists p x, In p (r_trace r) /\ In x (individuals p) /\ ~ holds_at 2 2 (route x).
Proof. exact order_run_breaks. Qed.
Print Assumptions C111_tour_agreement_refuted.
(** ... and with PMX a gene gets to a position where no initial tour has it. *)
Theorem C111_tour_lost_gene_refuted :
  exists r, may (tour_run PartiallyMapped [[0; 1; 2; 3]; [1; 2; 0; 3]]) r /\
  exists p x, In p (r_trace r) /\ In x (individuals p) /\ holds_at 2 1 (route x).
Proof. exact pmx_run_invents. Qed.
Print Assumptions C111_tour_lost_gene_refuted.
