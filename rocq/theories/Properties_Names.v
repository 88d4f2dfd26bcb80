(** * Properties_Names: the names of genes do not matter (C114). *)
From Coq Require Import List Bool Arith NArith.
From Verif Require Import Rnd F64 MStats MOperators MCrossover MMutation MPopulation MSelection MModel MAlgorithms Spec SpecO SpecT PRename2 PIso3.
Import ListNotations.

(** C114: renaming the genes of the parents renames the offspring, whatever order the
    old and the new genes have. *)
Theorem C114_crossover :
  forall {G H : Type} (eqb ltb : G -> G -> bool) (eqb' ltb' : H -> H -> bool) (f : G -> H),
  (forall a b, f a = f b -> a = b) -> eq_ok eqb -> eq_ok eqb' -> lt_total ltb -> lt_total ltb' ->
  forall steps cs p1 p2,
  alike (fun r r' => r' = map f r) (crossover eqb ltb steps cs p1 p2) (crossover eqb' ltb' steps cs (map f p1) (map f p2)).
Proof. exact @names_crossover. Qed.
Print Assumptions C114_crossover.
(** GPX2 with a selector of the user's that does not look at the names *)
Theorem C114_gpx2 :
  forall {G H : Type} (eqb ltb : G -> G -> bool) (eqb' ltb' : H -> H -> bool) (f : G -> H),
  (forall a b, f a = f b -> a = b) -> eq_ok eqb -> eq_ok eqb' -> lt_total ltb -> lt_total ltb' ->
  forall {S0} (sel : S0 -> option G -> list (list G) -> M (nat * S0)) (sel' : S0 -> option H -> list (list H) -> M (nat * S0)) s p1 p2,
  (forall s o ps, alike eq (sel s o ps) (sel' s (option_map f o) (map (map f) ps))) ->
  alike (fun r r' => r' = map f r) (generalized_partition_2_crossover eqb ltb p1 p2 sel s)
    (generalized_partition_2_crossover eqb' ltb' (map f p1) (map f p2) sel' s).
Proof. exact @names_gpx2. Qed.
Print Assumptions C114_gpx2.
Theorem C114_partitions :
  forall {G H : Type} (eqb ltb : G -> G -> bool) (eqb' ltb' : H -> H -> bool) (f : G -> H),
  (forall a b, f a = f b -> a = b) -> eq_ok eqb -> eq_ok eqb' -> lt_total ltb -> lt_total ltb' ->
  forall p1 p2,
  alike (fun r r' => r' = map (map f) r) (common_partitions eqb ltb p1 p2) (common_partitions eqb' ltb' (map f p1) (map f p2)).
Proof. exact @names_partitions. Qed.
Print Assumptions C114_partitions.
(** The order has to be total, though [PartialOrd] does not ask for it. *)
Theorem C114_partial_order_refuted :
  exists (ltb : nat -> nat -> bool) (p1 p2 : list nat),
  ~ alike eq (common_partitions Nat.eqb Nat.ltb p1 p2) (common_partitions Nat.eqb ltb p1 p2).
Proof. exact partial_order. Qed.
Print Assumptions C114_partial_order_refuted.
(** Mutation does not even compare genes: the new names need not be different. *)
Theorem C114_mutation :
  forall {G H : Type} (f : G -> H) s g, alike (fun r r' => r' = map f r) (mutate s g) (mutate s (map f g)).
Proof. exact @names_mutation. Qed.
Print Assumptions C114_mutation.
Example C114_example :
  eq_ok Nat.eqb /\ lt_total Nat.ltb /\ lt_total (fun a b => b <? a) /\
  run (crossover Nat.eqb Nat.ltb 9 GeneralizedPartition2 [1; 2; 3; 4; 5; 6] [2; 1; 4; 3; 6; 5]) [2; 1]%N = Some [5; 6; 3; 4; 1; 2] /\
  run (crossover Nat.eqb (fun a b => b <? a) 9 GeneralizedPartition2 [11; 12; 13; 14; 15; 16] [12; 11; 14; 13; 16; 15]) [2; 1]%N = Some [15; 16; 13; 14; 11; 12] /\
  (forall score : list nat -> f64, exists score', forall r, score' (map (Nat.add 10) r) = score r).
Proof. exact c114_example. Qed.

(** Runs on tours (the user's model of SpecT): renaming the cities renames all populations. *)
Theorem C114_ga_tours :
  forall {G H : Type} (eqb ltb : G -> G -> bool) (eqb' ltb' : H -> H -> bool) (f : G -> H),
  (forall a b, f a = f b -> a = b) -> eq_ok eqb -> eq_ok eqb' -> lt_total ltb -> lt_total ltb' ->
  forall steps cs mu (score : list G -> f64) (score' : list H -> f64), (forall r, score' (map f r) = score r) ->
  forall {PS : Type} (fexp : f64 -> f64) (c : PS -> population (tour G) -> M (bool * PS)) (d : PS -> population (tour H) -> M (bool * PS)),
  (forall ps p q, full_twins (renamed f) p q -> alike eq (c ps p) (d ps q)) ->
  let mdl := tour_model eqb ltb steps cs mu score in let ndl := tour_model eqb' ltb' steps cs mu score' in
  forall q fuel s t init init' ps, Forall2 (renamed f) init init' ->
  alike (twin_runs (full_twins (renamed f)))
    (evolve_population (tour_ops eqb) fexp mdl (ga_algorithm (tour_ops eqb) fexp mdl) (quiet c) fuel s init q ps)
    (evolve_population (tour_ops eqb') fexp ndl (ga_algorithm (tour_ops eqb') fexp ndl) (quiet d) fuel t init' q ps).
Proof. exact @names_ga. Qed.
Print Assumptions C114_ga_tours.
Theorem C114_aga_tours :
  forall {G H : Type} (eqb ltb : G -> G -> bool) (eqb' ltb' : H -> H -> bool) (f : G -> H),
  (forall a b, f a = f b -> a = b) -> eq_ok eqb -> eq_ok eqb' -> lt_total ltb -> lt_total ltb' ->
  forall steps cs mu (score : list G -> f64) (score' : list H -> f64), (forall r, score' (map f r) = score r) ->
  forall {PS : Type} (fexp : f64 -> f64) (c : PS -> population (tour G) -> M (bool * PS)) (d : PS -> population (tour H) -> M (bool * PS)),
  (forall ps p q, full_twins (renamed f) p q -> alike eq (c ps p) (d ps q)) ->
  let mdl := tour_model eqb ltb steps cs mu score in let ndl := tour_model eqb' ltb' steps cs mu score' in
  forall q fuel s t init init' ps, Forall2 (renamed f) init init' ->
  alike (twin_runs (full_twins (renamed f)))
    (evolve_population (tour_ops eqb) fexp mdl (aga_algorithm (tour_ops eqb) fexp mdl) (quiet c) fuel s init q ps)
    (evolve_population (tour_ops eqb') fexp ndl (aga_algorithm (tour_ops eqb') fexp ndl) (quiet d) fuel t init' q ps).
Proof. exact @any_names_aga. Qed.
Print Assumptions C114_aga_tours.
Theorem C114_ga_tours_run :
  forall {G H : Type} (eqb ltb : G -> G -> bool) (eqb' ltb' : H -> H -> bool) (f : G -> H),
  (forall a b, f a = f b -> a = b) -> eq_ok eqb -> eq_ok eqb' -> lt_total ltb -> lt_total ltb' ->
  forall steps cs mu (score : list G -> f64) (score' : list H -> f64), (forall r, score' (map f r) = score r) ->
  forall {PS : Type} (fexp : f64 -> f64) (c : PS -> population (tour G) -> M (bool * PS)) (d : PS -> population (tour H) -> M (bool * PS)),
  (forall ps p q, full_twins (renamed f) p q -> alike eq (c ps p) (d ps q)) ->
  let mdl := tour_model eqb ltb steps cs mu score in let ndl := tour_model eqb' ltb' steps cs mu score' in
  forall q fuel s t new_random new_random' ps, alike (renamed f) new_random new_random' ->
  alike (twin_results (renamed f) (full_twins (renamed f)))
    (evolution_run (tour_ops eqb) fexp mdl (ga_algorithm (tour_ops eqb) fexp mdl) (quiet c) fuel s new_random q ps)
    (evolution_run (tour_ops eqb') fexp ndl (ga_algorithm (tour_ops eqb') fexp ndl) (quiet d) fuel t new_random' q ps).
Proof. exact @names_ga_run. Qed.
Print Assumptions C114_ga_tours_run.
