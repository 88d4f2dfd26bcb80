(** * Properties_Units2: statistics and adjusted rates in other units (C130). *)
From Coq Require Import List Bool Arith NArith ZArith Reals.
From Flocq Require Import Core BinarySingleNaN.
From Verif Require Import Rnd F64 MStats MPopulation MSelection MModel MAlgorithms SpecF SpecO SpecScale ExO PScale5 PScale6.
Import ListNotations.

(** C130: the statistics of samples times a power of two are the statistics of the samples
    times that power, the variance times its square, all of them exactly. *)
Theorem C130_stats :
  forall (k : Z) (l l' : list f64),
  Forall2 (fun x y => fair x /\ fair y /\ times_power k x y) l l' -> exact_count (length l) ->
  let s := from_iter f64ops l in let t := from_iter f64ops l' in
  st_count t = st_count s /\ st_arg_min t = st_arg_min s /\ st_arg_max t = st_arg_max s /\
  shown_times k (st_min s) (st_min t) /\ shown_times k (st_max s) (st_max t) /\ shown_times k (st_avg s) (st_avg t) /\
  shown_times (2 * k) (st_var f64ops s) (st_var f64ops t) /\ shown_times k (st_std f64ops s) (st_std f64ops t).
Proof. exact units_stats. Qed.
Print Assumptions C130_stats.
Example C130_stats_example :
  let l := map f_of_nat [3; 1; 8] in let l' := map f_of_nat [12; 4; 32] in
  Forall2 (fun x y => fair x /\ fair y /\ times_power 2 x y) l l' /\ exact_count (length l) /\
  st_arg_min (from_iter f64ops l') = Some 1 /\ st_arg_max (from_iter f64ops l') = Some 2 /\
  st_avg (from_iter f64ops l) = Some (f_of_nat 4) /\ st_avg (from_iter f64ops l') = Some (f_of_nat 16) /\
  st_var f64ops (from_iter f64ops l) = Some (f_of_nat 13) /\ st_var f64ops (from_iter f64ops l') = Some (f_of_nat 208).
Proof. exact c130_stats_example. Qed.
Print Assumptions C130_stats_example.
(** Samples too small to square lose their deviation ... *)
Theorem C130_underflow_refuted :
  exists k l l', Forall2 (fun x y => is_finite x = true /\ is_finite y = true /\ (0 < B2R x)%R /\ times_power k x y) l l' /\
  st_std f64ops (from_iter f64ops l) = Some f0 /\ ~ shown_times k (st_std f64ops (from_iter f64ops l)) (st_std f64ops (from_iter f64ops l')).
Proof. exact underflow_refuted. Qed.
Print Assumptions C130_underflow_refuted.
(** ... and another factor does not carry over to the mean exactly. *)
Theorem C130_factor_refuted :
  exists l l' a b, Forall2 (fun x y => fair x /\ fair y /\ (B2R y = 3 * B2R x)%R) l l' /\
  st_avg (from_iter f64ops l) = Some a /\ st_avg (from_iter f64ops l') = Some b /\ (B2R b <> 3 * B2R a)%R.
Proof. exact factor_refuted. Qed.
Print Assumptions C130_factor_refuted.

(** Whole runs of the adaptive GA, adjusting its rates at any interval and starting from
    algorithms in any state, do not depend on the unit of fair fitness values. *)
Theorem C130_aga :
  forall {I J : Type} (k : Z) (io : individual_ops I) (jo : individual_ops J) (R : I -> J -> Prop) (fexp : f64 -> f64),
  fair_units k io jo R -> forall n : nat, exact_count n ->
  forall {MS : Type} (mdl : model I MS) (ndl : model J MS), models_alike R mdl ndl ->
  forall (PS : Type) (f : PS -> population I -> M (bool * PS)) (g : PS -> population J -> M (bool * PS)),
  (forall ps p q, twins R p q -> alike eq (f ps p) (g ps q)) ->
  forall q fuel s t init init' ps, unit_free (aga_selection_strategy q) ->
  aga_population_size q <= n -> aga_model s = aga_model t -> Forall2 R init init' -> length init <= n ->
  alike (twin_runs (twins R)) (evolve_population io fexp mdl (aga_algorithm io fexp mdl) (quiet f) fuel s init q ps)
    (evolve_population jo fexp ndl (aga_algorithm jo fexp ndl) (quiet g) fuel t init' q ps).
Proof. exact @fair_aga_evolve. Qed.
Print Assumptions C130_aga.
Theorem C130_aga_run :
  forall {I J : Type} (k : Z) (io : individual_ops I) (jo : individual_ops J) (R : I -> J -> Prop) (fexp : f64 -> f64),
  fair_units k io jo R -> forall n : nat, exact_count n ->
  forall {MS : Type} (mdl : model I MS) (ndl : model J MS), models_alike R mdl ndl ->
  forall (PS : Type) (f : PS -> population I -> M (bool * PS)) (g : PS -> population J -> M (bool * PS)),
  (forall ps p q, twins R p q -> alike eq (f ps p) (g ps q)) ->
  forall q fuel s t new_random new_random' ps, unit_free (aga_selection_strategy q) ->
  aga_population_size q <= n -> aga_model s = aga_model t -> alike R new_random new_random' ->
  alike (twin_results R (twins R)) (evolution_run io fexp mdl (aga_algorithm io fexp mdl) (quiet f) fuel s new_random q ps)
    (evolution_run jo fexp ndl (aga_algorithm jo fexp ndl) (quiet g) fuel t new_random' q ps).
Proof. exact @fair_aga_run. Qed.
Print Assumptions C130_aga_run.
Theorem C130_aga_individual :
  forall {I J : Type} (k : Z) (io : individual_ops I) (jo : individual_ops J) (R : I -> J -> Prop) (fexp : f64 -> f64),
  fair_units k io jo R -> forall n : nat, exact_count n ->
  forall {MS : Type} (mdl : model I MS) (ndl : model J MS), models_alike R mdl ndl ->
  forall (PS : Type) (f : PS -> population I -> M (bool * PS)) (g : PS -> population J -> M (bool * PS)),
  (forall ps p q, twins R p q -> alike eq (f ps p) (g ps q)) ->
  forall q fuel s t x y ps, unit_free (aga_selection_strategy q) ->
  aga_population_size q <= n -> aga_model s = aga_model t -> R x y ->
  alike (twin_results R (twins R)) (evolve_individual io fexp mdl (aga_algorithm io fexp mdl) (quiet f) fuel s x q ps)
    (evolve_individual jo fexp ndl (aga_algorithm jo fexp ndl) (quiet g) fuel t y q ps).
Proof. exact @fair_aga_individual. Qed.
Print Assumptions C130_aga_individual.
Example C130_aga_example :
  fair_units 1 narrow twice eq /\ models_alike eq (size_model narrow) (size_model twice) /\ exact_count 3 /\
  forall fexp st n g, unit_free st -> alike (twin_runs (twins eq)) (size_aga narrow fexp st n g) (size_aga twice fexp st n g).
Proof. exact c130_aga_example. Qed.
Print Assumptions C130_aga_example.
