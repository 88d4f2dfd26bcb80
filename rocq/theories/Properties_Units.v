(** * Properties_Units: fitness in other units (C128). *)
From Coq Require Import List Bool Arith NArith ZArith Reals.
From Flocq Require Import Core BinarySingleNaN.
From Verif Require Import Rnd F64 MStats MPopulation MSelection MModel MAlgorithms SpecF SpecO SpecScale ExO PScale2 PScale3 PScale4.
Import ListNotations.

(** C128: roulette wheel selection makes the same choices, draw for draw and in whichever
    order the total is added up, when every fitness is multiplied by the same power of two. *)
Theorem C128_roulette :
  forall {I J} (k : Z) (io : individual_ops I) (jo : individual_ops J) (fexp : f64 -> f64) (p : population I) (q : population J) (total total' : f64),
  Forall2 (fun a b => mild (fitness io a) /\ mild (fitness jo b) /\ times_power k (fitness io a) (fitness jo b)) (individuals p) (individuals q) ->
  exact_count (length (individuals p)) ->
  alike (fun x y => fst x = fst y) (s <- prepare io fexp (RouletteWheel total) p ;; select io fexp s p)
    (s <- prepare jo fexp (RouletteWheel total') q ;; select jo fexp s q).
Proof. exact @roulette_alike. Qed.
Print Assumptions C128_roulette.
(** Boltzmann selection does when the temperature is multiplied by it as well. *)
Theorem C128_boltzmann :
  forall {I J} (k : Z) (io : individual_ops I) (jo : individual_ops J) (fexp : f64 -> f64) (t c t' total total' : f64) (p : population I) (q : population J),
  Forall2 (fun a b => is_finite (fitness io a) = true /\ is_finite (fitness jo b) = true /\
    Bsign (fitness io a) = Bsign (fitness jo b) /\ times_power k (fitness io a) (fitness jo b)) (individuals p) (individuals q) ->
  mild t -> mild t' -> (0 < B2R t)%R -> times_power k t t' -> is_finite c = true -> (bpow radix2 (-100) <= B2R c <= 1)%R ->
  alike (fun x y => fst x = fst y) (s <- prepare io fexp (Boltzmann t c total) p ;; select io fexp s p)
    (s <- prepare jo fexp (Boltzmann t' c total') q ;; select jo fexp s q).
Proof. exact @heat_alike. Qed.
Print Assumptions C128_boltzmann.
(** Whole runs of the GA with any strategy but Boltzmann do not depend on the unit. *)
Theorem C128_ga :
  forall {I J : Type} (k : Z) (io : individual_ops I) (jo : individual_ops J) (R : I -> J -> Prop) (fexp : f64 -> f64),
  other_units k io jo R -> forall n : nat, exact_count n ->
  forall {MS : Type} (mdl : model I MS) (ndl : model J MS), models_alike R mdl ndl ->
  forall (PS : Type) (f : PS -> population I -> M (bool * PS)) (g : PS -> population J -> M (bool * PS)),
  (forall ps p q, twins R p q -> alike eq (f ps p) (g ps q)) ->
  forall q fuel s t init init' ps, unit_free (ga_selection_strategy q) -> ga_population_size q <= n -> ga_model s = ga_model t ->
  Forall2 R init init' -> length init <= n ->
  alike (twin_runs (twins R)) (evolve_population io fexp mdl (ga_algorithm io fexp mdl) (quiet f) fuel s init q ps)
    (evolve_population jo fexp ndl (ga_algorithm jo fexp ndl) (quiet g) fuel t init' q ps).
Proof. exact @units_ga_evolve. Qed.
Print Assumptions C128_ga.
Theorem C128_ga_run :
  forall {I J : Type} (k : Z) (io : individual_ops I) (jo : individual_ops J) (R : I -> J -> Prop) (fexp : f64 -> f64),
  other_units k io jo R -> forall n : nat, exact_count n ->
  forall {MS : Type} (mdl : model I MS) (ndl : model J MS), models_alike R mdl ndl ->
  forall (PS : Type) (f : PS -> population I -> M (bool * PS)) (g : PS -> population J -> M (bool * PS)),
  (forall ps p q, twins R p q -> alike eq (f ps p) (g ps q)) ->
  forall q fuel s t new_random new_random' ps, unit_free (ga_selection_strategy q) -> ga_population_size q <= n -> ga_model s = ga_model t ->
  alike R new_random new_random' ->
  alike (twin_results R (twins R)) (evolution_run io fexp mdl (ga_algorithm io fexp mdl) (quiet f) fuel s new_random q ps)
    (evolution_run jo fexp ndl (ga_algorithm jo fexp ndl) (quiet g) fuel t new_random' q ps).
Proof. exact @units_ga_run. Qed.
Print Assumptions C128_ga_run.
Theorem C128_ga_individual :
  forall {I J : Type} (k : Z) (io : individual_ops I) (jo : individual_ops J) (R : I -> J -> Prop) (fexp : f64 -> f64),
  other_units k io jo R -> forall n : nat, exact_count n ->
  forall {MS : Type} (mdl : model I MS) (ndl : model J MS), models_alike R mdl ndl ->
  forall (PS : Type) (f : PS -> population I -> M (bool * PS)) (g : PS -> population J -> M (bool * PS)),
  (forall ps p q, twins R p q -> alike eq (f ps p) (g ps q)) ->
  forall q fuel s t x y ps, unit_free (ga_selection_strategy q) -> ga_population_size q <= n -> ga_model s = ga_model t -> R x y ->
  alike (twin_results R (twins R)) (evolve_individual io fexp mdl (ga_algorithm io fexp mdl) (quiet f) fuel s x q ps)
    (evolve_individual jo fexp ndl (ga_algorithm jo fexp ndl) (quiet g) fuel t y q ps).
Proof. exact @units_ga_individual. Qed.
Print Assumptions C128_ga_individual.
(** The adaptive GA does not either if it never adjusts its rates. *)
Theorem C128_aga :
  forall {I J : Type} (k : Z) (io : individual_ops I) (jo : individual_ops J) (R : I -> J -> Prop) (fexp : f64 -> f64),
  other_units k io jo R -> forall n : nat, exact_count n ->
  forall {MS : Type} (mdl : model I MS) (ndl : model J MS), models_alike R mdl ndl ->
  forall (PS : Type) (f : PS -> population I -> M (bool * PS)) (g : PS -> population J -> M (bool * PS)),
  (forall ps p q, twins R p q -> alike eq (f ps p) (g ps q)) ->
  forall q fuel s t init init' ps, unit_free (aga_selection_strategy q) -> aga_parameter_adjustment_interval q = 0 ->
  aga_population_size q <= n -> aga_model s = aga_model t -> Forall2 R init init' -> length init <= n ->
  alike (twin_runs (twins R)) (evolve_population io fexp mdl (aga_algorithm io fexp mdl) (quiet f) fuel s init q ps)
    (evolve_population jo fexp ndl (aga_algorithm jo fexp ndl) (quiet g) fuel t init' q ps).
Proof. exact @units_aga_evolve. Qed.
Print Assumptions C128_aga.
Theorem C128_aga_run :
  forall {I J : Type} (k : Z) (io : individual_ops I) (jo : individual_ops J) (R : I -> J -> Prop) (fexp : f64 -> f64),
  other_units k io jo R -> forall n : nat, exact_count n ->
  forall {MS : Type} (mdl : model I MS) (ndl : model J MS), models_alike R mdl ndl ->
  forall (PS : Type) (f : PS -> population I -> M (bool * PS)) (g : PS -> population J -> M (bool * PS)),
  (forall ps p q, twins R p q -> alike eq (f ps p) (g ps q)) ->
  forall q fuel s t new_random new_random' ps, unit_free (aga_selection_strategy q) -> aga_parameter_adjustment_interval q = 0 ->
  aga_population_size q <= n -> aga_model s = aga_model t -> alike R new_random new_random' ->
  alike (twin_results R (twins R)) (evolution_run io fexp mdl (aga_algorithm io fexp mdl) (quiet f) fuel s new_random q ps)
    (evolution_run jo fexp ndl (aga_algorithm jo fexp ndl) (quiet g) fuel t new_random' q ps).
Proof. exact @units_aga_run. Qed.
Print Assumptions C128_aga_run.
Theorem C128_aga_individual :
  forall {I J : Type} (k : Z) (io : individual_ops I) (jo : individual_ops J) (R : I -> J -> Prop) (fexp : f64 -> f64),
  other_units k io jo R -> forall n : nat, exact_count n ->
  forall {MS : Type} (mdl : model I MS) (ndl : model J MS), models_alike R mdl ndl ->
  forall (PS : Type) (f : PS -> population I -> M (bool * PS)) (g : PS -> population J -> M (bool * PS)),
  (forall ps p q, twins R p q -> alike eq (f ps p) (g ps q)) ->
  forall q fuel s t x y ps, unit_free (aga_selection_strategy q) -> aga_parameter_adjustment_interval q = 0 ->
  aga_population_size q <= n -> aga_model s = aga_model t -> R x y ->
  alike (twin_results R (twins R)) (evolve_individual io fexp mdl (aga_algorithm io fexp mdl) (quiet f) fuel s x q ps)
    (evolve_individual jo fexp ndl (aga_algorithm jo fexp ndl) (quiet g) fuel t y q ps).
Proof. exact @units_aga_individual. Qed.
Print Assumptions C128_aga_individual.
Example C128_aga_example :
  forall fexp st g, unit_free st -> alike (twin_runs (twins eq)) (size_aga narrow fexp st 0 g) (size_aga twice fexp st 0 g).
Proof. exact twice_aga_example. Qed.
Print Assumptions C128_aga_example.
(** If it adjusts them the unit can matter, even with fitness values in the range above:
    squares of small differences underflow, and the rates become NaN. *)
Theorem C128_aga_refuted :
  exists (io jo : individual_ops comparison) (mdl ndl : model comparison unit) (g : nat) (init : list comparison) (q : aga_params),
  other_units 700 io jo eq /\ models_alike eq mdl ndl /\ unit_free (aga_selection_strategy q) /\ forall fexp,
  ~ alike (twin_runs (twins eq))
      (evolve_population io fexp mdl (aga_algorithm io fexp mdl) (quiet (fun (_ : unit) p => Ret (generation p <? g, tt))) (S g) (aga_from tt) init q tt)
      (evolve_population jo fexp ndl (aga_algorithm jo fexp ndl) (quiet (fun (_ : unit) p => Ret (generation p <? g, tt))) (S g) (aga_from tt) init q tt).
Proof. exact units_rates_refuted. Qed.
Print Assumptions C128_aga_refuted.
(** Boltzmann selection depends on the unit if the temperature stays; an exp that is only
    assumed to be monotone ... *)
Theorem C128_boltzmann_refuted :
  exists (io jo : individual_ops comparison) (mdl ndl : model comparison unit) (fexp : f64 -> f64) (g : nat) (init : list comparison) (q : ga_params),
  other_units 1 io jo eq /\ models_alike eq mdl ndl /\ (forall x y, fle x y = true -> fle (fexp x) (fexp y) = true) /\
  ga_selection_strategy q = StBoltzmann f1 f1 /\
  ~ alike (twin_runs (twins eq))
      (evolve_population io fexp mdl (ga_algorithm io fexp mdl) (quiet (fun (_ : unit) p => Ret (generation p <? g, tt))) (S g) (ga_from tt) init q tt)
      (evolve_population jo fexp ndl (ga_algorithm jo fexp ndl) (quiet (fun (_ : unit) p => Ret (generation p <? g, tt))) (S g) (ga_from tt) init q tt).
Proof. exact boltzmann_units_refuted. Qed.
Print Assumptions C128_boltzmann_refuted.
(** ... and roulette selection on the zero point: adding 1 to every fitness changes the
    run. *)
Theorem C128_shift_refuted :
  exists (io jo : individual_ops comparison) (mdl ndl : model comparison unit) (g : nat) (init : list comparison) (q : ga_params),
  (forall x, is_valid io x = is_valid jo x) /\ (forall x y, ieq io x y = ieq jo x y) /\
  (forall x, mild (fitness io x) /\ mild (fitness jo x) /\ B2R (fitness jo x) = (B2R (fitness io x) + 1)%R) /\
  models_alike eq mdl ndl /\ ga_selection_strategy q = StRouletteWheel /\ forall fexp,
  ~ alike (twin_runs (twins eq))
      (evolve_population io fexp mdl (ga_algorithm io fexp mdl) (quiet (fun (_ : unit) p => Ret (generation p <? g, tt))) (S g) (ga_from tt) init q tt)
      (evolve_population jo fexp ndl (ga_algorithm jo fexp ndl) (quiet (fun (_ : unit) p => Ret (generation p <? g, tt))) (S g) (ga_from tt) init q tt).
Proof. exact shift_refuted. Qed.
Print Assumptions C128_shift_refuted.
Example C128_example :
  other_units 1 narrow twice eq /\ models_alike eq (size_model narrow) (size_model twice) /\ exact_count 3 /\
  (forall fexp st g, unit_free st -> alike (twin_runs (twins eq)) (size_ga narrow fexp st g) (size_ga twice fexp st g)) /\
  (forall fexp, alike (fun x y => fst x = fst y)
     (s <- prepare narrow fexp (Boltzmann f2 f1 f0) (units_pop narrow) ;; select narrow fexp s (units_pop narrow))
     (s <- prepare twice fexp (Boltzmann f4 f1 f0) (units_pop twice) ;; select twice fexp s (units_pop twice))).
Proof. exact c128_example. Qed.
