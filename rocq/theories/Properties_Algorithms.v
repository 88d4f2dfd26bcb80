(** * Properties_Algorithms: C55-C58, C60, C61. *)
From Coq Require Import List Bool Arith NArith ZArith Reals Lia Lra.
From Flocq Require Import Core BinarySingleNaN.
From Verif Require Import Rnd F64 MStats MPopulation MSelection MModel MAlgorithms SpecF SpecA ExF ExM
  PInterp PAlgorithms PAlgorithms2 PAlgorithms3 PAdjust.
Import ListNotations.
Local Open Scope nat_scope.

(** C55: interpolation between 0 and n stays below n ... *)
Theorem C55_interpolate_usize :
  forall (n : nat) (ratio : f64), n <> 0 -> fits_usize n -> proper_ratio ratio ->
  exists k, interpolate_usize 0 n ratio = Ret k /\ elite_count n ratio k.
Proof. exact interpolate_count. Qed.
Print Assumptions C55_interpolate_usize.
Example C55_example : interpolate_usize 0 100 (f_lit 99 100) = Ret 99 /\ interpolate_usize 0 100 (f_lit 29 100) = Ret 28.
Proof. vm_compute; auto. Qed.
(** ... interpolation inside [0, 1] stays inside, never crosses the start, is
    monotone and passes the end by at most 2^-53 ... *)
Theorem C55_interpolate_f64 :
  forall a b t : f64, rate a -> rate b -> rate t ->
  rate (interpolate_f64 a b t) /\
  ((B2R a <= B2R b)%R -> (B2R a <= B2R (interpolate_f64 a b t) <= B2R b + bpow radix2 (-53))%R) /\
  ((B2R b <= B2R a)%R -> (B2R (interpolate_f64 a b t) <= B2R a)%R) /\
  (B2R t = 0%R -> B2R (interpolate_f64 a b t) = B2R a).
Proof. exact interpolate_unit. Qed.
Print Assumptions C55_interpolate_f64.
Theorem C55_interpolate_monotone :
  forall a b t t' : f64, rate a -> rate b -> rate t -> rate t' -> (B2R t <= B2R t')%R ->
  ((B2R a <= B2R b)%R -> (B2R (interpolate_f64 a b t) <= B2R (interpolate_f64 a b t'))%R) /\
  ((B2R b <= B2R a)%R -> (B2R (interpolate_f64 a b t') <= B2R (interpolate_f64 a b t))%R).
Proof. exact interpolate_monotone. Qed.
Print Assumptions C55_interpolate_monotone.
(** ... but it can pass the end. *)
Theorem C55_end_refuted :
  exists a b : f64, rate a /\ rate b /\ fle a b = true /\ flt b (interpolate_f64 a b f1) = true.
Proof. exact interpolate_exceeds. Qed.
Print Assumptions C55_end_refuted.
Example C55_example2 : in_unit_closed (f_lit 3 10) = true /\ in_unit_closed (f_lit 1 2) = true /\
  feq (interpolate_f64 (f_lit 1 4) (f_lit 3 4) (f_lit 1 2)) (f_lit 1 2) = true.
Proof. vm_compute; auto. Qed.

(** C56: configure accepts exactly the documented parameters. *)
Theorem C56_ga_configure :
  forall (I MS : Type) (s : ga_state I MS) (q : ga_params), fits_usize (ga_population_size q) ->
  (ga_accepted q -> exists e sel, elite_count (ga_population_size q) (ga_elitism_rate q) e /\
     create_selector (ga_selection_strategy q) = Ret sel /\
     ga_configure s q = Ret (mkGa (ga_model s) (ga_population_size q) e
       (mkBreeding (ga_crossover_rate q) (ga_mutation_rate q) sel))) /\
  (~ ga_accepted q -> ga_configure s q = Fail Panic).
Proof. exact ga_configure_spec. Qed.
Print Assumptions C56_ga_configure.
Theorem C56_aga_configure :
  forall (I MS : Type) (s : aga_state I MS) (q : aga_params), fits_usize (aga_population_size q) ->
  (aga_accepted q -> exists e sel, elite_count (aga_population_size q) (aga_elitism_rate q) e /\
     create_selector (aga_selection_strategy q) = Ret sel /\
     aga_configure s q = Ret (mkAga (aga_model s) (aga_population_size q) e (aga_parameter_adjustment_interval q)
       (aga_crossover_rate_range q) (aga_mutation_rate_range q)
       (mkBreeding (crossover_rate (aga_breeding s)) (mutation_rate (aga_breeding s)) sel) (aga_reference_std s))) /\
  (~ aga_accepted q -> aga_configure s q = Fail Panic).
Proof. exact aga_configure_spec. Qed.
Print Assumptions C56_aga_configure.
(** The defaults are accepted. *)
Theorem C56_defaults : ga_accepted ga_params_default /\ aga_accepted aga_params_default.
Proof. exact defaults_accepted. Qed.
Print Assumptions C56_defaults.
Example C56_example :
  match ga_configure (ga_from (I := nat) tt) ga_params_default with
  | Ret s => ga_size s = 100 /\ ga_elite_size s = 1 /\ feq (crossover_rate (ga_breeding s)) (f_lit 8 10) = true
  | _ => False
  end.
Proof. vm_compute; auto. Qed.
Example C56_example2 :
  ga_configure (ga_from (I := nat) tt) (mkGaParams 100 (f_lit 1 100) f_nan (f_lit 1 10) StRouletteWheel) = Fail Panic.
Proof. vm_compute; reflexivity. Qed.

(** C57: the elites are the fittest individuals of a sorted population. *)
Theorem C57_select_elites :
  forall (I : Type) (io : individual_ops I) (elite_size : nat) (p : population I) (elites : list I),
  sorted_by_fitness io (individuals p) ->
  exists rest top, individuals p = rest ++ top /\ length top = Nat.min elite_size (length (individuals p)) /\
    select_top elite_size p elites = Ret (elites ++ top) /\
    forall x y, In x top -> In y rest -> fle (fitness io y) (fitness io x) = true.
Proof. exact select_top_best. Qed.
Print Assumptions C57_select_elites.
Example C57_example : select_top 2 (ex_popn ex_io [1; 5; 9]) [7] = Ret [7; 5; 9] /\
  select_top 5 (ex_popn ex_io [1; 5; 9]) [] = Ret [1; 5; 9] /\ select_top 0 (ex_popn ex_io [1; 5; 9]) [] = Ret [].
Proof. vm_compute; auto. Qed.
(** The default method of the trait keeps the fittest individual. *)
Theorem C57_default_select_elites :
  forall (I : Type) (io : individual_ops I) (p : population I) (elites : list I), well_formed io p ->
  exists x, default_select_elites p elites = Ret (elites ++ [x]) /\ In x (individuals p) /\
    forall y, In y (individuals p) -> fle (fitness io y) (fitness io x) = true.
Proof. exact default_elites_best. Qed.
Print Assumptions C57_default_select_elites.

(** C58: generate_new_population adds the missing individuals, each of them bred
    from the population ... *)
Theorem C58_generate_new_population :
  forall (I : Type) (io : individual_ops I) (fexp : f64 -> f64) (MS : Type) (mdl : model I MS)
    (ms : MS) (b : breeding I) (size : nat) (p : population I) (offspring r : list I),
  may (generate_new_population io fexp mdl ms (b, size) p offspring) r ->
  exists news, r = offspring ++ news /\
    length news = (if size - length offspring =? 1 then 0 else size - length offspring) /\
    forall x, In x news -> may (breed io fexp mdl ms p b) x.
Proof. exact generate_result. Qed.
Print Assumptions C58_generate_new_population.
Theorem C58_generate_returns :
  forall (I : Type) (io : individual_ops I) (fexp : f64 -> f64) (MS : Type) (mdl : model I MS)
    (ms : MS) (b : breeding I) (size : nat) (p : population I) (offspring : list I),
  must (breed io fexp mdl ms p b) (fun _ => True) ->
  must (generate_new_population io fexp mdl ms (b, size) p offspring) (fun r =>
    length r = if size - length offspring =? 1 then length offspring else Nat.max (length offspring) size).
Proof. exact generate_length. Qed.
Print Assumptions C58_generate_returns.
(** ... so it does not fill the population when exactly one is missing. *)
Theorem C58_fills_refuted :
  exists (p : population nat) (b : breeding nat) (size : nat) (offspring r : list nat),
  length offspring <= size /\
  must (generate_new_population ex_io ex_exp ex_model tt (b, size) p offspring) (fun r' => r' = r) /\
  length r < size.
Proof. exact fills_refuted. Qed.
Print Assumptions C58_fills_refuted.
Example C58_example :
  run (generate_new_population ex_io ex_exp ex_model tt (mkBreeding f0 f1 Rank, 3) (ex_popn ex_io [4; 5; 6]) [6])
    [0; 0; 0; 0; 0; 0]%N = Some [6; 5; 5].
Proof. vm_compute; reflexivity. Qed.

(** C60: the adjusted rates. *)
Theorem C60_adapted_rates :
  forall (I MS : Type) (s : aga_state I MS) (p : population I) (ref cr mr : f64),
  rate (fst (aga_crossover_range s)) /\ rate (snd (aga_crossover_range s)) /\
  rate (fst (aga_mutation_range s)) /\ rate (snd (aga_mutation_range s)) ->
  adjusts (aga_interval s) (generation p) ->
  fle f0 (deviation p) = true -> is_finite (aga_reference_std s) = true -> flt f0 (aga_reference_std s) = true ->
  aga_adjust s p = (ref, cr, mr) ->
  ref = aga_reference_std s /\ rate cr /\ rate mr /\
  ((B2R (fst (aga_crossover_range s)) <= B2R (snd (aga_crossover_range s)))%R ->
     (B2R (fst (aga_crossover_range s)) <= B2R cr <= B2R (snd (aga_crossover_range s)) + bpow radix2 (-53))%R) /\
  ((B2R (fst (aga_mutation_range s)) <= B2R (snd (aga_mutation_range s)))%R ->
     (B2R (fst (aga_mutation_range s)) <= B2R mr <= B2R (snd (aga_mutation_range s)) + bpow radix2 (-53))%R) /\
  (fle (aga_reference_std s) (deviation p) = true -> B2R mr = B2R (fst (aga_mutation_range s))) /\
  (feq (deviation p) f0 = true -> B2R cr = B2R (fst (aga_crossover_range s))).
Proof. exact @adapted_rates. Qed.
Print Assumptions C60_adapted_rates.
Theorem C60_monotone :
  forall (I MS : Type) (s : aga_state I MS) (p1 p2 : population I) (ref1 cr1 mr1 ref2 cr2 mr2 : f64),
  rate (fst (aga_crossover_range s)) /\ rate (snd (aga_crossover_range s)) /\
  rate (fst (aga_mutation_range s)) /\ rate (snd (aga_mutation_range s)) ->
  adjusts (aga_interval s) (generation p1) -> adjusts (aga_interval s) (generation p2) ->
  fle f0 (deviation p1) = true -> fle (deviation p1) (deviation p2) = true ->
  is_finite (aga_reference_std s) = true -> flt f0 (aga_reference_std s) = true ->
  aga_adjust s p1 = (ref1, cr1, mr1) -> aga_adjust s p2 = (ref2, cr2, mr2) ->
  ((B2R (fst (aga_crossover_range s)) <= B2R (snd (aga_crossover_range s)))%R -> (B2R cr1 <= B2R cr2)%R) /\
  ((B2R (fst (aga_mutation_range s)) <= B2R (snd (aga_mutation_range s)))%R -> (B2R mr2 <= B2R mr1)%R).
Proof. exact @adapted_mono. Qed.
Print Assumptions C60_monotone.
(** When the deviation of the first population and the current one are both 0,
    the rates become NaN, and then neither crossover nor mutation is ever called:
    breeding would do the same whatever they were. *)
Theorem C60_both_zero :
  forall (I MS : Type) (s : aga_state I MS) (p : population I) (ref cr mr : f64),
  adjusts (aga_interval s) (generation p) -> feq (deviation p) f0 = true -> feq (aga_reference_std s) f0 = true ->
  aga_adjust s p = (ref, cr, mr) -> is_nan cr = true /\ is_nan mr = true.
Proof. exact @frozen_rates. Qed.
Print Assumptions C60_both_zero.
(** A range written the other way round is accepted and turns the adjustment round: the
    more diverse the population, the less crossover and the more mutation. *)
Theorem C60_reversed_ranges :
  forall (I MS : Type) (s : aga_state I MS) (p1 p2 : population I) (ref1 cr1 mr1 ref2 cr2 mr2 : f64),
  rate (fst (aga_crossover_range s)) /\ rate (snd (aga_crossover_range s)) /\
  rate (fst (aga_mutation_range s)) /\ rate (snd (aga_mutation_range s)) ->
  adjusts (aga_interval s) (generation p1) -> adjusts (aga_interval s) (generation p2) ->
  fle f0 (deviation p1) = true -> fle (deviation p1) (deviation p2) = true ->
  is_finite (aga_reference_std s) = true -> flt f0 (aga_reference_std s) = true ->
  aga_adjust s p1 = (ref1, cr1, mr1) -> aga_adjust s p2 = (ref2, cr2, mr2) ->
  ((B2R (snd (aga_crossover_range s)) <= B2R (fst (aga_crossover_range s)))%R -> (B2R cr2 <= B2R cr1)%R) /\
  ((B2R (snd (aga_mutation_range s)) <= B2R (fst (aga_mutation_range s)))%R -> (B2R mr1 <= B2R mr2)%R).
Proof. exact @adjust_reversed. Qed.
Print Assumptions C60_reversed_ranges.
(** If all individuals of the first population had the same fitness and the present ones
    have not, the rates are those of a fully diverse population, however small the
    deviation is. *)
Theorem C60_from_zero :
  forall (I MS : Type) (s : aga_state I MS) (p : population I) (ref cr mr : f64),
  rate (fst (aga_crossover_range s)) /\ rate (snd (aga_crossover_range s)) /\
  rate (fst (aga_mutation_range s)) /\ rate (snd (aga_mutation_range s)) ->
  adjusts (aga_interval s) (generation p) -> aga_reference_std s = f0 -> flt f0 (deviation p) = true ->
  aga_adjust s p = (ref, cr, mr) ->
  rate cr /\ rate mr /\ (Rabs (B2R cr - B2R (snd (aga_crossover_range s))) <= bpow radix2 (-53))%R /\
  B2R mr = B2R (fst (aga_mutation_range s)).
Proof. exact @adjust_from_zero. Qed.
Print Assumptions C60_from_zero.
(** If the deviation of the first population overflowed, the rates are those of a
    population without diversity. *)
Theorem C60_from_infinity :
  forall (I MS : Type) (s : aga_state I MS) (p : population I) (ref cr mr : f64),
  rate (fst (aga_crossover_range s)) /\ rate (snd (aga_crossover_range s)) /\
  rate (fst (aga_mutation_range s)) /\ rate (snd (aga_mutation_range s)) ->
  adjusts (aga_interval s) (generation p) -> aga_reference_std s = f_inf ->
  is_finite (deviation p) = true -> fle f0 (deviation p) = true -> aga_adjust s p = (ref, cr, mr) ->
  rate cr /\ rate mr /\ B2R cr = B2R (fst (aga_crossover_range s)) /\
  (Rabs (B2R mr - B2R (snd (aga_mutation_range s))) <= bpow radix2 (-53))%R.
Proof. exact @adjust_from_inf. Qed.
Print Assumptions C60_from_infinity.
(** With a deviation that is NaN, now or of the first population, or infinite both times,
    both rates are NaN. *)
Theorem C60_from_nan :
  forall (I MS : Type) (s : aga_state I MS) (p : population I) (ref cr mr : f64),
  adjusts (aga_interval s) (generation p) ->
  is_nan (deviation p) = true \/ is_nan (aga_reference_std s) = true \/ (deviation p = f_inf /\ aga_reference_std s = f_inf) ->
  aga_adjust s p = (ref, cr, mr) -> is_nan cr = true /\ is_nan mr = true.
Proof. exact @adjust_nan. Qed.
Print Assumptions C60_from_nan.
(** Rates that are NaN switch crossover and mutation off. *)
Theorem C60_nan_rates :
  forall (I : Type) (io : individual_ops I) (fexp : f64 -> f64) (MS : Type) (mdl : model I MS)
    (ms : MS) (p : population I) (b : breeding I) (c : MS -> I -> I -> M I) (m : MS -> I -> M I),
  is_nan (crossover_rate b) = true -> is_nan (mutation_rate b) = true ->
  same_behaviour (breed io fexp mdl ms p b) (breed io fexp (with_variation mdl c m) ms p b).
Proof. exact @nan_no_variation. Qed.
Print Assumptions C60_nan_rates.
Definition C60_state (ref : f64) : aga_state nat unit :=
  mkAga tt 3 1 5 (f_lit 1 4, f_lit 3 4) (f_lit 1 8, f_lit 5 8) (mkBreeding f0 f0 Rank) ref.
Definition C60_pop (l : list nat) : population nat := mkPopulation l 10 0 (stats_of ex_io l).
Example C60_example : adjusts 5 10 /\
  (let '(_, cr, mr) := aga_adjust (C60_state f2) (C60_pop [4; 6; 8]) in feq cr (f_lit 3 4) && feq mr (f_lit 1 8)) = true /\
  (let '(_, cr, mr) := aga_adjust (C60_state f4) (C60_pop [4; 6; 8]) in feq cr (f_lit 1 2) && feq mr (f_lit 3 8)) = true /\
  (let '(_, cr, mr) := aga_adjust (C60_state f0) (C60_pop [4]) in is_nan cr && is_nan mr) = true /\
  (let '(_, cr, mr) := aga_adjust (C60_state f0) (C60_pop [4; 5]) in feq cr (f_lit 3 4) && feq mr (f_lit 1 8)) = true /\
  (let '(_, cr, mr) := aga_adjust (C60_state f_inf) (C60_pop [4; 5]) in feq cr (f_lit 1 4) && feq mr (f_lit 5 8)) = true.
Proof. split; [split; [lia|split; [lia|exists 2; lia]]|]; vm_compute; auto. Qed.

(** C61: the rates after any number of generations: those of the latest
    adjustment, or the starting ones (end of the crossover range, start of the
    mutation range) before the first adjustment. *)
Theorem C61_rate_history :
  forall (I : Type) (io : individual_ops I) (fexp : f64 -> f64) (MS : Type) (mdl : model I MS)
    (s0 s : aga_state I MS) (ps : list (population I)) (p0 : population I),
  rates_left_alone mdl -> prepared io fexp mdl s0 ps s -> nth_error ps 0 = Some p0 ->
  aga_reference_std s = deviation p0 /\
  exists j pj, nth_error ps j = Some pj /\ (j = 0 \/ adjusts (aga_interval s0) j) /\
    (forall i, j < i < length ps -> ~ adjusts (aga_interval s0) i) /\
    crossover_rate (aga_breeding s) = (if j =? 0 then snd (aga_crossover_range s0)
      else point (aga_crossover_range s0) (diversity_of (deviation pj) (deviation p0))) /\
    mutation_rate (aga_breeding s) = (if j =? 0 then fst (aga_mutation_range s0)
      else point (aga_mutation_range s0) (fsub f1 (diversity_of (deviation pj) (deviation p0)))).
Proof. exact rate_history. Qed.
Print Assumptions C61_rate_history.
(** With interval 0 they never change. *)
Theorem C61_interval_zero :
  forall (I : Type) (io : individual_ops I) (fexp : f64 -> f64) (MS : Type) (mdl : model I MS)
    (s0 s : aga_state I MS) (ps : list (population I)),
  rates_left_alone mdl -> prepared io fexp mdl s0 ps s -> ps <> [] -> aga_interval s0 = 0 ->
  crossover_rate (aga_breeding s) = snd (aga_crossover_range s0) /\
  mutation_rate (aga_breeding s) = fst (aga_mutation_range s0).
Proof. exact interval_zero. Qed.
Print Assumptions C61_interval_zero.
Definition C61_state : aga_state nat unit :=
  mkAga tt 3 1 5 (f_lit 1 4, f_lit 3 4) (f_lit 1 8, f_lit 5 8) (mkBreeding (f_lit 3 4) (f_lit 1 8) Rank)
    (deviation (ex_popn ex_io [4; 6])).
Example C61_example : rates_left_alone ex_model /\
  prepared ex_io ex_exp ex_model (C60_state f_nan) [ex_popn ex_io [4; 6]] C61_state.
Proof.
  split; [intros ms p b ms' b' [= <- <-]; auto|].
  apply (prepared_next _ _ _ _ [] _ _ _ (prepared_start _ _ _ _)); [reflexivity|].
  unfold aga_prepare; rewrite adjust_first by reflexivity; reflexivity.
Qed.
