(** * Properties_Selection: theorems about src/operators/selection.rs (C30-C40, C70, C82, C84). *)
From Coq Require Import List Bool Arith NArith ZArith Reals Lia Lra.
From Flocq Require Import Core BinarySingleNaN.
From Verif Require Import Rnd Prob F64 LF64 MStats MPopulation MSelection SpecF ExF PSelection PSelection2 PLinear PSelection3 PSum PLinear2.
Import ListNotations.

(** C30: every built-in mechanism other than Linear returns a member of the
    population, with its index, whatever the fitness values and the totals. *)
Theorem C30_selection_returns_member :
  forall (I : Type) (io : individual_ops I) (fexp : f64 -> f64) (s : selector I) (p : population I),
  match s with
  | Tournament size => 1 <= size
  | Elitist ratio => is_finite ratio = true /\ (0 <= B2R ratio < 1)%R
  | RouletteWheel _ | Boltzmann _ _ _ | Rank => True
  | Linear _ | Custom _ _ _ _ => False
  end ->
  individuals p <> [] -> fits_usize (length (individuals p)) ->
  must (select io fexp s p) (fun r => nth_error (individuals p) (fst r) = Some (snd r)).
Proof. exact @selection_member. Qed.
Print Assumptions C30_selection_returns_member.
Theorem C30_selection_empty_population_panics :
  forall (I : Type) (io : individual_ops I) (fexp : f64 -> f64) (s : selector I) (p : population I),
  match s with Custom _ _ _ _ => False | _ => True end ->
  individuals p = [] -> must_fail (select io fexp s p) Panic.
Proof. exact @selection_empty. Qed.
Print Assumptions C30_selection_empty_population_panics.
Example C30_example :
  individuals (ex_popn ex_iof [f_nan; f_inf]) <> [] /\
  run (select ex_iof ex_exp (RouletteWheel f_nan) (ex_popn ex_iof [f_nan; f_inf])) [5%N] = Some (1, f_inf).
Proof. split; [discriminate|vm_compute; reflexivity]. Qed.

(** C31 *)
Theorem C31_tournament_law :
  forall (I : Type) (io : individual_ops I) (fexp : f64 -> f64) (size : nat) (p : population I) (i : nat),
  1 <= size -> i < length (individuals p) ->
  prob (select io fexp (Tournament size) p) (fun r => fst r <=? i)
  = ((INR (i + 1) / INR (length (individuals p))) ^ size)%R.
Proof. intros I io fexp; exact (@tournament_law I). Qed.
Print Assumptions C31_tournament_law.
Example C31_example : 1 <= 3 /\ 1 < length (individuals (ex_popn ex_io [4; 5; 6])) /\
  run (select ex_io ex_exp (Tournament 3) (ex_popn ex_io [4; 5; 6])) [0; 1; 0]%N = Some (1, 5).
Proof. repeat split; cbn; try lia; vm_compute; reflexivity. Qed.

(** C32: the probabilities add up to 1, so the fall-through branch is never taken. *)
Theorem C32_rank_law :
  forall (I : Type) (io : individual_ops I) (fexp : f64 -> f64) (p : population I) (i : nat),
  i < length (individuals p) ->
  prob (select io fexp Rank p) (fun r => fst r =? i)
  = (INR (i + 1) / (INR (length (individuals p)) * (INR (length (individuals p)) + 1) / 2))%R.
Proof. intros I io fexp; exact (@rank_law I). Qed.
Print Assumptions C32_rank_law.
Theorem C32_rank_no_fall_through :
  forall (I : Type) (p : population I) (target : nat),
  1 <= target <= length (individuals p) * (length (individuals p) + 1) / 2 ->
  exists r, rank_loop target 0 0 (individuals p) = Some r.
Proof. exact @rank_no_fall_through. Qed.
Print Assumptions C32_rank_no_fall_through.
Example C32_example :
  map (fun t => run (select ex_io ex_exp Rank (ex_popn ex_io [4; 5; 6])) [t]) [0; 1; 2; 3; 4; 5]%N
  = map Some [(0, 4); (1, 5); (1, 5); (2, 6); (2, 6); (2, 6)].
Proof. vm_compute; reflexivity. Qed.

(** C33: the computed bound lies between floor(len * ratio) and one more than it,
    is below the length, and the index is uniform on bound..len. *)
Theorem C33_elitist_bound :
  forall (n : nat) (ratio : f64),
  1 <= n -> fits_usize n -> is_finite ratio = true -> (0 <= B2R ratio < 1)%R ->
  elitist_bound n ratio < n /\
  ((Z.of_nat n <= 2 ^ 53)%Z ->
   (Zfloor (INR n * B2R ratio) <= Z.of_nat (elitist_bound n ratio) <= Zfloor (INR n * B2R ratio) + 1)%Z).
Proof. exact elitist_bound_spec. Qed.
Print Assumptions C33_elitist_bound.
Theorem C33_elitist_only_top :
  forall (I : Type) (io : individual_ops I) (fexp : f64 -> f64) (ratio : f64) (p : population I),
  is_finite ratio = true -> (0 <= B2R ratio < 1)%R -> individuals p <> [] -> fits_usize (length (individuals p)) ->
  must (select io fexp (Elitist ratio) p) (fun r => elitist_bound (length (individuals p)) ratio <= fst r).
Proof. exact @elitist_only_top. Qed.
Print Assumptions C33_elitist_only_top.
Theorem C33_elitist_uniform :
  forall (I : Type) (io : individual_ops I) (fexp : f64 -> f64) (ratio : f64) (p : population I) (i : nat),
  is_finite ratio = true -> (0 <= B2R ratio < 1)%R -> fits_usize (length (individuals p)) ->
  elitist_bound (length (individuals p)) ratio <= i < length (individuals p) ->
  prob (select io fexp (Elitist ratio) p) (fun r => fst r =? i)
  = (1 / INR (length (individuals p) - elitist_bound (length (individuals p)) ratio))%R.
Proof. exact @elitist_uniform. Qed.
Print Assumptions C33_elitist_uniform.
(** The rounded product can reach the next integer: the f64 0.3 is below 3/10,
    yet 10 * 0.3 is 3; 0.9 of 10 leaves one individual. *)
Example C33_example :
  elitist_bound 10 (f_lit 3 10) = 3 /\ elitist_bound 10 (f_lit 9 10) = 9 /\
  run (select ex_io ex_exp (Elitist (f_lit 1 2)) (ex_popn ex_io [4; 5; 6])) [1%N] = Some (2, 6).
Proof. repeat split; vm_compute; reflexivity. Qed.

(** C34: the exact rule of roulette selection as a function of the uniform draw. *)
Theorem C34_roulette_rule :
  forall (I : Type) (io : individual_ops I) (fexp : f64 -> f64) (total : f64) (p : population I),
  individuals p <> [] ->
  exists k, select io fexp (RouletteWheel total) p = Draw (2 ^ 53) k /\
  forall u, (u < 2 ^ 53)%N -> exists i x, k u = Ret (i, x) /\ nth_error (individuals p) i = Some x /\
    wheel_picks (fitness io) (individuals p) (fmul (f_unit u) total) i.
Proof. exact @roulette_law. Qed.
Print Assumptions C34_roulette_rule.
Theorem C34_roulette_rule_deterministic :
  forall (I : Type) (weight : I -> f64) (l : list I) (target : f64) (i j : nat),
  wheel_picks weight l target i -> wheel_picks weight l target j -> i = j.
Proof. exact @wheel_picks_fun. Qed.
Print Assumptions C34_roulette_rule_deterministic.
Theorem C34_roulette_monotone :
  forall (I : Type) (io : individual_ops I) (fexp : f64 -> f64) (total : f64) (p : population I) (k : N -> M (nat * I))
    (u1 u2 : N) (r1 r2 : nat * I),
  is_finite total = true -> (0 <= B2R total)%R -> individuals p <> [] ->
  select io fexp (RouletteWheel total) p = Draw (2 ^ 53) k ->
  (u1 <= u2)%N -> (u2 < 2 ^ 53)%N -> k u1 = Ret r1 -> k u2 = Ret r2 -> fst r1 <= fst r2.
Proof. exact @roulette_monotone. Qed.
Print Assumptions C34_roulette_monotone.
Theorem C34_roulette_prepare :
  forall (I : Type) (io : individual_ops I) (fexp : f64 -> f64) (total : f64) (p : population I),
  must (prepare io fexp (RouletteWheel total) p)
    (fun s => exists v, s = RouletteWheel v /\ split_sum (map (fitness io) (individuals p)) v).
Proof. exact @prepare_roulette. Qed.
Print Assumptions C34_roulette_prepare.
Example C34_example :
  let p := ex_popn ex_io [1; 2; 5] in
  run (s <- prepare ex_io ex_exp roulette_new p ;; select ex_io ex_exp s p) [0; 1 * 2 ^ 50]%N = Some (0, 1) /\
  run (s <- prepare ex_io ex_exp roulette_new p ;; select ex_io ex_exp s p) [0; 3 * 2 ^ 50]%N = Some (1, 2) /\
  run (s <- prepare ex_io ex_exp roulette_new p ;; select ex_io ex_exp s p) [0; 3 * 2 ^ 50 + 1]%N = Some (2, 5).
Proof. vm_compute; auto. Qed.

(** C35: the temperature after any sequence of prepares; one prepare already
    cools; the total is a sum of exp(fitness / cooled temperature). *)
Theorem C35_boltzmann_schedule :
  forall (I : Type) (io : individual_ops I) (fexp : f64 -> f64) (ps : list (population I)) (t c total : f64),
  must (prepares io fexp (Boltzmann t c total) ps)
    (fun s => exists v, s = Boltzmann (cooled (length ps) t c) c v).
Proof. exact @prepares_boltzmann. Qed.
Print Assumptions C35_boltzmann_schedule.
Theorem C35_boltzmann_prepare :
  forall (I : Type) (io : individual_ops I) (fexp : f64 -> f64) (t c total : f64) (p : population I),
  must (prepare io fexp (Boltzmann t c total) p)
    (fun s => exists v, s = Boltzmann (fmul t c) c v /\
       split_sum (map (fun x => fexp (fdiv (fitness io x) (fmul t c))) (individuals p)) v).
Proof. exact @prepare_boltzmann. Qed.
Print Assumptions C35_boltzmann_prepare.
Theorem C35_boltzmann_rule :
  forall (I : Type) (io : individual_ops I) (fexp : f64 -> f64) (t c total : f64) (p : population I),
  individuals p <> [] ->
  exists k, select io fexp (Boltzmann t c total) p = Draw (2 ^ 53) k /\
  forall u, (u < 2 ^ 53)%N -> exists i x, k u = Ret (i, x) /\ nth_error (individuals p) i = Some x /\
    wheel_picks (fun x => fexp (fdiv (fitness io x) t)) (individuals p) (fmul (f_unit u) total) i.
Proof. exact @boltzmann_law. Qed.
Print Assumptions C35_boltzmann_rule.
Theorem C35_others_unchanged :
  forall (I : Type) (io : individual_ops I) (fexp : f64 -> f64) (s : selector I) (p : population I),
  match s with Tournament _ | Rank | Elitist _ | Linear _ => prepare io fexp s p = Ret s | _ => True end.
Proof. exact @prepare_other. Qed.
Print Assumptions C35_others_unchanged.
Example C35_example :
  match run (prepares ex_io ex_exp (Boltzmann (f_of_Z 8) (f_lit 1 2) f0) [ex_popn ex_io [1; 2]; ex_popn ex_io [3]]) [0; 0]%N with
  | Some (Boltzmann t c total) => feq t f2 && feq c (f_lit 1 2) && feq total f1
  | _ => false
  end = true.
Proof. vm_compute; reflexivity. Qed.

(** C36: when every scaled fitness overflows, all draws but one select the
    first, least fit, individual. *)
Theorem C36_cold_boltzmann_selects_least_fit :
  forall (I : Type) (io : individual_ops I) (fexp : f64 -> f64) (t c total : f64) (p : population I) (x0 : I) (rest : list I),
  individuals p = x0 :: rest ->
  (forall x, In x (individuals p) -> fexp (fdiv (fitness io x) (fmul t c)) = f_inf) ->
  must (prepare io fexp (Boltzmann t c total) p) (fun s =>
    exists k, select io fexp s p = Draw (2 ^ 53) k /\
      forall u, (0 < u < 2 ^ 53)%N -> k u = Ret (0, x0)).
Proof. exact @boltzmann_cold. Qed.
Print Assumptions C36_cold_boltzmann_selects_least_fit.
Example C36_example :
  let p := ex_popn ex_io [900; 1000] in
  (forall x, In x (individuals p) -> ex_exp (fdiv (fitness ex_io x) (fmul f1 f1)) = f_inf) /\
  run (s <- prepare ex_io ex_exp (Boltzmann f1 f1 f0) p ;; select ex_io ex_exp s p) [0; 2 ^ 53 - 1]%N = Some (0, 900).
Proof. split; [cbn [individuals ex_popn In]; intros x [<-|[<-|[]]]; vm_compute; reflexivity|vm_compute; reflexivity]. Qed.

(** C37: linear selection with the biases 1.15, 1.2, 1.25, 1.3, 1.4, 1.5, 1.6,
    1.7, 1.75, 1.8, 1.9, 2 and 2.5 is safe for every population and draw ... *)
Theorem C37_linear_safe_biases :
  forall (I : Type) (io : individual_ops I) (fexp : f64 -> f64) (num den : Z) (p : population I),
  In (num, den) [(115, 100); (12, 10); (125, 100); (13, 10); (14, 10); (15, 10); (16, 10); (17, 10);
                 (175, 100); (18, 10); (19, 10); (2, 1); (25, 10)]%Z ->
  individuals p <> [] -> fits_usize (length (individuals p)) ->
  must (select io fexp (Linear (f_lit num den)) p) (fun r => nth_error (individuals p) (fst r) = Some (snd r)).
Proof. exact @linear_safe_biases. Qed.
Print Assumptions C37_linear_safe_biases.
(** ... and so is every bias in (1, 4] with a margin at the largest draw; ... *)
Theorem C37_linear_safe_with_margin :
  forall (I : Type) (io : individual_ops I) (fexp : f64 -> f64) (b : f64) (p : population I),
  linear_margin b -> individuals p <> [] -> fits_usize (length (individuals p)) ->
  must (select io fexp (Linear b) p) (fun r => nth_error (individuals p) (fst r) = Some (snd r)).
Proof. exact @linear_must. Qed.
Print Assumptions C37_linear_safe_with_margin.
(** ... for a given population the largest draw decides: if it selects, every
    draw selects; ... *)
Theorem C37_linear_largest_draw_decides :
  forall (I : Type) (io : individual_ops I) (fexp : f64 -> f64) (b : f64) (p : population I) (k : N -> M (nat * I)) (r : nat * I),
  is_finite b = true -> (1 < B2R b <= 4)%R -> (0 <= B2R (linear_radicand b largest_draw))%R ->
  individuals p <> [] -> fits_usize (length (individuals p)) ->
  select io fexp (Linear b) p = Draw (2 ^ 53) k -> k (2 ^ 53 - 1)%N = Ret r ->
  must (select io fexp (Linear b) p) (fun r => nth_error (individuals p) (fst r) = Some (snd r)).
Proof. exact @linear_largest. Qed.
Print Assumptions C37_linear_largest_draw_decides.
(** ... but not with every bias in (1, 2]: with bias 1.1 and 10 individuals the
    largest draw makes the index computation underflow. *)
Theorem C37_linear_never_panics_refuted :
  exists (I : Type) (io : individual_ops I) (bias : f64) (p : population I),
  (1 < B2R bias <= 2)%R /\ length (individuals p) = 10 /\
  forall fexp, may_fail (select io fexp (Linear bias) p) Panic.
Proof. exact linear_refuted. Qed.
Print Assumptions C37_linear_never_panics_refuted.
Example C37_example :
  run (select ex_io ex_exp (Linear (f_lit 15 10)) (ex_popn ex_io [1; 2; 3])) [2 ^ 53 - 1]%N = Some (0, 1) /\
  run (select ex_io ex_exp (Linear (f_lit 15 10)) (ex_popn ex_io [1; 2; 3])) [0]%N = Some (2, 3) /\
  linear_margin (f_lit 15 10).
Proof. split; [vm_compute; reflexivity|split; [vm_compute; reflexivity|apply sound_margin; cbn; tauto]]. Qed.

(** C38 *)
Theorem C38_linear_bias_one_returns_last :
  forall (I : Type) (io : individual_ops I) (fexp : f64 -> f64) (p : population I),
  individuals p <> [] -> fits_usize (length (individuals p)) ->
  exists x k, nth_error (individuals p) (length (individuals p) - 1) = Some x /\
    select io fexp (Linear f1) p = Draw (2 ^ 53) k /\
    forall u, (u < 2 ^ 53)%N -> k u = Ret (length (individuals p) - 1, x).
Proof. exact @linear_one. Qed.
Print Assumptions C38_linear_bias_one_returns_last.
Example C38_example :
  run (select ex_io ex_exp (Linear f1) (ex_popn ex_io [1; 2; 3])) [12345]%N = Some (2, 3).
Proof. vm_compute; reflexivity. Qed.

(** C39: select_distinct, for built-in and user-defined mechanisms. *)
Theorem C39_select_distinct_some :
  forall (I : Type) (io : individual_ops I) (fexp : f64 -> f64) (s : selector I) (p : population I)
    (tries : nat) (excluded : I) (r : nat * I),
  may (select_distinct io fexp s p tries excluded) (Some r) <->
  1 <= tries /\ may (select io fexp s p) r /\ ieq io (snd r) excluded = false.
Proof. exact @select_distinct_some. Qed.
Print Assumptions C39_select_distinct_some.
Theorem C39_select_distinct_none :
  forall (I : Type) (io : individual_ops I) (fexp : f64 -> f64) (s : selector I) (p : population I)
    (tries : nat) (excluded : I),
  may (select_distinct io fexp s p tries excluded) None <->
  tries = 0 \/ exists r, may (select io fexp s p) r /\ ieq io (snd r) excluded = true.
Proof. exact @select_distinct_none. Qed.
Print Assumptions C39_select_distinct_none.
Theorem C39_select_distinct_panics :
  forall (I : Type) (io : individual_ops I) (fexp : f64 -> f64) (s : selector I) (p : population I)
    (tries : nat) (excluded : I) (e : err),
  may_fail (select_distinct io fexp s p tries excluded) e <-> 1 <= tries /\ may_fail (select io fexp s p) e.
Proof. exact @select_distinct_fail. Qed.
Print Assumptions C39_select_distinct_panics.
(** Giving up means [tries] independent selections of an excluded individual. *)
Theorem C39_select_distinct_none_probability :
  forall (I : Type) (io : individual_ops I) (fexp : f64 -> f64) (s : selector I) (p : population I)
    (tries : nat) (excluded : I),
  match s with Custom _ _ _ _ => False | _ => True end ->
  prob (select_distinct io fexp s p tries excluded) (fun o => match o with None => true | Some _ => false end)
  = (prob (select io fexp s p) (fun r => ieq io (snd r) excluded) ^ tries)%R.
Proof. exact @select_distinct_none_prob. Qed.
Print Assumptions C39_select_distinct_none_probability.
Example C39_example :
  run (select_distinct ex_io ex_exp (Tournament 1) (ex_popn ex_io [4; 5; 6]) 3 5) [1; 1; 2]%N = Some (Some (2, 6)) /\
  run (select_distinct ex_io ex_exp (Tournament 1) (ex_popn ex_io [4; 5; 6]) 3 5) [1; 1; 1]%N = Some None.
Proof. split; vm_compute; reflexivity. Qed.

(** C40: construction and setters. *)
Theorem C40_create_selector_valid :
  forall (I : Type) (s : selection_strategy),
  match s with
  | StTournament size => size <> 0
  | StBoltzmann _ c => forall sg, c <> B754_zero sg
  | StElitist ratio => is_finite ratio = true /\ (0 <= B2R ratio < 1)%R
  | _ => True
  end ->
  @create_selector I s = Ret (match s with
    | StTournament size => Tournament size
    | StRouletteWheel => RouletteWheel f0
    | StBoltzmann t c => Boltzmann t c f0
    | StRank => Rank
    | StLinear b => Linear b
    | StElitist r => Elitist r
    end).
Proof. exact @create_selector_valid. Qed.
Print Assumptions C40_create_selector_valid.
Theorem C40_create_selector_invalid :
  forall (I : Type) (s : selection_strategy),
  match s with
  | StTournament size => size = 0
  | StBoltzmann _ c => exists sg, c = B754_zero sg
  | StElitist ratio => ~ (is_finite ratio = true /\ (0 <= B2R ratio < 1)%R)
  | _ => False
  end ->
  @create_selector I s = Fail Panic.
Proof. exact @create_selector_invalid. Qed.
Print Assumptions C40_create_selector_invalid.
Theorem C40_setters :
  (forall t size, set_size t size = if size =? 0 then Fail Panic else Ret size) /\
  (forall c c' sg, c' = B754_zero sg -> set_cooling_rate c c' = Fail Panic) /\
  (forall c c', (forall sg, c' <> B754_zero sg) -> set_cooling_rate c c' = Ret c') /\
  (forall r r', is_finite r' = true /\ (0 <= B2R r' < 1)%R -> set_ratio r r' = Ret r') /\
  (forall r r', ~ (is_finite r' = true /\ (0 <= B2R r' < 1)%R) -> set_ratio r r' = Fail Panic).
Proof. exact setters. Qed.
Print Assumptions C40_setters.
Example C40_example :
  @create_selector nat (StElitist f1) = Fail Panic /\ @create_selector nat (StElitist f_nan) = Fail Panic /\
  @create_selector nat (StBoltzmann f_nan f_nan) = Ret (Boltzmann f_nan f_nan f0).
Proof. repeat split; vm_compute; reflexivity. Qed.

(** C70: roulette selection is fitness-proportionate up to 3 * 2^-53: the
    probability of an index at most [i] is the running fitness sum divided by
    the total. *)
Theorem C70_roulette_proportional :
  forall (I : Type) (io : individual_ops I) (fexp : f64 -> f64) (total : f64) (p : population I) (i : nat),
  (forall x, In x (individuals p) -> is_finite (fitness io x) = true /\ (0 <= B2R (fitness io x))%R) ->
  is_finite total = true -> (bpow radix2 (-900) <= B2R total)%R ->
  S i < length (individuals p) ->
  let c := running_sum (fitness io) (individuals p) (S i) in
  is_finite c = true -> (B2R c <= B2R total)%R ->
  (0 <= prob (select io fexp (RouletteWheel total) p) (fun r => fst r <=? i) - B2R c / B2R total
     <= 3 * bpow radix2 (-53))%R.
Proof. exact @roulette_proportional. Qed.
Print Assumptions C70_roulette_proportional.
Example C70_example :
  let p := ex_popn ex_io [1; 2; 5] in
  (forall x, In x (individuals p) -> is_finite (fitness ex_io x) = true /\ (0 <= B2R (fitness ex_io x))%R) /\
  (bpow radix2 (-900) <= B2R (f_of_nat 8))%R /\
  feq (running_sum (fitness ex_io) (individuals p) 2) (f_of_nat 3) = true /\
  feq (running_sum (fitness ex_io) (individuals p) 3) (f_of_nat 8) = true.
Proof.
  split; [|split; [|split; vm_compute; reflexivity]].
  - cbn [individuals ex_popn In fitness ex_io]; intros x Hx.
    assert (Hz : (Z.abs (Z.of_nat x) <= 2 ^ 53)%Z) by (destruct Hx as [<-|[<-|[<-|[]]]]; vm_compute; discriminate).
    unfold f_of_nat; destruct (f_of_Z_exact (Z.of_nat x) Hz) as [F ->]; split; auto.
    apply IZR_le, Nat2Z.is_nonneg.
  - unfold f_of_nat; destruct (f_of_Z_exact (Z.of_nat 8)) as [_ ->]; [vm_compute; discriminate|].
    apply Rle_trans with (bpow radix2 3); [apply bpow_le; discriminate|cbn; lra].
Qed.

(** C82: after [prepare], roulette selection returns the individual at index [i]
    with a probability within n * 2^-49 of its exact share of the total fitness,
    however rayon split the summation; Boltzmann selection likewise with the
    scaled fitness. *)
Theorem C82_roulette_shares :
  forall (I : Type) (io : individual_ops I) (fexp : f64 -> f64) (t0 : f64) (p : population I) (i : nat) (x : I),
  nth_error (individuals p) i = Some x ->
  (forall y, In y (individuals p) -> is_finite (fitness io y) = true /\ (0 <= B2R (fitness io y))%R) ->
  (Z.of_nat (length (individuals p)) <= 2 ^ 49)%Z ->
  let total := sumR (map (fun y => B2R (fitness io y)) (individuals p)) in
  (bpow radix2 (-899) <= total <= bpow radix2 1022)%R ->
  must (prepare io fexp (RouletteWheel t0) p) (fun s =>
    (Rabs (prob (select io fexp s p) (fun r => fst r =? i) - B2R (fitness io x) / total)
      <= INR (length (individuals p)) * bpow radix2 (-49))%R).
Proof. exact @roulette_shares. Qed.
Print Assumptions C82_roulette_shares.
Theorem C82_boltzmann_shares :
  forall (I : Type) (io : individual_ops I) (fexp : f64 -> f64) (t c t0 : f64) (p : population I) (i : nat) (x : I),
  let scaled := fun y => fexp (fdiv (fitness io y) (fmul t c)) in
  nth_error (individuals p) i = Some x ->
  (forall y, In y (individuals p) -> is_finite (scaled y) = true /\ (0 <= B2R (scaled y))%R) ->
  (Z.of_nat (length (individuals p)) <= 2 ^ 49)%Z ->
  let total := sumR (map (fun y => B2R (scaled y)) (individuals p)) in
  (bpow radix2 (-899) <= total <= bpow radix2 1022)%R ->
  must (prepare io fexp (Boltzmann t c t0) p) (fun s =>
    (Rabs (prob (select io fexp s p) (fun r => fst r =? i) - B2R (scaled x) / total)
      <= INR (length (individuals p)) * bpow radix2 (-49))%R).
Proof. exact @boltzmann_shares. Qed.
Print Assumptions C82_boltzmann_shares.
Example C82_example :
  let p := ex_popn ex_io [1; 2; 5] in
  (forall y, In y (individuals p) -> is_finite (fitness ex_io y) = true /\ (0 <= B2R (fitness ex_io y))%R) /\
  sumR (map (fun y => B2R (fitness ex_io y)) (individuals p)) = 8%R /\ (bpow radix2 (-899) <= 8 <= bpow radix2 1022)%R.
Proof. exact shares_example. Qed.

(** C84: linear selection with a bias in (1, 2] is linear ranking: of [n]
    individuals sorted from the worst to the best, the one at index [i] is
    selected with probability (bias * n - (bias - 1) * (2 (n - 1 - i) + 1)) / n^2,
    up to 2^-47 / (bias - 1).  The best gets about bias / n, the worst
    about (2 - bias) / n. *)
Theorem C84_linear_shares :
  forall (I : Type) (io : individual_ops I) (fexp : f64 -> f64) (b : f64) (p : population I) (i : nat),
  let n := length (individuals p) in
  is_finite b = true -> (1 < B2R b <= 2)%R -> (Z.of_nat n <= 2 ^ 53)%Z -> i < n ->
  (Rabs (prob (select io fexp (Linear b) p) (fun r => fst r =? i) -
         (B2R b * INR n - (B2R b - 1) * (2 * INR (n - 1 - i) + 1)) / (INR n * INR n))
    <= bpow radix2 (-47) / (B2R b - 1))%R.
Proof. exact @linear_share. Qed.
Print Assumptions C84_linear_shares.
(** ... the [k] best individuals together get bias * t - (bias - 1) * t^2 for
    t = k / n; ... *)
Theorem C84_linear_cumulative :
  forall (I : Type) (io : individual_ops I) (fexp : f64 -> f64) (b : f64) (p : population I) (k : nat),
  let n := length (individuals p) in
  is_finite b = true -> (1 < B2R b <= 2)%R -> 1 <= n -> (Z.of_nat n <= 2 ^ 53)%Z -> k <= n ->
  let t := (INR k / INR n)%R in
  (Rabs (prob (select io fexp (Linear b) p) (fun r => n - k <=? fst r) - (B2R b * t - (B2R b - 1) * (t * t)))
    <= bpow radix2 (-48) / (B2R b - 1))%R.
Proof. exact @linear_cumulative. Qed.
Print Assumptions C84_linear_cumulative.
(** ... and the panic of C37 has at most the probability 2^-48 / (bias - 1). *)
Theorem C84_linear_panic_rare :
  forall (I : Type) (io : individual_ops I) (fexp : f64 -> f64) (b : f64) (p : population I),
  let n := length (individuals p) in
  is_finite b = true -> (1 < B2R b <= 2)%R -> 1 <= n -> (Z.of_nat n <= 2 ^ 53)%Z ->
  (1 - bpow radix2 (-48) / (B2R b - 1) <= prob (select io fexp (Linear b) p) (fun _ => true))%R.
Proof. exact @linear_panic_rare. Qed.
Print Assumptions C84_linear_panic_rare.
Example C84_example :
  let p := ex_popn ex_io [1; 2; 5] in let b := f_lit 3 2 in
  is_finite b = true /\ (1 < B2R b <= 2)%R /\ length (individuals p) = 3 /\
  ((B2R b * INR 3 - (B2R b - 1) * (2 * INR (3 - 1 - 2) + 1)) / (INR 3 * INR 3) = 4 / 9)%R /\
  ((B2R b * INR 3 - (B2R b - 1) * (2 * INR (3 - 1 - 0) + 1)) / (INR 3 * INR 3) = 2 / 9)%R.
Proof. exact linear_share_example. Qed.
