(** * PRun5: the examples and refutations of Properties_Run. *)
From Coq Require Import List Bool Arith NArith ZArith Reals Lia Lra.
From Flocq Require Import Core BinarySingleNaN.
From Verif Require Import Rnd LRnd F64 LF64 MStats MPopulation MSelection MModel MAlgorithms SpecF SpecA ExF ExM ExR
  PModel PAlgorithms PRun PRun3 PRun4.
Import ListNotations.
Local Open Scope nat_scope.

Lemma c63_generations (I MS P S0 PS : Type) (io : individual_ops I) (fexp : f64 -> f64) (mdl : model I MS) (alg : algorithm I MS P S0)
  (progress : PS -> S0 -> population I -> M (bool * PS * S0)) fuel s init q ps (r : run_result I S0 PS) :
  may (evolve_population io fexp mdl alg progress fuel s init q ps) r ->
  (forall k p, nth_error (r_trace r) k = Some p -> generation p = k) /\
  r_trace r <> [] /\ nth_error (r_trace r) (length (r_trace r) - 1) = Some (r_population r).
Proof. apply protocol_any. Qed.
Lemma c63_answers (I MS P S0 PS : Type) (io : individual_ops I) (fexp : f64 -> f64) (mdl : model I MS) (alg : algorithm I MS P S0)
  (f : PS -> population I -> M (bool * PS)) fuel s init q ps (r : run_result I S0 PS) :
  may (evolve_population io fexp mdl alg (quiet f) fuel s init q ps) r -> asked f ps (r_trace r) (r_progress r).
Proof. apply protocol. Qed.
Lemma c63_fuel (I MS P S0 PS : Type) (io : individual_ops I) (fexp : f64 -> f64) (mdl : model I MS) (alg : algorithm I MS P S0)
  (progress : PS -> S0 -> population I -> M (bool * PS * S0)) fuel fuel' s init q ps (r : run_result I S0 PS) : fuel <= fuel' ->
  may (evolve_population io fexp mdl alg progress fuel s init q ps) r ->
  may (evolve_population io fexp mdl alg progress fuel' s init q ps) r.
Proof. apply protocol_fuel. Qed.

(** ** Examples *)
Lemma f_of_nat_not_nan n : is_nan (f_of_nat n) = false.
Proof.
  unfold f_of_nat, f_of_Z.
  pose proof (binary_normalize_correct prec emax Hprec Hprec_emax mode_NE (Z.of_nat n) 0 false) as H; cbv zeta in H.
  destruct (Rlt_bool _ _) in H.
  - destruct H as (_ & H & _); destruct (binary_normalize _ _ _ _ _ _ _ _); auto; discriminate.
  - destruct (binary_normalize _ _ _ _ _ _ _ _); auto; cbn in H; discriminate.
Qed.
Lemma rate_lit num den : in_unit_closed (f_lit num den) = true -> rate (f_lit num den).
Proof. apply rate_spec. Qed.
Lemma ratio_lit num den : in_unit_halfopen (f_lit num den) = true -> proper_ratio (f_lit num den).
Proof. apply ratio_spec. Qed.

Lemma ex_ga_accepted n : n <> 0 -> ga_accepted (ex_ga n).
Proof.
  intros Hn; split; [exact Hn|]; split; [apply ratio_lit; vm_compute; reflexivity|].
  split; [apply rate_lit; vm_compute; reflexivity|]; split; [apply rate_lit; vm_compute; reflexivity|exact Logic.I].
Qed.
Lemma ex_half_accepted : ga_accepted ex_half.
Proof.
  split; [discriminate|]; split; [apply ratio_lit; vm_compute; reflexivity|].
  split; [apply rate_lit; vm_compute; reflexivity|]; split; [apply rate_lit; vm_compute; reflexivity|exact Logic.I].
Qed.

Lemma ex_total : total_model ex_model (fun x => x <> 0).
Proof. repeat split; cbn; intros; auto; lia. Qed.
Lemma ex_total_any : total_model ex_model (fun _ => True).
Proof. repeat split; cbn; intros; auto. Qed.
Lemma ex_random : must (gen_range 1 10) (fun x => x <> 0 /\ must (m_evaluate ex_model tt x) (fun y => is_valid ex_io y = true)).
Proof.
  apply must_gen_range; split; [lia|]; intros x Hx; split; [lia|]; cbn; destruct x; [lia|reflexivity].
Qed.
Lemma stop_total {I} n ps (p : population I) : must (stop_at n ps p) (fun _ => True).
Proof. exact Logic.I. Qed.
Lemma stop_stops {I} n ps (p : population I) : generation p = n -> must (stop_at n ps p) (fun o => fst o = false).
Proof. intros E; cbn; apply Nat.ltb_ge; lia. Qed.
Lemma small_fits n : n <= 1000 -> fits_usize n.
Proof. unfold fits_usize, usize_max; lia. Qed.

Lemma c59_example : ga_accepted (ex_ga 1) /\ robust_strategy (ga_selection_strategy (ex_ga 1)) /\
  total_model ex_model (fun _ => True) /\ startable ex_io ex_model (fun _ => True) tt [0; 5] /\
  forall p : population nat, generation p = 0 -> must (stop_at 3 tt p) (fun o => fst o = true).
Proof.
  split; [apply ex_ga_accepted; lia|]; split; [exact Logic.I|]; split; [apply ex_total_any|]; split.
  - split; [repeat constructor|]; exists 5; split; [right; left; auto|reflexivity].
  - intros p E; cbn; rewrite E; reflexivity.
Qed.

Lemma ex_runs n q seed : ga_accepted q -> 2 <= ga_population_size q <= 1000 -> robust_strategy (ga_selection_strategy q) -> seed <> 0 ->
  must (evolution_run ex_io ex_exp ex_model (ga_algorithm ex_io ex_exp ex_model) (quiet (stop_at n)) (S n) (ga_from tt) (gen_range 1 10) q tt) (fun _ => True) /\
  must (evolve_individual ex_io ex_exp ex_model (ga_algorithm ex_io ex_exp ex_model) (quiet (stop_at n)) (S n) (ga_from tt) seed q tt) (fun _ => True).
Proof.
  intros Ha Hn Hr Hs.
  apply (ga_total_runs ex_io ex_exp ex_model (fun x => x <> 0) (stop_at n) (ga_from tt) (gen_range 1 10) seed q tt).
  - exact Ha.
  - lia.
  - apply small_fits; lia.
  - exact Hr.
  - exact ex_total.
  - intros; apply stop_total.
  - exact ex_random.
  - split; [exact Hs|]; destruct seed; [congruence|reflexivity].
  - intros; apply stop_stops; auto.
Qed.

Lemma half_must n : must (ex_run n) (fun _ => True).
Proof.
  unfold ex_run; refine (proj1 (ex_runs n ex_half 5 _ _ _ _)); [exact ex_half_accepted|cbn [ex_half ga_population_size]; lia|exact Logic.I|lia].
Qed.

Lemma ex_run_possible : exists x r, may (ex_run 2) (x, r) /\ map (@generation nat) (r_trace r) = [0; 1; 2].
Proof.
  destruct (run (ex_run 2) [0; 8]%N) as [[x r]|] eqn:E.
  - exists x, r; split; [eapply run_may; [apply (half_must 2)|exact E]|].
    assert (C : match run (ex_run 2) [0; 8]%N with Some (x, r) => map (@generation nat) (r_trace r) | None => [] end = [0; 1; 2]) by (vm_compute; reflexivity).
    rewrite E in C; exact C.
  - assert (C : match run (ex_run 2) [0; 8]%N with Some _ => true | None => false end = true) by (vm_compute; reflexivity).
    rewrite E in C; discriminate.
Qed.

Lemma c64_example : selector_left_alone ex_model /\ valid_is_number ex_io /\ equal_means_equal_fitness ex_io.
Proof.
  split; [intros ms p b ms' b' [= <- <-]; auto|]; split.
  - intros x _; cbn; unfold f_is_nan; apply f_of_nat_not_nan.
  - intros x y H; cbn in *; apply Nat.eqb_eq in H; subst; apply feq_spec; pose proof (f_of_nat_not_nan y); auto.
Qed.

Lemma hundredth : (1 <= INR 100 * B2R (f_lit 1 100))%R.
Proof.
  assert (E : B2SF (f_lit 1 100) = SpecFloat.S754_finite false 5764607523034235 (-59)) by (vm_compute; reflexivity).
  rewrite <- SF2R_B2SF, E; unfold SF2R, F2R; cbn [cond_Zopp Fnum Fexp].
  assert (P : (bpow radix2 (-59) * 576460752303423488 = 1)%R) by (change (bpow radix2 (-59)) with (/ 576460752303423488)%R; field).
  replace (INR 100) with 100%R by (cbn [INR]; lra); nra.
Qed.
Lemma c65_example : (1 <= INR (ga_population_size ga_params_default) * B2R (ga_elitism_rate ga_params_default))%R /\
  (1 <= INR (aga_population_size aga_params_default) * B2R (aga_elitism_rate aga_params_default))%R.
Proof. split; apply hundredth. Qed.

Definition lose := evolution_run ex_io ex_exp ex_model (ga_algorithm ex_io ex_exp ex_model) (quiet (stop_at 1)) 2
         (ga_from tt) (gen_range 1 10) (ex_ga 2) tt.
Definition lose_tape : list N := let big := (2 ^ 53 - 1)%N in [0; 8; 0; 0; 0; big; big; 0; big; big]%N.

Lemma lose_must : must lose (fun _ => True).
Proof.
  unfold lose; refine (proj1 (ex_runs 1 (ex_ga 2) 5 _ _ _ _)); [apply ex_ga_accepted; lia|cbn [ex_ga ga_population_size]; lia|exact Logic.I|lia].
Qed.

Lemma best_refuted : exists (x y : nat) (p : population nat) (r : run_result nat (ga_state nat unit) unit),
  may lose (x, r) /\ In p (r_trace r) /\ In y (individuals p) /\ flt (fitness ex_io x) (fitness ex_io y) = true.
Proof.
  assert (C : match run lose lose_tape with
    | Some (x, r) => match r_trace r with
                     | p :: _ => match individuals p with [_; y] => flt (fitness ex_io x) (fitness ex_io y) | _ => false end
                     | [] => false end
    | None => false end = true) by (vm_compute; reflexivity).
  destruct (run lose lose_tape) as [[x r]|] eqn:E; [|discriminate].
  destruct (r_trace r) as [|p t] eqn:Et; [discriminate|]; destruct (individuals p) as [|y0 [|y [|? ?]]] eqn:Ei; [discriminate|discriminate| |discriminate].
  exists x, y, p, r; split; [eapply run_may; [apply lose_must|exact E]|]; rewrite Et, Ei; cbn; auto.
Qed.

Definition seeded := evolve_individual ex_io ex_exp ex_model (ga_algorithm ex_io ex_exp ex_model) (quiet (stop_at 1)) 2
         (ga_from tt) 7 ex_half tt.
Lemma c66_example : exists x r, may seeded (x, r) /\ 7 <= x.
Proof.
  assert (Hm : must seeded (fun _ => True)).
  { unfold seeded; refine (proj2 (ex_runs 1 ex_half 7 _ _ _ _)); [exact ex_half_accepted|cbn [ex_half ga_population_size]; lia|exact Logic.I|lia]. }
  assert (C : match run seeded [] with Some (x, r) => 7 <=? x | None => false end = true) by (vm_compute; reflexivity).
  destruct (run seeded []) as [[x r]|] eqn:E; [|discriminate]; exists x, r; split; [exact (run_may _ _ _ _ Hm E)|apply Nat.leb_le; exact C].
Qed.

Lemma c67_example : ga_accepted (ex_ga 2) /\ total_model ex_model (fun x => x <> 0) /\
  startable ex_io ex_model (fun x => x <> 0) tt [3; 5] /\
  must (gen_range 1 10) (fun x => x <> 0 /\ must (m_evaluate ex_model tt x) (fun y => is_valid ex_io y = true)) /\
  (forall ps (p : population nat), must (stop_at 1 ps p) (fun _ => True)) /\
  (forall ps' (p : population nat), generation p = 1 -> must (stop_at 1 ps' p) (fun o => fst o = false)).
Proof.
  split; [apply ex_ga_accepted; lia|]; split; [apply ex_total|]; split; [|split; [apply ex_random|split; [intros; apply stop_total|intros; apply stop_stops; auto]]].
  split; [repeat constructor; lia|]; exists 3; split; [left; auto|reflexivity].
Qed.
