(** * PScale4: adaptive runs without adjustment in other units (C128). *)
From Coq Require Import List Bool Arith NArith ZArith Reals Lia Lra.
From Flocq Require Import Core BinarySingleNaN.
From Verif Require Import Rnd LRnd F64 LF64 Prob LAlike MStats MPopulation MSelection MModel MAlgorithms Spec SpecA
  PPopulation PAlgorithms2 PRun4 SpecF SpecO SpecScale LAlike PIso PIso2 PIso3 PScale PScale2 PScale3 ExO.
Import ListNotations.

Section UnitsAga.
Context {I J : Type} (k : Z) (io : individual_ops I) (jo : individual_ops J) (R : I -> J -> Prop) (fexp : f64 -> f64).
Hypothesis (HU : other_units k io jo R).
Variable (B : nat).
Hypothesis (HB : exact_count B).
Context {MS : Type} (mdl : model I MS) (ndl : model J MS).
Hypothesis (HM : models_alike R mdl ndl).
Let pops := upop io jo R B.
Let breeds := @ubreed I J k.

Definition uaga0 (s : aga_state I MS) (t : aga_state J MS) : Prop :=
  aga_model s = aga_model t /\ crossover_rate (aga_breeding s) = crossover_rate (aga_breeding t) /\ mutation_rate (aga_breeding s) = mutation_rate (aga_breeding t).
Definition uaga (s : aga_state I MS) (t : aga_state J MS) : Prop :=
  aga_model s = aga_model t /\ aga_size s = aga_size t /\ aga_elite_size s = aga_elite_size t /\ aga_interval s = aga_interval t /\
  aga_crossover_range s = aga_crossover_range t /\ aga_mutation_range s = aga_mutation_range t /\ breeds (aga_breeding s) (aga_breeding t) /\
  aga_interval s = 0 /\ aga_size s <= B.

Lemma units_aga_configure q s t : unit_free (aga_selection_strategy q) -> aga_parameter_adjustment_interval q = 0 -> aga_population_size q <= B -> uaga0 s t ->
  alike uaga (aga_configure s q) (aga_configure t q).
Proof.
  intros Hr H0 Hq (Hm & Hc & Hu); unfold aga_configure; eapply alike_bind; [apply alike_eq|]; intros _ _ _.
  eapply alike_bind; [apply alike_eq|]; intros e ? <-; eapply alike_bind; [apply (units_create k); eauto|]; intros u v Huv.
  cbn; split; [exact Hm|]; cbn; repeat split; auto.
Qed.
Lemma units_aga_prepare s t p q : uaga s t -> pops p q -> alike uaga (aga_prepare io fexp mdl s p) (aga_prepare jo fexp ndl t q).
Proof.
  intros (H1 & H2 & H3 & H4 & H5 & H6 & (H7 & H8 & H9) & H10 & H11) [[Ht _] [HpB _]]; destruct HM as (_ & _ & _ & _ & _ & P1 & P2).
  destruct Ht as (Hp & Hg & _).
  assert (Hadj : snd (fst (aga_adjust s p)) = snd (fst (aga_adjust t q)) /\ snd (aga_adjust s p) = snd (aga_adjust t q)).
  { unfold aga_adjust; rewrite <- Hg, <- H4, <- H5, <- H6, <- H7, <- H8, H10; destruct (generation p) as [|n]; cbn; auto. }
  unfold aga_prepare; destruct (aga_adjust s p) as [[r1 c1] m1], (aga_adjust t q) as [[r2 c2] m2]; cbn in Hadj; destruct Hadj as (-> & ->).
  rewrite P1, P2; cbn [bind parent_selector]; eapply alike_bind; [eapply (units_prepare k io jo R fexp HU B HB); eauto|]; intros u v Huv.
  cbn; split; [exact H1|]; cbn; repeat split; auto.
Qed.

Variables (PS : Type) (f : PS -> population I -> M (bool * PS)) (g : PS -> population J -> M (bool * PS)).
Hypothesis (Hfg : forall ps p q, twins R p q -> alike eq (f ps p) (g ps q)).
Let A := aga_algorithm io fexp mdl.
Let A' := aga_algorithm jo fexp ndl.

Lemma uaga_left s t : aga_model s = aga_model t -> uaga0 s (left_by s t).
Proof. intros E; repeat split; auto. Qed.


Lemma units_aga_evolve q fuel s t init init' ps : unit_free (aga_selection_strategy q) -> aga_parameter_adjustment_interval q = 0 ->
  aga_population_size q <= B -> aga_model s = aga_model t -> Forall2 R init init' -> length init <= B ->
  alike (twin_runs (twins R)) (evolve_population io fexp mdl (aga_algorithm io fexp mdl) (quiet f) fuel s init q ps)
    (evolve_population jo fexp ndl (aga_algorithm jo fexp ndl) (quiet g) fuel t init' q ps).
Proof.
  intros Hr H0 Hq Hm Hi HiB; apply (observed_alike (twins R) _ (evolve_population jo fexp ndl A' (quiet g) fuel (left_by s t) init' q ps)).
  2: apply aga_independent; reflexivity.
  eapply alike_mono; [|eapply (units_evolve k io jo R fexp HU B HB mdl ndl HM A A' uaga uaga0 q); eauto].
  - intros a b; apply twin_runs_mono, (upop_twins io jo R B).
  - intros; apply units_aga_configure; auto.
  - intros ? ? H; apply H.
  - intros ? ? H; split; [apply H|split; apply H].
  - intros; apply units_aga_prepare; auto.
  - intros s' t' p' q' (_ & _ & E & _) Hp; cbn; rewrite E; apply (units_select_top io jo R B); auto.
  - apply uaga_left; auto.
Qed.
Lemma units_aga_run q fuel s t nr nr' ps : unit_free (aga_selection_strategy q) -> aga_parameter_adjustment_interval q = 0 ->
  aga_population_size q <= B -> aga_model s = aga_model t -> alike R nr nr' ->
  alike (twin_results R (twins R)) (evolution_run io fexp mdl (aga_algorithm io fexp mdl) (quiet f) fuel s nr q ps)
    (evolution_run jo fexp ndl (aga_algorithm jo fexp ndl) (quiet g) fuel t nr' q ps).
Proof.
  intros Hr H0 Hq Hm Hi; apply (observed_pair_alike R (twins R) _ (evolution_run jo fexp ndl A' (quiet g) fuel (left_by s t) nr' q ps)).
  2: apply run_independent; reflexivity.
  eapply alike_mono; [|eapply (units_run k io jo R fexp HU B HB mdl ndl HM A A' uaga uaga0 q); eauto].
  - intros a b; apply twin_results_mono, (upop_twins io jo R B).
  - intros; apply units_aga_configure; auto.
  - intros ? ? H; apply H.
  - intros ? ? H; split; [apply H|split; apply H].
  - intros; apply units_aga_prepare; auto.
  - intros s' t' p' q' (_ & _ & E & _) Hp; cbn; rewrite E; apply (units_select_top io jo R B); auto.
  - apply uaga_left; auto.
Qed.
Lemma units_aga_individual q fuel s t x y ps : unit_free (aga_selection_strategy q) -> aga_parameter_adjustment_interval q = 0 ->
  aga_population_size q <= B -> aga_model s = aga_model t -> R x y ->
  alike (twin_results R (twins R)) (evolve_individual io fexp mdl (aga_algorithm io fexp mdl) (quiet f) fuel s x q ps)
    (evolve_individual jo fexp ndl (aga_algorithm jo fexp ndl) (quiet g) fuel t y q ps).
Proof.
  intros Hr H0 Hq Hm Hi; apply (observed_pair_alike R (twins R) _ (evolve_individual jo fexp ndl A' (quiet g) fuel (left_by s t) y q ps)).
  2: apply (aga_independent_runs jo fexp ndl g fuel (left_by s t) t (Fail Panic) y q ps); reflexivity.
  eapply alike_mono; [|eapply (units_individual k io jo R fexp HU B HB mdl ndl HM A A' uaga uaga0 q); eauto].
  - intros a b; apply twin_results_mono, (upop_twins io jo R B).
  - intros; apply units_aga_configure; auto.
  - intros ? ? H; apply H.
  - intros ? ? H; apply H.
  - intros ? ? H; split; [apply H|split; apply H].
  - intros; apply units_aga_prepare; auto.
  - intros s' t' p' q' (_ & _ & E & _) Hp; cbn; rewrite E; apply (units_select_top io jo R B); auto.
  - apply uaga_left; auto.
Qed.
End UnitsAga.

Lemma twice_aga_example fexp st g : unit_free st -> alike (twin_runs (twins eq)) (size_aga narrow fexp st 0 g) (size_aga twice fexp st 0 g).
Proof.
  intros H; assert (C : exact_count 3) by (unfold exact_count; cbn; lia).
  apply (units_aga_evolve 1 narrow twice eq fexp twice_units 3 C _ _ twice_models _ _ _ (size_closure g)); auto.
Qed.

(** ** Adjusted rates depend on the unit when squares underflow *)
Lemma tiny_units : other_units 700 tiny narrow eq.
Proof.
  split; [reflexivity|]; split; [intros; subst; reflexivity|]; intros a b <-.
  assert (Q : (bpow radix2 (-800) <= bpow radix2 (-700) /\ bpow radix2 (-698) <= bpow radix2 900)%R) by (split; apply bpow_le; lia).
  assert (E0 : bpow radix2 (-698) = (4 * bpow radix2 (-700))%R) by (change 4%R with (bpow radix2 2); rewrite <- bpow_plus; reflexivity).
  assert (E1 : (bpow radix2 (-700) * bpow radix2 700 = 1)%R) by (rewrite <- bpow_plus; reflexivity).
  pose proof (bpow_gt_0 radix2 (-700)) as P7.
  assert (T : forall z : Z, (1 <= z <= 3)%Z ->
    let x := binary_normalize prec emax Hprec Hprec_emax mode_NE z (-700) false in is_finite x = true /\ B2R x = (IZR z * bpow radix2 (-700))%R).
  { intros z Hz x; unfold x; pose proof (binary_normalize_correct prec emax Hprec Hprec_emax mode_NE z (-700) false) as C.
    cbv zeta in C; change (bpow radix2 emax) with big in C; cbn [round_mode] in C.
    set (y := F2R (Float radix2 z (-700))) in *; assert (Hy : y = (IZR z * bpow radix2 (-700))%R) by reflexivity.
    assert (Hf : isfloat y).
    { apply generic_format_FLT; exists (Float radix2 z (-700)); auto; cbn [Fnum Fexp]; [|unfold SpecFloat.emin, emax, prec; lia].
      change (radix2 ^ prec)%Z with (2 ^ 53)%Z; lia. }
    rewrite (rnd_float y) in C by auto; rewrite Rlt_bool_true in C; [rewrite <- Hy; tauto|].
    assert (1 <= IZR z <= 3)%R by (split; apply IZR_le; lia).
    rewrite Rabs_pos_eq by (rewrite Hy; nra); assert (bpow radix2 900 < big)%R by (apply bpow_lt; lia); rewrite Hy; nra. }
  destruct a; cbn [tiny narrow fitness];
    [destruct (T 2%Z ltac:(lia)) as [A A'], (small_mild 2) as [C C']|destruct (T 1%Z ltac:(lia)) as [A A'], (small_mild 1) as [C C']|destruct (T 3%Z ltac:(lia)) as [A A'], (small_mild 3) as [C C']];
    try lia; (split; [split; [exact A|right; rewrite A'; lra]|]); (split; [exact C|]); unfold times_power; rewrite A', C', Rmult_assoc, E1; cbn; lra.
Qed.
Lemma tiny_models : models_alike eq (size_model tiny) (size_model narrow).
Proof. apply size_models_any; intros [] []; vm_compute; reflexivity. Qed.
Definition low_tape : list N := [0; 0; 0; 0; 1; 0; 0; 1; 0; 0; 0; 0; 0; 0; 0; 0; 0; 0; 0; 0; 0]%N.
Lemma units_rates_refuted :
  exists (io jo : individual_ops comparison) (mdl ndl : model comparison unit) (g : nat) (init : list comparison) (q : aga_params),
  other_units 700 io jo eq /\ models_alike eq mdl ndl /\ unit_free (aga_selection_strategy q) /\ forall fexp,
  ~ alike (twin_runs (twins eq))
      (evolve_population io fexp mdl (aga_algorithm io fexp mdl) (quiet (fun (_ : unit) p => Ret (generation p <? g, tt))) (S g) (aga_from tt) init q tt)
      (evolve_population jo fexp ndl (aga_algorithm jo fexp ndl) (quiet (fun (_ : unit) p => Ret (generation p <? g, tt))) (S g) (aga_from tt) init q tt).
Proof.
  exists tiny, narrow, (size_model tiny), (size_model narrow), 2, [Lt; Eq; Gt], (mkAgaParams 3 f0 (f0, f0) (f0, f1) (StTournament 1) 1).
  split; [exact tiny_units|]; split; [exact tiny_models|]; split; [exact Logic.I|].
  intros fexp; apply (not_alike _ _ low_tape); [vm_compute; reflexivity|]; vm_compute; discriminate.
Qed.
