(** * PScale6: adaptive runs in other units (C130). *)
From Coq Require Import List Bool Arith NArith ZArith Reals Lia Lra.
From Flocq Require Import Core BinarySingleNaN.
From Verif Require Import Rnd LRnd F64 LF64 Prob LAlike MStats MPopulation MSelection MModel MAlgorithms Spec SpecA
  PPopulation PAlgorithms2 PRun4 SpecF SpecO SpecScale LAlike PIso PIso2 PIso3 PScale PScale2 PScale3 PScale4 PScale5 ExO.
Import ListNotations.

Lemma observed_alike_l {I J S0 S1 PS} (T : population I -> population J -> Prop) (m' : M (run_result J S1 PS)) :
  forall m1 m2 : M (run_result I S0 PS), alike (twin_runs T) m1 m' -> same_behaviour (observed m1) (observed m2) -> alike (twin_runs T) m2 m'.
Proof.
  induction m' as [r|e|n k IH|n k IH]; intros [r1|e1|n1 k1|n1 k1] [r2|e2|n2 k2|n2 k2] H1 H2; cbn in H1, H2 |- *; try contradiction; try congruence.
  - unfold observe in H2; injection H2 as E1 E2 E3; unfold twin_runs; rewrite <- E1, <- E2, <- E3; auto.
  - destruct H1 as [<- H1], H2 as [<- H2]; split; auto; intros i Hi; apply (IH i (k1 i)); [apply H1; auto|apply H2; auto].
  - destruct H1 as [<- H1], H2 as [<- H2]; split; auto; intros i Hi; apply (IH i (k1 i)); [apply H1; auto|apply H2; auto].
Qed.
Lemma observed_pair_alike_l {I J S0 S1 PS} (R : I -> J -> Prop) (T : population I -> population J -> Prop) (m' : M (J * run_result J S1 PS)) :
  forall m1 m2 : M (I * run_result I S0 PS), alike (twin_results R T) m1 m' -> same_behaviour (observed_pair m1) (observed_pair m2) -> alike (twin_results R T) m2 m'.
Proof.
  induction m' as [r|e|n k IH|n k IH]; intros [r1|e1|n1 k1|n1 k1] [r2|e2|n2 k2|n2 k2] H1 H2; cbn in H1, H2 |- *; try contradiction; try congruence.
  - unfold observe in H2; injection H2 as E0 E1 E2 E3; unfold twin_results, twin_runs; rewrite <- E0, <- E1, <- E2, <- E3; auto.
  - destruct H1 as [<- H1], H2 as [<- H2]; split; auto; intros i Hi; apply (IH i (k1 i)); [apply H1; auto|apply H2; auto].
  - destruct H1 as [<- H1], H2 as [<- H2]; split; auto; intros i Hi; apply (IH i (k1 i)); [apply H1; auto|apply H2; auto].
Qed.

(** ** The diversity *)
Definition uref (k : Z) (r r' : f64) : Prop := sc k r r' /\ Bsign r = false /\ Bsign r' = false.
Lemma zero_is (x : f64) : is_finite x = true -> B2R x = 0%R -> Bsign x = false -> x = B754_zero false.
Proof.
  destruct x as [s|s| |s m e H]; cbn; try discriminate; [intros; subst; auto|].
  intros _ E; exfalso; revert E; apply (F2R_neq_0 radix2); destruct s; discriminate.
Qed.
Lemma uref_diversity k x y r r' : uref k x y -> uref k r r' -> aga_diversity x r = aga_diversity y r'.
Proof.
  intros ((Fx & Fy & E) & Sx & Sy) ((Fr & Fr' & E') & Sr & Sr'); unfold aga_diversity; f_equal.
  pose proof (bpow_gt_0 radix2 k) as P; destruct (Req_dec (B2R r) 0) as [Z|N].
  - assert (Z' : B2R r' = 0%R) by (rewrite E', Z; ring).
    rewrite (zero_is r Fr Z Sr), (zero_is r' Fr' Z' Sr'); destruct (Req_dec (B2R x) 0) as [Zx|Nx].
    + rewrite (zero_is x Fx Zx Sx), (zero_is y Fy); auto; rewrite E, Zx; ring.
    + assert (Ny : B2R y <> 0%R) by (rewrite E; apply Rmult_integral_contrapositive; split; [auto|lra]).
      destruct x as [|?| |[|]], y as [|?| |[|]]; try discriminate; try (exfalso; apply Nx; reflexivity); try (exfalso; apply Ny; reflexivity); reflexivity.
  - assert (N' : B2R r' <> 0%R) by (rewrite E'; apply Rmult_integral_contrapositive; split; [auto|lra]).
    apply fdiv_same; auto; [rewrite E, E'; field; split; [lra|auto]|congruence].
Qed.
Lemma fair_other {I J} k (io : individual_ops I) (jo : individual_ops J) R : fair_units k io jo R -> other_units k io jo R.
Proof.
  intros (A & B & C); split; [exact A|]; split; [exact B|]; intros a b H; destruct (C a b H) as ((F & L & U) & (F' & L' & U') & E).
  assert (bpow radix2 (-800) <= bpow radix2 (-300) /\ bpow radix2 400 <= bpow radix2 900)%R by (split; apply bpow_le; lia).
  split; [split; [auto|right; lra]|]; split; [split; [auto|right; lra]|exact E].
Qed.

Section FairAga.
Context {I J : Type} (k : Z) (io : individual_ops I) (jo : individual_ops J) (R : I -> J -> Prop) (fexp : f64 -> f64).
Hypothesis (HG : fair_units k io jo R).
Let HU : other_units k io jo R := fair_other k io jo R HG.
Variable (B : nat).
Hypothesis (HB : exact_count B).
Context {MS : Type} (mdl : model I MS) (ndl : model J MS).
Hypothesis (HM : models_alike R mdl ndl).
Let pops := upop io jo R B.
Let breeds := @ubreed I J k.

Definition faga0 (s : aga_state I MS) (t : aga_state J MS) : Prop :=
  aga_model s = aga_model t /\ crossover_rate (aga_breeding s) = crossover_rate (aga_breeding t) /\ mutation_rate (aga_breeding s) = mutation_rate (aga_breeding t) /\
  uref k (aga_reference_std s) (aga_reference_std t).
Definition faga (s : aga_state I MS) (t : aga_state J MS) : Prop :=
  aga_model s = aga_model t /\ aga_size s = aga_size t /\ aga_elite_size s = aga_elite_size t /\ aga_interval s = aga_interval t /\
  aga_crossover_range s = aga_crossover_range t /\ aga_mutation_range s = aga_mutation_range t /\ breeds (aga_breeding s) (aga_breeding t) /\
  uref k (aga_reference_std s) (aga_reference_std t) /\ aga_size s <= B.

Lemma fair_configure q s t : unit_free (aga_selection_strategy q) -> aga_population_size q <= B -> faga0 s t ->
  alike faga (aga_configure s q) (aga_configure t q).
Proof.
  intros Hr Hq (Hm & Hc & Hu & Hs); unfold aga_configure; eapply alike_bind; [apply alike_eq|]; intros _ _ _.
  eapply alike_bind; [apply alike_eq|]; intros e ? <-; eapply alike_bind; [apply (units_create k); eauto|]; intros u v Huv.
  cbn; unfold faga; cbn [aga_model aga_size aga_elite_size aga_interval aga_crossover_range aga_mutation_range aga_breeding aga_reference_std].
  split; [exact Hm|]; repeat (split; [reflexivity|]); split; [split; [exact Hc|split; [exact Hu|exact Huv]]|]; split; [exact Hs|exact Hq].
Qed.
Lemma fair_std p q : pops p q -> uref k (ps_std f64ops (pop_stats p)) (ps_std f64ops (pop_stats q)).
Proof.
  intros [[(Hp & _) _] (HpB & (Hne & Hs) & (_ & Ht))]; rewrite Hs, Ht; unfold stats_of.
  assert (HF : Forall2 (fair_pair k) (map (fitness io) (individuals p)) (map (fitness jo) (individuals q))).
  { revert Hp; apply F2_map; intros a b H; apply (proj2 (proj2 HG) a b H). }
  assert (Hc : exact_count (length (map (fitness io) (individuals p)))) by (rewrite map_length; unfold exact_count in *; lia).
  assert (H1 : 1 <= length (map (fitness io) (individuals p))) by (rewrite map_length; destruct (individuals p); [congruence|cbn; lia]).
  destruct (both_std k _ _ _ H1 Hc (both_iter k _ _ HF ltac:(intros E; rewrite E in H1; cbn in H1; lia) Hc)) as (H & _ & _ & S & S').
  split; [exact H|split; [exact S|exact S']].
Qed.
Lemma fair_prepare s t p q : faga s t -> pops p q -> alike faga (aga_prepare io fexp mdl s p) (aga_prepare jo fexp ndl t q).
Proof.
  intros (H1 & H2 & H3 & H4 & H5 & H6 & (H7 & H8 & H9) & H10 & H11) Hpq; destruct HM as (_ & _ & _ & _ & _ & P1 & P2).
  pose proof (fair_std p q Hpq) as Hstd; destruct Hpq as [[(Hp & Hg & _) _] [HpB _]].
  assert (Hadj : uref k (fst (fst (aga_adjust s p))) (fst (fst (aga_adjust t q))) /\
     snd (fst (aga_adjust s p)) = snd (fst (aga_adjust t q)) /\ snd (aga_adjust s p) = snd (aga_adjust t q)).
  { unfold aga_adjust; rewrite <- Hg, <- H4, <- H5, <- H6, <- H7, <- H8, <- (uref_diversity k _ _ _ _ Hstd H10).
    destruct (generation p) as [|n]; [cbn [fst snd]; auto|]; destruct (negb _ && _); cbn [fst snd]; auto. }
  unfold aga_prepare; destruct (aga_adjust s p) as [[r1 c1] m1], (aga_adjust t q) as [[r2 c2] m2]; cbn in Hadj; destruct Hadj as (Hr & -> & ->).
  rewrite P1, P2; cbn [bind parent_selector]; eapply alike_bind; [eapply (units_prepare k io jo R fexp HU B HB); eauto|]; intros u v Huv.
  cbn; unfold faga; cbn [aga_model aga_size aga_elite_size aga_interval aga_crossover_range aga_mutation_range aga_breeding aga_reference_std].
  split; [exact H1|]; repeat (split; [assumption|]); split; [split; [reflexivity|split; [reflexivity|exact Huv]]|]; split; [exact Hr|exact H11].
Qed.
Lemma fresh0 ms : faga0 (aga_from ms) (aga_from ms).
Proof.
  split; [reflexivity|]; split; [reflexivity|]; split; [reflexivity|]; split; [|split; reflexivity].
  split; [reflexivity|]; split; [reflexivity|]; cbn; ring.
Qed.

Variables (PS : Type) (f : PS -> population I -> M (bool * PS)) (g : PS -> population J -> M (bool * PS)).
Hypothesis (Hfg : forall ps p q, twins R p q -> alike eq (f ps p) (g ps q)).
Let A := aga_algorithm io fexp mdl.
Let A' := aga_algorithm jo fexp ndl.

Lemma fair_aga_evolve q fuel s t init init' ps : unit_free (aga_selection_strategy q) ->
  aga_population_size q <= B -> aga_model s = aga_model t -> Forall2 R init init' -> length init <= B ->
  alike (twin_runs (twins R)) (evolve_population io fexp mdl (aga_algorithm io fexp mdl) (quiet f) fuel s init q ps)
    (evolve_population jo fexp ndl (aga_algorithm jo fexp ndl) (quiet g) fuel t init' q ps).
Proof.
  intros Hr Hq Hm Hi HiB; apply (observed_alike (twins R) _ (evolve_population jo fexp ndl A' (quiet g) fuel (aga_from (aga_model s)) init' q ps)).
  2: apply aga_independent; auto.
  apply (observed_alike_l (twins R) _ (evolve_population io fexp mdl A (quiet f) fuel (aga_from (aga_model s)) init q ps)).
  2: apply aga_independent; auto.
  eapply alike_mono; [|eapply (units_evolve k io jo R fexp HU B HB mdl ndl HM A A' faga faga0 q); eauto].
  - intros a b; apply twin_runs_mono, (upop_twins io jo R B).
  - intros; apply fair_configure; auto.
  - intros ? ? H; apply H.
  - intros ? ? H; split; [apply H|split; apply H].
  - intros; apply fair_prepare; auto.
  - intros s' t' p' q' (_ & _ & E & _) Hp; cbn; rewrite E; apply (units_select_top io jo R B); auto.
  - apply fresh0.
Qed.
Lemma fair_aga_run q fuel s t nr nr' ps : unit_free (aga_selection_strategy q) ->
  aga_population_size q <= B -> aga_model s = aga_model t -> alike R nr nr' ->
  alike (twin_results R (twins R)) (evolution_run io fexp mdl (aga_algorithm io fexp mdl) (quiet f) fuel s nr q ps)
    (evolution_run jo fexp ndl (aga_algorithm jo fexp ndl) (quiet g) fuel t nr' q ps).
Proof.
  intros Hr Hq Hm Hi; apply (observed_pair_alike R (twins R) _ (evolution_run jo fexp ndl A' (quiet g) fuel (aga_from (aga_model s)) nr' q ps)).
  2: apply run_independent; auto.
  apply (observed_pair_alike_l R (twins R) _ (evolution_run io fexp mdl A (quiet f) fuel (aga_from (aga_model s)) nr q ps)).
  2: apply run_independent; auto.
  eapply alike_mono; [|eapply (units_run k io jo R fexp HU B HB mdl ndl HM A A' faga faga0 q); eauto].
  - intros a b; apply twin_results_mono, (upop_twins io jo R B).
  - intros; apply fair_configure; auto.
  - intros ? ? H; apply H.
  - intros ? ? H; split; [apply H|split; apply H].
  - intros; apply fair_prepare; auto.
  - intros s' t' p' q' (_ & _ & E & _) Hp; cbn; rewrite E; apply (units_select_top io jo R B); auto.
  - apply fresh0.
Qed.
Lemma fair_aga_individual q fuel s t x y ps : unit_free (aga_selection_strategy q) ->
  aga_population_size q <= B -> aga_model s = aga_model t -> R x y ->
  alike (twin_results R (twins R)) (evolve_individual io fexp mdl (aga_algorithm io fexp mdl) (quiet f) fuel s x q ps)
    (evolve_individual jo fexp ndl (aga_algorithm jo fexp ndl) (quiet g) fuel t y q ps).
Proof.
  intros Hr Hq Hm Hi; apply (observed_pair_alike R (twins R) _ (evolve_individual jo fexp ndl A' (quiet g) fuel (aga_from (aga_model s)) y q ps)).
  2: apply (aga_independent_runs jo fexp ndl g fuel (aga_from (aga_model s)) t (Fail Panic) y q ps); auto.
  apply (observed_pair_alike_l R (twins R) _ (evolve_individual io fexp mdl A (quiet f) fuel (aga_from (aga_model s)) x q ps)).
  2: apply (aga_independent_runs io fexp mdl f fuel (aga_from (aga_model s)) s (Fail Panic) x q ps); auto.
  eapply alike_mono; [|eapply (units_individual k io jo R fexp HU B HB mdl ndl HM A A' faga faga0 q); eauto].
  - intros a b; apply twin_results_mono, (upop_twins io jo R B).
  - intros; apply fair_configure; auto.
  - intros ? ? H; apply H.
  - intros ? ? H; apply H.
  - intros ? ? H; split; [apply H|split; apply H].
  - intros; apply fair_prepare; auto.
  - intros s' t' p' q' (_ & _ & E & _) Hp; cbn; rewrite E; apply (units_select_top io jo R B); auto.
  - apply fresh0.
Qed.
End FairAga.

(** ** Examples *)
Lemma small_fair n : 1 <= n <= 32 -> fair (f_of_nat n) /\ B2R (f_of_nat n) = INR n.
Proof.
  intros H; unfold f_of_nat; destruct (f_of_Z_exact (Z.of_nat n)) as [F V]; [lia|].
  unfold fair; rewrite V, <- INR_IZR_INZ.
  assert (1 <= INR n <= 32)%R by (split; [apply (le_INR 1); lia|replace 32%R with (INR 32) by (cbn; lra); apply le_INR; lia]).
  assert (bpow radix2 (-300) <= bpow radix2 0)%R by (apply bpow_le; lia).
  assert (bpow radix2 5 <= bpow radix2 400)%R by (apply bpow_le; lia).
  change (bpow radix2 0) with 1%R in *; change (bpow radix2 5) with 32%R in *; repeat split; auto; lra.
Qed.
Lemma small_pair k n m : 1 <= n <= 32 -> 1 <= m <= 32 -> (INR m = INR n * bpow radix2 k)%R -> fair_pair k (f_of_nat n) (f_of_nat m).
Proof. intros Hn Hm E; destruct (small_fair n Hn) as [A A'], (small_fair m Hm) as [C C']; split; [auto|]; split; [auto|]; unfold times_power; rewrite A', C'; auto. Qed.
Lemma shown o (y : f64) : option_map B2SF o = Some (B2SF y) -> o = Some y.
Proof. destruct o as [x|]; cbn; [|discriminate]; intros [= E]; f_equal; apply B2SF_inj; exact E. Qed.
Lemma c130_stats_example :
  let l := map f_of_nat [3; 1; 8] in let l' := map f_of_nat [12; 4; 32] in
  Forall2 (fun x y => fair x /\ fair y /\ times_power 2 x y) l l' /\ exact_count (length l) /\
  st_arg_min (from_iter f64ops l') = Some 1 /\ st_arg_max (from_iter f64ops l') = Some 2 /\
  st_avg (from_iter f64ops l) = Some (f_of_nat 4) /\ st_avg (from_iter f64ops l') = Some (f_of_nat 16) /\
  st_var f64ops (from_iter f64ops l) = Some (f_of_nat 13) /\ st_var f64ops (from_iter f64ops l') = Some (f_of_nat 208).
Proof.
  intros l l'; split; [|split; [unfold exact_count; cbn; lia|]].
  2:{ split; [vm_compute; reflexivity|]; split; [vm_compute; reflexivity|].
      split; [apply shown; vm_compute; reflexivity|]; split; [apply shown; vm_compute; reflexivity|].
      split; apply shown; vm_compute; reflexivity. }
  unfold l, l'; cbn [map]; assert (bpow radix2 2 = 4%R) by reflexivity.
  constructor; [apply (small_pair 2); try lia; cbn; lra|]; constructor; [apply (small_pair 2); try lia; cbn; lra|].
  constructor; [apply (small_pair 2); try lia; cbn; lra|constructor].
Qed.
Lemma twice_fair : fair_units 1 narrow twice eq.
Proof.
  split; [reflexivity|]; split; [intros; subst; reflexivity|]; intros a b <-; assert (bpow radix2 1 = 2%R) by reflexivity.
  destruct a; cbn [narrow twice fitness]; apply (small_pair 1); try lia; cbn; lra.
Qed.
Lemma fair_aga_example fexp st n g : unit_free st -> alike (twin_runs (twins eq)) (size_aga narrow fexp st n g) (size_aga twice fexp st n g).
Proof.
  intros H; assert (C : exact_count 3) by (unfold exact_count; cbn; lia).
  apply (fair_aga_evolve 1 narrow twice eq fexp twice_fair 3 C _ _ twice_models _ _ _ (size_closure g)); auto.
Qed.

(** ** Squares that underflow, and other factors *)
Definition two_to (e : Z) : f64 := binary_normalize prec emax Hprec Hprec_emax mode_NE 1 e false.
Lemma two_to_val e : (-1074 <= e <= 1000)%Z -> is_finite (two_to e) = true /\ B2R (two_to e) = bpow radix2 e.
Proof.
  intros He; unfold two_to; pose proof (binary_normalize_correct prec emax Hprec Hprec_emax mode_NE 1 e false) as C.
  cbv zeta in C; change (bpow radix2 emax) with big in C; cbn [round_mode] in C.
  assert (Hy : F2R (Float radix2 1 e) = bpow radix2 e) by (unfold F2R; cbn [Fnum Fexp]; ring).
  rewrite Hy, (rnd_float (bpow radix2 e)) in C by (apply isfloat_bpow; lia); rewrite Rlt_bool_true in C; [tauto|].
  rewrite Rabs_pos_eq by apply bpow_ge_0; apply bpow_lt; unfold emax; lia.
Qed.
Lemma underflow_refuted :
  exists k l l', Forall2 (fun x y => is_finite x = true /\ is_finite y = true /\ (0 < B2R x)%R /\ times_power k x y) l l' /\
  st_std f64ops (from_iter f64ops l) = Some f0 /\ ~ shown_times k (st_std f64ops (from_iter f64ops l)) (st_std f64ops (from_iter f64ops l')).
Proof.
  exists 600%Z, [two_to (-600); two_to (-599)], [two_to 0; two_to 1].
  assert (E : st_std f64ops (from_iter f64ops [two_to (-600); two_to (-599)]) = Some f0) by (apply shown; vm_compute; reflexivity).
  split; [|split; [exact E|rewrite E]].
  - assert (G : forall e, (-600 <= e <= 0)%Z -> is_finite (two_to e) = true /\ is_finite (two_to (e + 600)) = true /\ (0 < B2R (two_to e))%R /\
      times_power 600 (two_to e) (two_to (e + 600))).
    { intros e He; destruct (two_to_val e) as [F V]; [lia|]; destruct (two_to_val (e + 600)) as [F' V']; [lia|].
      unfold times_power; rewrite V, V', bpow_plus; repeat split; auto; apply bpow_gt_0. }
    constructor; [apply (G (-600)%Z); lia|]; constructor; [apply (G (-599)%Z); lia|constructor].
  - assert (S : match st_std f64ops (from_iter f64ops [two_to 0; two_to 1]) with Some x => flt f0 x | None => false end = true) by (vm_compute; reflexivity).
    destruct (st_std f64ops (from_iter f64ops [two_to 0; two_to 1])) as [x|]; [|discriminate].
    cbn [shown_times]; intros (_ & Fx & T); unfold times_power in T; cbn [f0 B2R] in T.
    unfold flt in S; rewrite Bltb_correct in S by (auto; reflexivity); destruct (Rlt_bool_spec (B2R f0) (B2R x)) as [L|L]; [|discriminate].
    cbn [f0 B2R] in L; lra.
Qed.
Lemma factor_refuted :
  exists l l' a b, Forall2 (fun x y => fair x /\ fair y /\ (B2R y = 3 * B2R x)%R) l l' /\
  st_avg (from_iter f64ops l) = Some a /\ st_avg (from_iter f64ops l') = Some b /\ (B2R b <> 3 * B2R a)%R.
Proof.
  assert (S : option_map B2SF (st_avg (from_iter f64ops (map f_of_nat [1; 1; 2]))) = Some (SpecFloat.S754_finite false 6004799503160661 (-52))) by (vm_compute; reflexivity).
  destruct (st_avg (from_iter f64ops (map f_of_nat [1; 1; 2]))) as [a|] eqn:Ea; [|discriminate]; injection S as S.
  exists (map f_of_nat [1; 1; 2]), (map f_of_nat [3; 3; 6]), a, (f_of_nat 4).
  split; [|split; [exact Ea|split; [apply shown; vm_compute; reflexivity|]]].
  - cbn [map]; destruct (small_fair 1) as [A1 B1], (small_fair 2) as [A2 B2], (small_fair 3) as [A3 B3], (small_fair 6) as [A6 B6]; try lia.
    constructor; [split; [exact A1|split; [exact A3|rewrite B1, B3; cbn; lra]]|].
    constructor; [split; [exact A1|split; [exact A3|rewrite B1, B3; cbn; lra]]|].
    constructor; [split; [exact A2|split; [exact A6|rewrite B2, B6; cbn; lra]]|constructor].
  - destruct (small_fair 4) as [_ ->]; [lia|]; rewrite <- (SF2R_B2SF prec emax a), S; unfold SF2R, F2R; cbn [Fnum Fexp cond_Zopp].
    change (bpow radix2 (-52)) with (/ 4503599627370496)%R; cbn [INR]; intros C; lra.
Qed.
Lemma c130_aga_example :
  fair_units 1 narrow twice eq /\ models_alike eq (size_model narrow) (size_model twice) /\ exact_count 3 /\
  forall fexp st n g, unit_free st -> alike (twin_runs (twins eq)) (size_aga narrow fexp st n g) (size_aga twice fexp st n g).
Proof.
  split; [exact twice_fair|]; split; [exact twice_models|]; split; [unfold exact_count; cbn; lia|exact fair_aga_example].
Qed.
