(** * PScale3: temperatures in other units; witnesses. *)
From Coq Require Import List Bool Arith NArith ZArith Reals Lia Lra.
From Flocq Require Import Core BinarySingleNaN.
From Verif Require Import Rnd LRnd F64 LF64 Prob LAlike MStats MPopulation MSelection MModel MAlgorithms SpecF SpecO SpecScale
  PPopulation PIso PIso2 PScale PScale2 ExO.
Import ListNotations.
Local Open Scope R_scope.
Local Arguments bpow : simpl never.

Lemma fdiv_same x y x' y' : is_finite x = true -> is_finite x' = true -> B2R y <> 0 -> B2R y' <> 0 ->
  B2R x / B2R y = B2R x' / B2R y' -> xorb (Bsign x) (Bsign y) = xorb (Bsign x') (Bsign y') -> fdiv x y = fdiv x' y'.
Proof.
  intros Fx Fx' Hy Hy' E ES; unfold fdiv.
  pose proof (Bdiv_correct prec emax Hprec Hprec_emax mode_NE x y Hy) as C1.
  pose proof (Bdiv_correct prec emax Hprec Hprec_emax mode_NE x' y' Hy') as C2.
  rewrite E, ES in C1; destruct (Rlt_bool _ _) in C1, C2.
  - destruct C1 as (V1 & G1 & S1), C2 as (V2 & G2 & S2); rewrite Fx in G1; rewrite Fx' in G2.
    apply B2R_Bsign_inj; auto; [congruence|].
    rewrite S1, S2; auto; apply finite_not_nan; auto.
  - apply B2SF_inj; rewrite C1, C2; reflexivity.
Qed.

Section Heat.
Context {I J : Type} (k : Z) (io : individual_ops I) (jo : individual_ops J) (fexp : f64 -> f64).
Lemma heat_alike t c t' total total' p q :
  Forall2 (fun a b => is_finite (fitness io a) = true /\ is_finite (fitness jo b) = true /\
    Bsign (fitness io a) = Bsign (fitness jo b) /\ times_power k (fitness io a) (fitness jo b)) (individuals p) (individuals q) ->
  mild t -> mild t' -> 0 < B2R t -> times_power k t t' -> is_finite c = true -> bpow radix2 (-100) <= B2R c <= 1 ->
  alike (fun x y => fst x = fst y) (s <- prepare io fexp (Boltzmann t c total) p ;; select io fexp s p)
    (s <- prepare jo fexp (Boltzmann t' c total') q ;; select jo fexp s q).
Proof.
  intros H (Ft & Ht) (Ft' & Ht') Pt Et Fc Hc.
  pose proof (bpow_gt_0 radix2 (-800)) as P8; pose proof (bpow_gt_0 radix2 k) as Pk; pose proof (bpow_gt_0 radix2 (-100)) as P1.
  assert (T1 : bpow radix2 (-800) <= B2R t <= bpow radix2 900) by (destruct Ht; auto; lra).
  assert (T2 : bpow radix2 (-800) <= B2R t' <= bpow radix2 900).
  { destruct Ht' as [Z|]; auto; exfalso; unfold times_power in Et; assert (0 < B2R t * bpow radix2 k) by (apply Rmult_lt_0_compat; lra); lra. }
  assert (B : forall z, bpow radix2 (-800) <= z <= bpow radix2 900 -> bpow radix2 (-900) <= z * B2R c /\ - big < rnd (z * B2R c) < big /\ bpow radix2 (-900) <= rnd (z * B2R c)).
  { intros z Hz.
    assert (L : bpow radix2 (-900) <= z * B2R c).
    { replace (bpow radix2 (-900)) with (bpow radix2 (-800) * bpow radix2 (-100)) by (rewrite <- bpow_plus; reflexivity).
      apply Rmult_le_compat; lra. }
    assert (U : z * B2R c <= bpow radix2 900) by (apply Rle_trans with (z * 1); [apply Rmult_le_compat_l; lra|lra]).
    assert (0 < bpow radix2 (-900)) by apply bpow_gt_0; split; [exact L|]; split.
    - apply rnd_lt_big; rewrite Rabs_pos_eq by lra; apply Rle_trans with (bpow radix2 900); [lra|apply bpow_le; lia].
    - apply rnd_ge_float; auto; apply generic_format_bpow; unfold SpecFloat.fexp, SpecFloat.emin, prec, emax; lia. }
  destruct (B _ T1) as (L1 & B1 & R1), (B _ T2) as (L2 & B2 & R2).
  destruct (fmul_correct t c Ft Fc) as (_ & _ & G1 & V1), (fmul_correct t' c Ft' Fc) as (_ & _ & G2 & V2).
  pose proof (proj2 G1 B1) as F1; pose proof (proj2 G2 B2) as F2; specialize (V1 F1); specialize (V2 F2).
  assert (P9 : 0 < bpow radix2 (-900)) by apply bpow_gt_0.
  assert (E : B2R (fmul t' c) = B2R (fmul t c) * bpow radix2 k).
  { rewrite V1, V2; unfold times_power in Et; rewrite Et; replace (B2R t * bpow radix2 k * B2R c) with (B2R t * B2R c * bpow radix2 k) by ring.
    apply rnd_times; right; split; [exact L1|]; replace (B2R t * B2R c * bpow radix2 k) with (B2R t * bpow radix2 k * B2R c) by ring; rewrite <- Et; exact L2. }
  assert (SG : forall x : f64, is_finite x = true -> 0 < B2R x -> Bsign x = false).
  { intros x Fx Hx; destruct x as [[|]|[|]| |[|] m e Hb]; try discriminate; auto; cbn in Hx; try lra.
    exfalso; apply (Rlt_irrefl 0); eapply Rlt_trans; [exact Hx|]; apply F2R_lt_0; reflexivity. }
  assert (W : Forall2 (fun a b => scaled_fitness io fexp (fmul t c) a = scaled_fitness jo fexp (fmul t' c) b) (individuals p) (individuals q)).
  { eapply F2_mono; [|exact H]; intros a b (Fa & Fb & ES & Eab); unfold scaled_fitness; f_equal; apply fdiv_same; auto; try lra.
    - unfold times_power in Eab; rewrite Eab, E; field; split; lra.
    - rewrite ES, (SG _ F1), (SG _ F2) by lra; reflexivity. }
  eapply (alike_bind (fun s s' => exists x, s = Boltzmann (fmul t c) c x /\ s' = Boltzmann (fmul t' c) c x)).
  { cbn [prepare]; rewrite (F2_map_eq _ _ _ _ _ (fun a b h => h) W), (Forall2_len _ _ _ W).
    eapply alike_bind; [apply alike_eq|]; intros x ? <-; cbn; eauto. }
  intros ? ? (x & -> & ->); cbn [select].
  eapply alike_bind; [apply alike_eq|]; intros u ? <-.
  eapply alike_mono; [|apply (iso_wheel_select (fun a b => scaled_fitness io fexp (fmul t c) a = scaled_fitness jo fexp (fmul t' c) b)); auto].
  intros a b [Hab _]; exact Hab.
Qed.
End Heat.

(** ** Examples *)
Lemma small_mild n : (1 <= n <= 6)%nat -> mild (f_of_nat n) /\ B2R (f_of_nat n) = INR n.
Proof.
  intros H; unfold f_of_nat; destruct (f_of_Z_exact (Z.of_nat n)) as [F V]; [lia|].
  unfold mild; rewrite V, <- INR_IZR_INZ; repeat split; auto; right.
  assert (1 <= INR n <= 6) by (split; [apply (le_INR 1); lia|replace 6 with (INR 6) by (cbn; lra); apply le_INR; lia]).
  assert (bpow radix2 (-800) <= bpow radix2 0) by (apply bpow_le; lia).
  assert (bpow radix2 3 <= bpow radix2 900) by (apply bpow_le; lia).
  change (bpow radix2 0) with 1 in *; change (bpow radix2 3) with 8 in *; lra.
Qed.
Lemma twice_units : other_units 1 narrow twice eq.
Proof.
  split; [reflexivity|]; split; [intros; subst; reflexivity|]; intros a b <-.
  assert (E : bpow radix2 1 = 2) by reflexivity.
  destruct a; cbn [narrow twice fitness];
    [destruct (small_mild 2) as [A A'], (small_mild 4) as [C C']|destruct (small_mild 1) as [A A'], (small_mild 2) as [C C']|destruct (small_mild 3) as [A A'], (small_mild 6) as [C C']];
    try lia; split; auto; split; auto; unfold times_power; rewrite A', C', E; cbn; lra.
Qed.
Lemma size_models_any io jo : (forall a b, fge (fitness io a) (fitness io b) = fge (fitness jo a) (fitness jo b)) ->
  models_alike eq (size_model io) (size_model jo).
Proof.
  intros H; split; [|split; [|split; [|split; [|split; [|split]]]]]; intros; subst; try reflexivity.
  cbn; unfold default_can_survive; rewrite ?H; reflexivity.
Qed.
Definition step_exp (x : f64) : f64 := if flt x f2 then f1 else f4.
Lemma twice_models : models_alike eq (size_model narrow) (size_model twice).
Proof. apply size_models_any; intros [] []; vm_compute; reflexivity. Qed.
Lemma shifted_models : models_alike eq (size_model narrow) (size_model shifted).
Proof. apply size_models_any; intros [] []; vm_compute; reflexivity. Qed.
Lemma twice_example fexp st g : unit_free st -> alike (twin_runs (twins eq)) (size_ga narrow fexp st g) (size_ga twice fexp st g).
Proof.
  intros H; assert (C : exact_count 3) by (unfold exact_count; cbn; lia).
  apply (units_ga_evolve 1 narrow twice eq fexp twice_units 3 C _ _ twice_models _ _ _ (size_closure g)); auto.
Qed.
Definition tape_at (u : N) : list N := [0; 0; u; 0; 0; u; 0; 0; u; 0; 0; 0]%N.
Definition unit_tape : list N := tape_at 2000000000000000.
Lemma step_monotone x y : fle x y = true -> fle (step_exp x) (step_exp y) = true.
Proof.
  intros H; unfold step_exp; destruct (flt x f2) eqn:Ex, (flt y f2) eqn:Ey; try reflexivity.
  exfalso; apply fle_spec in H as (A & B & H); apply flt_spec in Ey as (_ & C & Ey).
  assert (flt x f2 = true) by (apply flt_spec; repeat split; auto; lra); congruence.
Qed.
Lemma boltzmann_units_refuted :
  exists (io jo : individual_ops comparison) (mdl ndl : model comparison unit) (fexp : f64 -> f64) (g : nat) (init : list comparison) (q : ga_params),
  other_units 1 io jo eq /\ models_alike eq mdl ndl /\ (forall x y, fle x y = true -> fle (fexp x) (fexp y) = true) /\
  ga_selection_strategy q = StBoltzmann f1 f1 /\
  ~ alike (twin_runs (twins eq))
      (evolve_population io fexp mdl (ga_algorithm io fexp mdl) (quiet (fun (_ : unit) p => Ret (generation p <? g, tt)%nat)) (S g) (ga_from tt) init q tt)
      (evolve_population jo fexp ndl (ga_algorithm jo fexp ndl) (quiet (fun (_ : unit) p => Ret (generation p <? g, tt)%nat)) (S g) (ga_from tt) init q tt).
Proof.
  exists narrow, twice, (size_model narrow), (size_model twice), step_exp, 1%nat, [Lt; Eq; Gt], (mkGaParams 3 f0 f0 f0 (StBoltzmann f1 f1)).
  split; [exact twice_units|]; split; [exact twice_models|]; split; [exact step_monotone|]; split; [reflexivity|].
  apply (not_alike _ _ unit_tape); [vm_compute; reflexivity|]; vm_compute; discriminate.
Qed.
Lemma shift_refuted :
  exists (io jo : individual_ops comparison) (mdl ndl : model comparison unit) (g : nat) (init : list comparison) (q : ga_params),
  (forall x, is_valid io x = is_valid jo x) /\ (forall x y, ieq io x y = ieq jo x y) /\
  (forall x, mild (fitness io x) /\ mild (fitness jo x) /\ B2R (fitness jo x) = B2R (fitness io x) + 1) /\
  models_alike eq mdl ndl /\ ga_selection_strategy q = StRouletteWheel /\ forall fexp,
  ~ alike (twin_runs (twins eq))
      (evolve_population io fexp mdl (ga_algorithm io fexp mdl) (quiet (fun (_ : unit) p => Ret (generation p <? g, tt)%nat)) (S g) (ga_from tt) init q tt)
      (evolve_population jo fexp ndl (ga_algorithm jo fexp ndl) (quiet (fun (_ : unit) p => Ret (generation p <? g, tt)%nat)) (S g) (ga_from tt) init q tt).
Proof.
  exists narrow, shifted, (size_model narrow), (size_model shifted), 1%nat, [Lt; Eq; Gt], (mkGaParams 3 f0 f0 f0 StRouletteWheel).
  split; [reflexivity|]; split; [reflexivity|]; split; [|split; [exact shifted_models|split; [reflexivity|]]].
  - intros a; destruct a; cbn [narrow shifted fitness];
    [destruct (small_mild 2) as [A A'], (small_mild 3) as [C C']|destruct (small_mild 1) as [A A'], (small_mild 2) as [C C']|destruct (small_mild 3) as [A A'], (small_mild 4) as [C C']];
    try lia; split; auto; split; auto; rewrite A', C'; cbn; lra.
  - intros fexp; apply (not_alike _ _ unit_tape); [vm_compute; reflexivity|]; vm_compute; discriminate.
Qed.
Lemma c128_example :
  other_units 1 narrow twice eq /\ models_alike eq (size_model narrow) (size_model twice) /\ exact_count 3 /\
  (forall fexp st g, unit_free st -> alike (twin_runs (twins eq)) (size_ga narrow fexp st g) (size_ga twice fexp st g)) /\
  (forall fexp, alike (fun x y => fst x = fst y)
     (s <- prepare narrow fexp (Boltzmann f2 f1 f0) (units_pop narrow) ;; select narrow fexp s (units_pop narrow))
     (s <- prepare twice fexp (Boltzmann f4 f1 f0) (units_pop twice) ;; select twice fexp s (units_pop twice))).
Proof.
  split; [exact twice_units|]; split; [exact twice_models|]; split; [unfold exact_count; cbn; lia|]; split; [exact twice_example|].
  intros fexp; destruct (small_mild 2) as [A A'], (small_mild 4) as [C C']; try lia.
  apply (heat_alike 1); auto.
  - repeat constructor; try reflexivity; apply twice_units; reflexivity.
  - change f2 with (f_of_nat 2); rewrite A'; cbn; lra.
  - change f2 with (f_of_nat 2); change f4 with (f_of_nat 4); unfold times_power; rewrite A', C'; change (bpow radix2 1) with 2; cbn; lra.
  - destruct f1_val as [_ ->]; split; [|lra]; change 1 with (bpow radix2 0); apply bpow_le; lia.
Qed.
Lemma roulette_alike {I J} k (io : individual_ops I) (jo : individual_ops J) (fexp : f64 -> f64) p q total total' :
  Forall2 (fun a b => mild (fitness io a) /\ mild (fitness jo b) /\ times_power k (fitness io a) (fitness jo b)) (individuals p) (individuals q) ->
  exact_count (length (individuals p)) ->
  alike (fun x y => fst x = fst y) (s <- prepare io fexp (RouletteWheel total) p ;; select io fexp s p)
    (s <- prepare jo fexp (RouletteWheel total') q ;; select jo fexp s q).
Proof.
  intros H Hn; pose proof (Forall2_len _ _ _ H) as El; unfold exact_count in Hn.
  set (R := fun a b => mild (fitness io a) /\ mild (fitness jo b) /\ times_power k (fitness io a) (fitness jo b)) in *.
  eapply (alike_bind (fun s s' => exists x y, s = RouletteWheel x /\ s' = RouletteWheel y /\ two_sums k (2 ^ 53) x y)).
  - cbn [prepare]; rewrite <- El; eapply alike_bind.
    + apply (two_par_sums k (length (individuals p)) (map (fitness io) (individuals p)) (map (fitness jo) (individuals q))); [|rewrite map_length; lia].
      eapply F2_map; [|exact H]; intros a b (A & B & C); apply two_sums_1; auto.
    + intros x y Hxy; cbn; exists x, y; split; [reflexivity|]; split; [reflexivity|]; (eapply two_sums_mono; [|exact Hxy]); rewrite map_length; lia.
  - intros ? ? (x & y & -> & -> & Hxy); cbn [select]; unfold gen_f64; cbn [bind alike]; split; [reflexivity|]; intros u Hu.
    set (io' := {| fitness := fitness io; is_valid := fun _ => true; ieq := fun _ _ => true |}).
    set (jo' := {| fitness := fitness jo; is_valid := fun _ => true; ieq := fun _ _ => true |}).
    assert (HU : other_units k io' jo' R) by (split; [reflexivity|split; [reflexivity|auto]]).
    eapply alike_mono; [|apply (units_wheel_select k io' jo' R HU); auto]; intros a b [E _]; exact E.
Qed.
