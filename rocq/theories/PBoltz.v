(** * PBoltz: runs with Boltzmann selection that have cooled down (C98). *)
From Coq Require Import List Arith NArith ZArith Lia Bool Reals Lra.
From Flocq Require Import Core BinarySingleNaN.
From Verif Require Import Rnd Prob F64 MStats MPopulation MSelection MModel MAlgorithms SpecF SpecA SpecH SpecE ExF
  LRnd LProb LF64 PSelection PSelection2 PModel PConv PRun PRun4 PHist2 ExM ExR ExH PHistEx.
Import ListNotations.
Open Scope R_scope.

(** ** Probabilities that are close *)
Lemma Rsum_near n f v d : (forall i, (i < n)%nat -> Rabs (f i - v) <= d) -> Rabs (Rsum n f - INR n * v) <= INR n * d.
Proof.
  induction n as [|n IH]; intros H; [rewrite Rsum_0; cbn [INR]; rewrite !Rmult_0_l, Rminus_0_r, Rabs_R0; lra|].
  rewrite Rsum_S, S_INR; pose proof (IH (fun i Hi => H i (Nat.lt_lt_succ_r _ _ Hi))) as H1.
  pose proof (H n (Nat.lt_succ_diag_r n)) as H2.
  replace (Rsum n f + f n - (INR n + 1) * v) with ((Rsum n f - INR n * v) + (f n - v)) by ring.
  eapply Rle_trans; [apply Rabs_triang|]; lra.
Qed.

Lemma draw_near {A} n (k : N -> M A) P v d : (0 < n)%N -> (forall i, (i < n)%N -> Rabs (prob (k i) P - v) <= d) ->
  Rabs (prob (Draw n k) P - v) <= d.
Proof.
  intros Hn H; cbn [prob].
  assert (Hp : 0 < INR (N.to_nat n)) by (apply lt_0_INR; lia).
  assert (H1 : Rabs (Rsum (N.to_nat n) (fun i => prob (k (N.of_nat i)) P) - INR (N.to_nat n) * v) <= INR (N.to_nat n) * d).
  { apply Rsum_near; intros i Hi; apply H; lia. }
  set (S := Rsum _ _) in *; clearbody S; set (q := INR (N.to_nat n)) in *; clearbody q.
  replace (S / q - v) with ((S - q * v) / q) by (field; lra).
  unfold Rdiv; rewrite Rabs_mult, (Rabs_pos_eq (/ q)) by (left; apply Rinv_0_lt_compat; auto).
  replace d with (q * d * / q) by (field; lra).
  apply Rmult_le_compat_r; auto; left; apply Rinv_0_lt_compat; auto.
Qed.

(** All alternatives of a draw but one are within [d] of [v]. *)
Lemma draw_almost {A} n (k : N -> M A) P v d : (0 < n)%N -> 0 <= v <= 1 -> 0 <= d ->
  (forall i, (0 < i < n)%N -> Rabs (prob (k i) P - v) <= d) ->
  Rabs (prob (Draw n k) P - v) <= d + / INR (N.to_nat n).
Proof.
  intros Hn Hv Hd H; cbn [prob].
  assert (Hp : 0 < INR (N.to_nat n)) by (apply lt_0_INR; lia).
  assert (G : forall m, (m <= N.to_nat n)%nat ->
    Rabs (Rsum m (fun i => prob (k (N.of_nat i)) P) - INR m * v) <= INR m * d + 1).
  { induction m as [|m IH]; intros Hm.
    - rewrite Rsum_0; cbn [INR]; rewrite !Rmult_0_l, Rminus_0_r, Rabs_R0; lra.
    - destruct (Nat.eq_dec m 0) as [->|Hm0].
      + rewrite Rsum_S, Rsum_0; change (INR 1) with 1; cbn [N.of_nat].
        pose proof (prob_nonneg (k 0%N) P); pose proof (prob_le_one (k 0%N) P).
        apply Rabs_le; lra.
      + rewrite Rsum_S, S_INR; specialize (IH ltac:(lia)); pose proof (H (N.of_nat m) ltac:(lia)) as H2.
        set (S := Rsum m _) in *; clearbody S.
        replace (S + prob (k (N.of_nat m)) P - (INR m + 1) * v) with ((S - INR m * v) + (prob (k (N.of_nat m)) P - v)) by ring.
        eapply Rle_trans; [apply Rabs_triang|]; lra. }
  specialize (G (N.to_nat n) ltac:(lia)).
  set (S := Rsum _ _) in *; clearbody S; set (q := INR (N.to_nat n)) in *; clearbody q.
  replace (S / q - v) with ((S - q * v) / q) by (field; lra).
  unfold Rdiv; rewrite Rabs_mult, (Rabs_pos_eq (/ q)) by (left; apply Rinv_0_lt_compat; auto).
  replace (d + / q) with ((q * d + 1) * / q) by (field; lra).
  apply Rmult_le_compat_r; auto; left; apply Rinv_0_lt_compat; auto.
Qed.

Lemma n53 : / INR (N.to_nat (2 ^ 53)) = bpow radix2 (-53).
Proof. rewrite n53_INR; reflexivity. Qed.

(** ** Breeding with a selection that nearly always gives the first individual *)
Section Worst.
Context {I : Type} (io : individual_ops I) (fexp : f64 -> f64) {MS : Type} (mdl : model I MS).
Variables (p : population I) (b : breeding I) (x0 : I) (k : N -> M (nat * I)).
Hypothesis Hs : select io fexp (parent_selector b) p = Draw (2 ^ 53) k.
Hypothesis Hk : forall u, (0 < u < 2 ^ 53)%N -> k u = Ret (0%nat, x0).
Hypothesis Hr : ieq io x0 x0 = true.
Notation tiny := (bpow radix2 (-53)).

Lemma tiny_pos : 0 < tiny.
Proof. apply bpow_gt_0. Qed.

Lemma select_almost {B} (f : nat * I -> M B) P v d : 0 <= v <= 1 -> 0 <= d -> Rabs (prob (f (0%nat, x0)) P - v) <= d ->
  Rabs (prob (bind (select io fexp (parent_selector b) p) f) P - v) <= d + tiny.
Proof.
  intros Hv Hd H; rewrite Hs; cbn [bind]; rewrite <- n53.
  apply draw_almost; auto; [lia|]; intros i Hi; rewrite Hk by auto; exact H.
Qed.

Lemma distinct_almost {B} (g : option (nat * I) -> M B) P tries :
  Rabs (prob (bind (select_distinct io fexp (parent_selector b) p tries x0) g) P - prob (g None) P) <= INR tries * tiny.
Proof.
  induction tries as [|t IH]; cbn [select_distinct].
  - cbn [bind INR]; rewrite Rminus_diag_eq, Rabs_R0 by auto; lra.
  - rewrite prob_assoc, S_INR.
    eapply Rle_trans; [apply select_almost with (d := INR t * tiny)|lra].
    + split; [apply prob_nonneg|apply prob_le_one].
    + apply Rmult_le_pos; [apply pos_INR|left; apply tiny_pos].
    + rewrite Hr; cbn [negb]; exact IH.
Qed.

Lemma parent2_almost {B} (g : option I -> M B) P :
  Rabs (prob (bind (breed_parent2 io fexp p b x0) g) P - prob (g None) P) <= 3 * tiny.
Proof.
  pose proof tiny_pos as Ht; unfold breed_parent2.
  assert (Z : Rabs (prob (g None) P - prob (g None) P) <= 3 * tiny) by (rewrite Rminus_diag_eq, Rabs_R0 by auto; lra).
  destruct (1 <? length (individuals p))%nat; [|exact Z].
  unfold gen_f64; cbn [bind]; apply draw_near; [lia|]; intros i Hi.
  destruct (flt (f_unit i) (crossover_rate b)); [|exact Z].
  rewrite prob_assoc; pose proof (distinct_almost (fun o => bind (Ret (option_map snd o)) g) P 3) as H.
  replace (INR 3) with 3 in H by (cbn; lra); exact H.
Qed.

Lemma breed_almost ms P :
  Rabs (prob (breed io fexp mdl ms p b) P - prob (solo io mdl ms (mutation_rate b) p x0) P) <= bpow radix2 (-51).
Proof.
  replace (bpow radix2 (-51)) with (3 * tiny + tiny).
  - unfold breed; apply (select_almost (fun r => let '(_, parent1) := r in _) P).
    + split; [apply prob_nonneg|apply prob_le_one].
    + pose proof tiny_pos; lra.
    + apply (parent2_almost (fun parent2 => breed_from io mdl ms p b x0 parent2)).
  - replace (bpow radix2 (-51)) with (bpow radix2 2 * tiny) by (rewrite <- bpow_plus; f_equal; lia).
    change (bpow radix2 2) with 4; ring.
Qed.
End Worst.

(** ** The temperature *)
Lemma fmul_sign x y : is_finite x = true -> is_finite y = true -> Bsign x = false -> Bsign y = false ->
  - big < rnd (B2R x * B2R y) < big ->
  is_finite (fmul x y) = true /\ B2R (fmul x y) = rnd (B2R x * B2R y) /\ Bsign (fmul x y) = false.
Proof.
  intros Fx Fy Sx Sy Hb; unfold fmul.
  pose proof (Bmult_correct prec emax _ _ mode_NE x y) as H.
  change (bpow radix2 emax) with big in H; cbn [round_mode] in H.
  rewrite Rlt_bool_true in H by (apply Rabs_lt; lra).
  rewrite Fx, Fy, Sx, Sy in H; destruct H as (A & B & C); split; [exact B|]; split; [exact A|].
  apply C; destruct (Bmult mode_NE x y); cbn in *; congruence.
Qed.

Section Cool.
Variables (t c : f64).
Hypothesis (Ft : is_finite t = true) (Fc : is_finite c = true) (Ht : 0 < B2R t) (Hc : 0 < B2R c < 1).
Let rho := B2R c * (1 + bpow radix2 (-53)).

Lemma sign_of_pos (x : f64) : 0 < B2R x -> Bsign x = false.
Proof. intros H; destruct (Bsign x) eqn:E; auto; pose proof (Bsign_neg x E); lra. Qed.

Lemma cooled_bound n : is_finite (cooled n t c) = true /\ Bsign (cooled n t c) = false /\
  (B2R (cooled n t c) <= B2R t * rho ^ n \/ B2R (cooled n t c) <= bpow radix2 (-1022)).
Proof.
  assert (Hrho : 0 < rho) by (unfold rho; pose proof (bpow_gt_0 radix2 (-53)); nra).
  induction n as [|n (F & S & H)].
  - cbn [cooled pow]; split; [auto|]; split; [apply sign_of_pos; auto|left; lra].
  - cbn [cooled]; pose proof (Bsign_pos _ S) as Hp; set (T := cooled n t c) in *; clearbody T.
    assert (Hle : rnd (B2R T * B2R c) <= B2R T) by (apply rnd_le_float; [apply B2R_isfloat|nra]).
    assert (H0 : 0 <= rnd (B2R T * B2R c)) by (apply rnd_pos; nra).
    pose proof (B2R_bound T) as Hb.
    destruct (fmul_sign T c F Fc S (sign_of_pos c (proj1 Hc)) ltac:(lra)) as (A & B & C).
    split; [auto|]; split; [auto|]; rewrite B.
    destruct H as [H|H]; [|right; lra].
    destruct (Rle_lt_dec (bpow radix2 (-1022)) (B2R T * B2R c)) as [Hbig|Hsmall].
    + left; pose proof (rnd_error (B2R T * B2R c)) as He; rewrite (Rabs_pos_eq (B2R T * B2R c)) in He by nra.
      specialize (He Hbig); apply Rabs_le_inv in He; cbn [pow].
      apply Rle_trans with (B2R T * rho); [unfold rho; nra|].
      replace (B2R t * (rho * rho ^ n)) with (B2R t * rho ^ n * rho) by ring; apply Rmult_le_compat_r; lra.
    + right; apply rnd_le_float; [apply isfloat_bpow; lia|lra].
Qed.

Lemma rho_lt_1 : 0 < rho < 1.
Proof.
  unfold rho; pose proof (below_one c Fc (proj2 Hc)); set (d := bpow radix2 (-53)) in *.
  assert (0 < d) by apply bpow_gt_0; nra.
Qed.

Lemma rho_pow m n : (m <= n)%nat -> rho ^ n <= rho ^ m.
Proof.
  intros H; replace n with (m + (n - m))%nat by lia; rewrite pow_add.
  pose proof rho_lt_1 as Hr; assert (0 < rho ^ m) by (apply pow_lt; lra).
  assert (rho ^ (n - m) <= 1) by (rewrite <- (pow1 (n - m)); apply pow_incr; lra).
  nra.
Qed.
End Cool.

Lemma cold_quotient a v T : at_least a v -> is_finite T = true -> Bsign T = false -> 0 < a -> B2R T * 710 <= a ->
  fge (fdiv v T) (f_of_Z 710) = true.
Proof.
  intros Hv F S Ha HT.
  destruct (f_of_Z_exact 710 ltac:(cbn; lia)) as [F7 V7].
  assert (Hinf : fge f_inf (f_of_Z 710) = true) by (vm_compute; reflexivity).
  pose proof (Bsign_pos T S) as HT0.
  destruct Hv as [->|[Fv Hv]].
  - replace (fdiv f_inf T) with f_inf; auto.
    destruct T as [[|]|[|]| |[|] m e H]; cbn in *; try discriminate; reflexivity.
  - destruct (Req_dec (B2R T) 0) as [E|E].
    + replace (fdiv v T) with f_inf; auto.
      destruct T as [[|]|[|]| |[|] m e H]; cbn in S; try discriminate.
      * destruct v as [s|s| |[|] m e H]; cbn in Fv, Hv; try discriminate; try (cbn in *; lra).
        -- exfalso; assert (F2R (Float radix2 (cond_Zopp true (Zpos m)) e) < 0) by (apply F2R_lt_0; cbn; lia); cbn in *; lra.
        -- reflexivity.
      * exfalso; cbn in E; assert (0 < F2R (Float radix2 (Zpos m) e)) by (apply F2R_gt_0; cbn; lia); lra.
    + destruct (fdiv_correct v T Fv E) as (Nn & K & _ & _).
      apply fge_spec; split; [auto|]; split; [apply finite_not_nan; auto|].
      rewrite K, (key_finite _ F7), V7.
      assert (H : 710 <= B2R v / B2R T).
      { apply Rmult_le_reg_r with (B2R T); [lra|]; unfold Rdiv; rewrite Rmult_assoc, Rinv_l by auto; lra. }
      assert (Hb : (710 < big)) by (apply Rlt_le_trans with (bpow radix2 10); [change (bpow radix2 10) with 1024; lra|apply bpow_le; lia]).
      assert (Hr : 710 <= rnd (B2R v / B2R T)) by (apply rnd_ge_float; auto; apply isfloat_IZR; cbn; lia).
      pose proof (ovf_mono _ _ Hr) as Hm; rewrite (ovf_small 710) in Hm by lra; exact Hm.
Qed.

Section Runs.
Context {I : Type} (io : individual_ops I) (fexp : f64 -> f64) {MS : Type} (mdl : model I MS) {PS : Type}.
Variables (t c : f64) (a : R) (K : nat).
Hypothesis (Hexp : exp_overflows fexp) (Hrefl : forall x, ieq io x x = true).
Hypothesis (Hfit : forall x, is_valid io x = true -> at_least a (fitness io x)).
Hypothesis (Ft : is_finite t = true) (Fc : is_finite c = true) (Ht : 0 < B2R t) (Hc : 0 < B2R c < 1).
Hypothesis (Ha : bpow radix2 (-1000) <= a).
Hypothesis (HK : B2R t * (B2R c * (1 + bpow radix2 (-53))) ^ S K * 710 <= a).

Lemma a_pos : 0 < a.
Proof. pose proof (bpow_gt_0 radix2 (-1000)); lra. Qed.

Lemma cold k v : (K <= k)%nat -> at_least a v -> fexp (fdiv v (cooled (S k) t c)) = f_inf.
Proof.
  intros Hk Hv; apply Hexp; destruct (cooled_bound t c Ft Fc Ht Hc (S k)) as (F & S0 & H).
  apply (cold_quotient a); auto; [apply a_pos|].
  destruct H as [H|H].
  - assert (H1 := rho_pow c Fc Hc (S K) (S k) ltac:(lia)).
    apply Rle_trans with (B2R t * (B2R c * (1 + bpow radix2 (-53))) ^ S K * 710); [|lra].
    apply Rmult_le_compat_r; [lra|]; eapply Rle_trans; [exact H|]; apply Rmult_le_compat_l; [lra|exact H1].
  - assert (bpow radix2 (-1022) * bpow radix2 10 <= bpow radix2 (-1000)) by (rewrite <- bpow_plus; apply bpow_le; lia).
    change (bpow radix2 10) with 1024 in *; pose proof (Bsign_pos _ S0); pose proof (bpow_gt_0 radix2 (-1022)); lra.
Qed.

Lemma numbers : valid_is_number io.
Proof. intros x Hx; destruct (Hfit x Hx) as [->|[F _]]; [reflexivity|apply finite_not_nan; auto]. Qed.

Lemma trace_cold size e tr : good_trace io size tr -> cools io fexp mdl e t c tr -> bred_from_worst io fexp mdl e K tr.
Proof.
  intros Hg Hcool k p p' Hk Hp Hp'; destruct (Hcool k p p' Hp Hp') as (ms & cr & mr & v & bred & Hv & Hb & Hh).
  destruct (Hg k p Hp) as (_ & (Hne & Hnn & Hsort & _) & Hval & _).
  destruct (individuals p) as [|x0 rest] eqn:Ei; [congruence|].
  exists ms, (mkBreeding cr mr (Boltzmann (cooled (S k) t c) c v)), bred, x0.
  split; [reflexivity|]; split; [|split; [|split; auto]].
  - intros y [<-|Hy].
    + apply fle_spec; repeat split; try (apply numbers, Hval; left; auto); lra.
    + apply In_nth_error in Hy as (j & Hj); apply (Hsort 0%nat (S j)); auto; lia.
  - assert (Hinf : forall x, In x (individuals p) -> fexp (fdiv (fitness io x) (cooled (S k) t c)) = f_inf).
    { intros x Hx; apply cold; auto; apply Hfit, Hval; rewrite <- Ei; auto. }
    apply split_sum_inf in Hv.
    2: { apply Forall_forall; intros y Hy; apply in_map_iff in Hy as (x & <- & Hx); apply Hinf; rewrite Ei; auto. }
    destruct Hv as [[Hv _]|[_ ->]]; [discriminate|].
    intros P; eapply breed_almost; [reflexivity| |apply Hrefl].
    intros u Hu; cbn [bind]; unfold wheel_select; rewrite unit_pos_inf by auto; rewrite Ei; cbn [wheel].
    unfold scaled_fitness; rewrite Hinf by (rewrite Ei; left; auto); reflexivity.
Qed.

Lemma ga_cold (f : PS -> population I -> M (bool * PS)) fuel s init q ps r :
  selector_left_alone mdl -> fits_usize (ga_population_size q) -> fits_usize (length init) -> ga_selection_strategy q = StBoltzmann t c ->
  may (evolve_population io fexp mdl (ga_algorithm io fexp mdl) (quiet f) fuel s init q ps) r ->
  exists e, elite_count (ga_population_size q) (ga_elitism_rate q) e /\ bred_from_worst io fexp mdl e K (r_trace r).
Proof.
  intros Hl Hf Hi Hq H; destruct (ga_cools io fexp mdl f fuel s init q ps r t c Hl Hf Hq H) as (e & v & He & _ & Hcool).
  exists e; split; auto; eapply trace_cold; [|exact Hcool]; eapply ga_good; eauto; apply numbers.
Qed.
Lemma aga_cold (f : PS -> population I -> M (bool * PS)) fuel s init q ps r :
  selector_left_alone mdl -> fits_usize (aga_population_size q) -> fits_usize (length init) -> aga_selection_strategy q = StBoltzmann t c ->
  may (evolve_population io fexp mdl (aga_algorithm io fexp mdl) (quiet f) fuel s init q ps) r ->
  exists e, elite_count (aga_population_size q) (aga_elitism_rate q) e /\ bred_from_worst io fexp mdl e K (r_trace r).
Proof.
  intros Hl Hf Hi Hq H; destruct (aga_cools io fexp mdl f fuel s init q ps r t c Hl Hf Hq H) as (e & v & He & _ & Hcool).
  exists e; split; auto; eapply trace_cold; [|exact Hcool]; eapply aga_good; eauto; apply numbers.
Qed.
End Runs.

(** However small the cooling, the bound is met from some generation on. *)
Lemma eventually_cold (t c : f64) (a : R) : is_finite c = true -> 0 < B2R t -> 0 < B2R c < 1 -> 0 < a ->
  exists K0, forall K, (K0 <= K)%nat -> B2R t * (B2R c * (1 + bpow radix2 (-53))) ^ S K * 710 <= a.
Proof.
  intros Fc Ht Hc Ha; pose proof (rho_lt_1 c Fc Hc) as Hr; set (rho := B2R c * (1 + bpow radix2 (-53))) in *.
  destruct (pow_lt_1_zero rho) with (y := a / (B2R t * 710)) as (K0 & HK).
  - rewrite Rabs_pos_eq; lra.
  - apply Rdiv_lt_0_compat; lra.
  - exists K0; intros K Hle; specialize (HK (S K) ltac:(lia)).
    rewrite Rabs_pos_eq in HK by (apply pow_le; lra).
    apply Rmult_lt_compat_r with (r := B2R t * 710) in HK; [|lra].
    unfold Rdiv in HK; rewrite Rmult_assoc, Rinv_l in HK by lra; lra.
Qed.

(** ** Example: fitness 1 and more, temperature 1000 halved each generation *)
Definition c98_temperature : f64 := f_of_Z 1000.
Definition c98_cooling : f64 := f_lit 1 2.
Lemma small_pow : (51 / 100) ^ 21 <= / 1000000.
Proof.
  assert (H1 : (51 / 100) ^ 3 <= 2 / 15) by (cbn [pow]; lra).
  assert (H0 : 0 <= (51 / 100) ^ 3) by (apply pow_le; lra).
  assert (H2 : ((51 / 100) ^ 3) ^ 7 <= (2 / 15) ^ 7) by (apply pow_incr; split; assumption).
  rewrite <- pow_mult in H2; change (3 * 7)%nat with 21%nat in H2.
  eapply Rle_trans; [exact H2|]; clear; cbn [pow]; lra.
Qed.
Lemma c98_example :
  exp_overflows ex_exp /\ (forall x, ieq ex_io x x = true) /\ (forall x, is_valid ex_io x = true -> at_least 1 (fitness ex_io x)) /\
  is_finite c98_temperature = true /\ is_finite c98_cooling = true /\ 0 < B2R c98_temperature /\ 0 < B2R c98_cooling < 1 /\
  B2R c98_temperature * (B2R c98_cooling * (1 + bpow radix2 (-53))) ^ 21 * 710 <= 1.
Proof.
  destruct (f_of_Z_exact 1000 ltac:(cbn; lia)) as [Ft Vt]; destruct (f_of_Z_exact 709 ltac:(cbn; lia)) as [F9 V9];
  destruct (f_of_Z_exact 710 ltac:(cbn; lia)) as [F7 V7].
  assert (Fc : is_finite c98_cooling = true) by reflexivity.
  assert (Vc : B2R c98_cooling = 1 / 2).
  { rewrite <- SF2R_B2SF; replace (B2SF c98_cooling) with (SpecFloat.S754_finite false 4503599627370496 (-53)) by (vm_compute; reflexivity).
    cbn [SF2R cond_Zopp]; unfold F2R; cbn [Fnum Fexp]; change (bpow radix2 (-53)) with (/ 9007199254740992); lra. }
  split; [|split; [intros x; apply Nat.eqb_refl|split]].
  - intros x Hx; unfold ex_exp; replace (flt (f_of_Z 709) x) with true; auto; symmetry.
    apply fge_spec in Hx as (Nx & _ & H); rewrite (key_finite _ F7), V7 in H.
    apply flt_spec; split; [apply finite_not_nan; auto|]; split; auto; rewrite (key_finite _ F9), V9; lra.
  - intros x Hx; cbn [is_valid ex_io] in Hx; apply negb_true_iff, Nat.eqb_neq in Hx; cbn [fitness ex_io].
    unfold f_of_nat; destruct (f_of_Z_correct (Z.of_nat x)) as (Nn & Kk & Ff & Vv).
    assert (H1 : 1 <= IZR (Z.of_nat x)) by (apply IZR_le; lia).
    assert (H2 : 1 <= rnd (IZR (Z.of_nat x))) by (apply rnd_ge_float; auto; apply isfloat_IZR; cbn; lia).
    destruct (is_finite (f_of_Z (Z.of_nat x))) eqn:E; [right; split; auto; rewrite Vv by auto; auto|left].
    pose proof (ovf_pos (rnd (IZR (Z.of_nat x))) ltac:(lra)) as H3; rewrite <- Kk in H3; pose proof big_pos.
    destruct (f_of_Z (Z.of_nat x)) as [s0|[|]| |s0 m e H0]; cbn in E, Nn, H3; try discriminate; try lra; reflexivity.
  - split; [auto|]; split; [auto|]; unfold c98_temperature; rewrite Vt, Vc; split; [lra|]; split; [lra|].
    assert (Hd : 0 < bpow radix2 (-53) < / 50) by (split; [apply bpow_gt_0|apply Rlt_trans with (bpow radix2 (-6)); [apply bpow_lt; lia|change (bpow radix2 (-6)) with (/ 64); lra]]).
    assert (H : (1 / 2 * (1 + bpow radix2 (-53))) ^ 21 <= (51 / 100) ^ 21) by (apply pow_incr; clear - Hd; lra).
    pose proof small_pow as H3.
    set (u := (1 / 2 * (1 + bpow radix2 (-53))) ^ 21) in *; clearbody u.
    set (v := (51 / 100) ^ 21) in *; clearbody v; lra.
Qed.

(** A run that is cold from the start *)
Lemma c98_run :
  let t := f_lit 1 1024 in
  B2R t * (B2R c98_cooling * (1 + bpow radix2 (-53))) ^ 1 * 710 <= 1 /\
  exists r, may (ex_hist (ex_ga4 f1 f1 (StBoltzmann t c98_cooling))) r /\ length (r_trace r) = 3%nat.
Proof.
  cbv zeta; split.
  - assert (Vc : B2R c98_cooling = 1 / 2).
    { rewrite <- SF2R_B2SF; replace (B2SF c98_cooling) with (SpecFloat.S754_finite false 4503599627370496 (-53)) by (vm_compute; reflexivity).
      cbn [SF2R cond_Zopp]; unfold F2R; cbn [Fnum Fexp]; change (bpow radix2 (-53)) with (/ 9007199254740992); lra. }
    assert (Vt : B2R (f_lit 1 1024) = / 1024).
    { rewrite <- SF2R_B2SF; replace (B2SF (f_lit 1 1024)) with (SpecFloat.S754_finite false 4503599627370496 (-62)) by (vm_compute; reflexivity).
      cbn [SF2R cond_Zopp]; unfold F2R; cbn [Fnum Fexp]; change (bpow radix2 (-62)) with (/ 4611686018427387904); lra. }
    assert (Hd : 0 < bpow radix2 (-53) < / 50) by (split; [apply bpow_gt_0|apply Rlt_trans with (bpow radix2 (-6)); [apply bpow_lt; lia|change (bpow radix2 (-6)) with (/ 64); lra]]).
    rewrite Vc, Vt, pow_1; lra.
  - destruct (possible (ex_hist (ex_ga4 f1 f1 (StBoltzmann (f_lit 1 1024) c98_cooling))) (fun r => (length (r_trace r) =? 3)%nat)
      (hist_must _ _ (StBoltzmann (f_lit 1 1024) c98_cooling) rate1 rate1 half_not_zero Logic.I)) as (r & Hr & E); [vm_compute; reflexivity|].
    exists r; split; [exact Hr|apply Nat.eqb_eq; exact E].
Qed.
