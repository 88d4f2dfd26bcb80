(** * PSelection3: the selection theorems in the form of Properties_Selection. *)
From Coq Require Import List Bool Arith NArith ZArith Reals Lia Lra.
From Flocq Require Import Core BinarySingleNaN.
From Verif Require Import Rnd Prob LRnd LProb F64 LF64 MStats MPopulation MSelection SpecF ExF PSelection PSelection2 PLinear.
Import ListNotations.

Section S3.
Context {I : Type} (io : individual_ops I) (fexp : f64 -> f64).

Lemma selection_member (s : selector I) (p : population I) :
  match s with
  | Tournament size => 1 <= size
  | Elitist ratio => is_finite ratio = true /\ (0 <= B2R ratio < 1)%R
  | RouletteWheel _ | Boltzmann _ _ _ | Rank => True
  | Linear _ | Custom _ _ _ _ => False
  end ->
  individuals p <> [] -> fits_usize (length (individuals p)) ->
  must (select io fexp s p) (fun r => nth_error (individuals p) (fst r) = Some (snd r)).
Proof.
  intros H; apply select_must; destruct s; cbn; auto; apply halfopen_spec; auto.
Qed.

Lemma selection_empty (s : selector I) (p : population I) :
  match s with Custom _ _ _ _ => False | _ => True end ->
  individuals p = [] -> must_fail (select io fexp s p) Panic.
Proof.
  intros H Hp; destruct s; try tauto; cbn [select];
  unfold tournament_select, rank_select, elitist_select, linear_select, wheel_select; rewrite ?Hp.
  - cbn; auto.
  - cbn -[N.pow]; split; [reflexivity|auto].
  - cbn -[N.pow]; split; [reflexivity|auto].
  - cbn; auto.
  - cbn [length]; unfold gen_range; rewrite (proj2 (Nat.ltb_ge _ _)) by lia; cbn; auto.
  - cbn -[N.pow linear_offset]; split; [reflexivity|].
    intros i _; destruct (linear_offset 0 bias (f_unit i)); reflexivity.
Qed.

Lemma rank_no_fall_through (p : population I) (target : nat) :
  1 <= target <= length (individuals p) * (length (individuals p) + 1) / 2 ->
  exists r, rank_loop target 0 0 (individuals p) = Some r.
Proof. intros H; destruct (rank_at target p H) as (i & x & E & _); eauto. Qed.

Lemma elitist_only_top (ratio : f64) (p : population I) :
  is_finite ratio = true -> (0 <= B2R ratio < 1)%R -> individuals p <> [] -> fits_usize (length (individuals p)) ->
  must (select io fexp (Elitist ratio) p) (fun r => elitist_bound (length (individuals p)) ratio <= fst r).
Proof.
  intros F H Hp Hf; eapply must_mono; [|apply (elitist_must ratio p); auto; apply halfopen_spec; auto].
  intros r Hr; apply Hr.
Qed.

Lemma elitist_uniform (ratio : f64) (p : population I) (i : nat) :
  is_finite ratio = true -> (0 <= B2R ratio < 1)%R -> fits_usize (length (individuals p)) ->
  elitist_bound (length (individuals p)) ratio <= i < length (individuals p) ->
  prob (select io fexp (Elitist ratio) p) (fun r => fst r =? i)
  = (1 / INR (length (individuals p) - elitist_bound (length (individuals p)) ratio))%R.
Proof. intros F H Hf Hi; apply elitist_law; auto; apply halfopen_spec; auto. Qed.

Lemma roulette_monotone (total : f64) (p : population I) (k : N -> M (nat * I)) (u1 u2 : N) (r1 r2 : nat * I) :
  is_finite total = true -> (0 <= B2R total)%R -> individuals p <> [] ->
  select io fexp (RouletteWheel total) p = Draw (2 ^ 53) k ->
  (u1 <= u2)%N -> (u2 < 2 ^ 53)%N -> k u1 = Ret r1 -> k u2 = Ret r2 -> fst r1 <= fst r2.
Proof.
  intros F H Hp Hk Hu Hu2 H1 H2; destruct (roulette_law io fexp total p Hp) as (k' & Hk' & Hl).
  rewrite Hk' in Hk; injection Hk as ->.
  destruct (Hl u1) as (i1 & x1 & E1 & _ & W1); [lia|]; destruct (Hl u2) as (i2 & x2 & E2 & _ & W2); [lia|].
  rewrite E1 in H1; rewrite E2 in H2; injection H1 as <-; injection H2 as <-; cbn.
  eapply wheel_monotone; eauto.
Qed.

Lemma linear_safe_biases (num den : Z) (p : population I) :
  In (num, den) [(115, 100); (12, 10); (125, 100); (13, 10); (14, 10); (15, 10); (16, 10); (17, 10);
                 (175, 100); (18, 10); (19, 10); (2, 1); (25, 10)]%Z ->
  individuals p <> [] -> fits_usize (length (individuals p)) ->
  must (select io fexp (Linear (f_lit num den)) p) (fun r => nth_error (individuals p) (fst r) = Some (snd r)).
Proof.
  intros Hin; apply linear_must, sound_margin, Hin.
Qed.

Lemma create_selector_valid (s : selection_strategy) :
  match s with
  | StTournament size => size <> 0
  | StBoltzmann _ c => forall sg, c <> B754_zero sg
  | StElitist ratio => is_finite ratio = true /\ (0 <= B2R ratio < 1)%R
  | _ => True
  end ->
  @create_selector I s = Ret (match s with
    | StTournament size => Tournament size
    | StRouletteWheel => RouletteWheel f0
    | StBoltzmann t c => Boltzmann t c f0
    | StRank => Rank
    | StLinear b => Linear b
    | StElitist r => Elitist r
    end).
Proof.
  clear io fexp; destruct s; cbn [create_selector]; intros H; auto.
  - unfold tournament_new, massert; rewrite (proj2 (Nat.eqb_neq _ _) H); reflexivity.
  - unfold boltzmann_new, massert; destruct (feq cooling_rate f0) eqn:E; [|reflexivity].
    apply feq_zero_iff in E as [sg E]; exfalso; eapply H; eauto.
  - unfold elitist_new, massert; rewrite (proj2 (halfopen_spec ratio) H); reflexivity.
Qed.

Lemma create_selector_invalid (s : selection_strategy) :
  match s with
  | StTournament size => size = 0
  | StBoltzmann _ c => exists sg, c = B754_zero sg
  | StElitist ratio => ~ (is_finite ratio = true /\ (0 <= B2R ratio < 1)%R)
  | _ => False
  end ->
  @create_selector I s = Fail Panic.
Proof.
  clear io fexp; destruct s; cbn [create_selector]; intros H; try tauto.
  - subst; reflexivity.
  - unfold boltzmann_new, massert; rewrite (proj2 (feq_zero_iff _) H); reflexivity.
  - unfold elitist_new, massert; destruct (in_unit_halfopen ratio) eqn:E; [|reflexivity].
    apply halfopen_spec in E; tauto.
Qed.

Lemma roulette_proportional (total : f64) (p : population I) (i : nat) :
  (forall x, In x (individuals p) -> is_finite (fitness io x) = true /\ (0 <= B2R (fitness io x))%R) ->
  is_finite total = true -> (bpow radix2 (-900) <= B2R total)%R ->
  S i < length (individuals p) ->
  let c := running_sum (fitness io) (individuals p) (S i) in
  is_finite c = true -> (B2R c <= B2R total)%R ->
  (0 <= prob (select io fexp (RouletteWheel total) p) (fun r => fst r <=? i) - B2R c / B2R total
     <= 3 * bpow radix2 (-53))%R.
Proof. intros Hw Ft Ht Hi c Fc Hc; apply (wheel_prob (fitness io)); auto. Qed.
End S3.

Lemma elitist_bound_spec (n : nat) (ratio : f64) :
  1 <= n -> fits_usize n -> is_finite ratio = true -> (0 <= B2R ratio < 1)%R ->
  elitist_bound n ratio < n /\
  ((Z.of_nat n <= 2 ^ 53)%Z ->
   (Zfloor (INR n * B2R ratio) <= Z.of_nat (elitist_bound n ratio) <= Zfloor (INR n * B2R ratio) + 1)%Z).
Proof.
  intros Hn Hf F H; split; [apply elitist_bound_lt; auto|]. intros H53; apply elitist_bound_floor; auto.
Qed.

Lemma linear_refuted :
  exists (I : Type) (io : individual_ops I) (bias : f64) (p : population I),
  (1 < B2R bias <= 2)%R /\ length (individuals p) = 10 /\
  forall fexp, may_fail (select io fexp (Linear bias) p) Panic.
Proof.
  exists nat, ex_io, (f_lit 11 10), (ex_popn ex_io [1; 2; 3; 4; 5; 6; 7; 8; 9; 10]); split; [|split; [reflexivity|]].
  - assert (F : is_finite (f_lit 11 10) = true) by (vm_compute; reflexivity).
    assert (H1 : flt f1 (f_lit 11 10) = true) by (vm_compute; reflexivity).
    assert (H2 : fle (f_lit 11 10) f2 = true) by (vm_compute; reflexivity).
    destruct f1_val as [F1 V1]; destruct f2_val as [F2 V2].
    apply flt_spec in H1 as (_ & _ & H1); apply fle_spec in H2 as (_ & _ & H2).
    rewrite !key_finite in * by auto; rewrite V1 in H1; rewrite V2 in H2; auto.
  - intros fexp; cbn [select]; unfold linear_select; apply may_fail_bind; right.
    exists (f_unit (2 ^ 53 - 1)); split; [exists (2 ^ 53 - 1)%N; split; reflexivity|].
    cbv zeta; change (length (individuals (ex_popn ex_io [1; 2; 3; 4; 5; 6; 7; 8; 9; 10]))) with 10.
    rewrite offset_1_1; cbn; reflexivity.
Qed.

Lemma setters :
  (forall t size, set_size t size = if size =? 0 then Fail Panic else Ret size) /\
  (forall c c' sg, c' = B754_zero sg -> set_cooling_rate c c' = Fail Panic) /\
  (forall c c', (forall sg, c' <> B754_zero sg) -> set_cooling_rate c c' = Ret c') /\
  (forall r r', is_finite r' = true /\ (0 <= B2R r' < 1)%R -> set_ratio r r' = Ret r') /\
  (forall r r', ~ (is_finite r' = true /\ (0 <= B2R r' < 1)%R) -> set_ratio r r' = Fail Panic).
Proof.
  unfold set_size, set_cooling_rate, set_ratio, massert; repeat split.
  - intros t [|size]; reflexivity.
  - intros c c' sg ->; destruct sg; reflexivity.
  - intros c c' H; destruct (feq c' f0) eqn:E; [|reflexivity].
    apply feq_zero_iff in E as [sg E]; exfalso; eapply H; eauto.
  - intros r r' H; rewrite (proj2 (halfopen_spec r') H); reflexivity.
  - intros r r' H; destruct (in_unit_halfopen r') eqn:E; [|reflexivity].
    apply halfopen_spec in E; tauto.
Qed.
