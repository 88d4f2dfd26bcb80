(** * PAdjust: the remaining cases of the adjustment of the rates (C60). *)
From Coq Require Import List Bool Arith NArith ZArith Reals Lia Lra.
From Flocq Require Import Core BinarySingleNaN.
From Verif Require Import Rnd LRnd F64 LF64 MStats MPopulation MSelection MModel MAlgorithms SpecF SpecA PInterp PAlgorithms2.
Local Open Scope R_scope.

Lemma rnd_half_abs x : -1 <= x <= 1 -> Rabs (rnd x - x) <= bpow radix2 (-54).
Proof.
  intros H; destruct (Rle_lt_dec 0 x) as [H0|H0]; [apply rnd_half; lra|].
  replace x with (- - x) by ring; rewrite rnd_opp; replace (- rnd (- x) - - - x) with (- (rnd (- x) - - x)) by ring.
  rewrite Rabs_Ropp; apply rnd_half; lra.
Qed.
Lemma point_one a b t : rate a -> rate b -> rate t -> B2R t = 1 -> Rabs (B2R (point (a, b) t) - B2R b) <= bpow radix2 (-53).
Proof.
  intros [Fa Ha] [Fb Hb] [Ft Ht] E; change (point (a, b) t) with (interpolate_f64 a b t).
  destruct (interp_val a b Fa Fb Ha Hb t Ft Ht) as [_ ->]; unfold span; rewrite E, Rmult_1_r, (rnd_float (rnd (B2R b - B2R a))) by apply rnd_isfloat.
  set (sp := rnd (B2R b - B2R a)).
  assert (He : Rabs (sp - (B2R b - B2R a)) <= bpow radix2 (-54)) by (apply rnd_half_abs; lra).
  assert (H53 : bpow radix2 (-53) = 2 * bpow radix2 (-54)) by (change 2 with (bpow radix2 1); rewrite <- bpow_plus; reflexivity).
  pose proof (bpow_gt_0 radix2 (-54)) as Hp; assert (Hp1 : bpow radix2 (-54) <= 1) by (change 1 with (bpow radix2 0); apply bpow_le; lia).
  apply Rabs_le_inv in He; set (s := B2R a + sp).
  assert (Hs : B2R b - bpow radix2 (-54) <= s <= B2R b + bpow radix2 (-54)) by (unfold s; lra).
  apply Rabs_le; destruct (Rle_lt_dec s 1) as [H1|H1].
  - pose proof (rnd_half_abs s ltac:(lra)) as Hh; apply Rabs_le_inv in Hh; lra.
  - assert (H2 : rnd s <= 1) by (apply rnd_above_one; lra).
    assert (H3 : 1 <= rnd s) by (apply rnd_ge_float; [apply isfloat_1|lra]); lra.
Qed.

Section Adjust.
Context {I MS : Type}.
Implicit Types (s : aga_state I MS) (p : population I).

Lemma adjust_of s p ref cr mr d : adjusts (aga_interval s) (generation p) -> aga_adjust s p = (ref, cr, mr) ->
  diversity_of (deviation p) (aga_reference_std s) = d ->
  ref = aga_reference_std s /\ cr = point (aga_crossover_range s) d /\ mr = point (aga_mutation_range s) (fsub f1 d).
Proof. intros Ha E <-; rewrite adjust_yes in E by auto; injection E as <- <- <-; auto. Qed.

(** All of the first population had the same fitness, the present one has not. *)
Lemma adjust_from_zero s p ref cr mr : ranges_ok s -> adjusts (aga_interval s) (generation p) ->
  aga_reference_std s = f0 -> flt f0 (deviation p) = true -> aga_adjust s p = (ref, cr, mr) ->
  rate cr /\ rate mr /\ Rabs (B2R cr - B2R (snd (aga_crossover_range s))) <= bpow radix2 (-53) /\
  B2R mr = B2R (fst (aga_mutation_range s)).
Proof.
  intros (R1 & R2 & R3 & R4) Ha Hr Hd E.
  assert (D : diversity_of (deviation p) (aga_reference_std s) = f1).
  { rewrite Hr, <- diversity_clamp; unfold aga_diversity.
    assert (fdiv (deviation p) f0 = f_inf) as ->; [|reflexivity].
    apply flt_spec in Hd as (_ & Nd & Kd); change (key f0) with 0 in Kd.
    destruct (deviation p) as [z|[|]| |[|] m e H]; try discriminate; try reflexivity; exfalso; unfold key in Kd; pose proof big_pos.
    - cbn in Kd; lra.
    - lra.
    - pose proof (Bsign_neg (B754_finite true m e H) eq_refl); lra. }
  destruct (adjust_of s p ref cr mr f1 Ha E D) as (_ & -> & ->); destruct f1_val as [F1 V1].
  assert (T1 : rate f1) by (split; auto; rewrite V1; lra).
  assert (Z : fsub f1 f1 = f0) by reflexivity; rewrite Z; destruct f0_val as [F0 V0].
  assert (T0 : rate f0) by (split; auto; rewrite V0; lra).
  destruct (aga_crossover_range s) as [a b], (aga_mutation_range s) as [c d]; cbn [fst snd] in *.
  destruct (point_rate a b f1 R1 R2 T1) as (A & _); destruct (point_rate c d f0 R3 R4 T0) as (B & _ & C).
  split; [auto|]; split; [auto|]; split; [apply point_one; auto|apply C; auto].
Qed.
(** The deviation of the first population overflowed. *)
Lemma adjust_from_inf s p ref cr mr : ranges_ok s -> adjusts (aga_interval s) (generation p) ->
  aga_reference_std s = f_inf -> is_finite (deviation p) = true -> fle f0 (deviation p) = true -> aga_adjust s p = (ref, cr, mr) ->
  rate cr /\ rate mr /\ B2R cr = B2R (fst (aga_crossover_range s)) /\
  Rabs (B2R mr - B2R (snd (aga_mutation_range s))) <= bpow radix2 (-53).
Proof.
  intros (R1 & R2 & R3 & R4) Ha Hr Fd Hd E; destruct f0_val as [F0 V0], f1_val as [F1 V1].
  assert (D : exists z, diversity_of (deviation p) (aga_reference_std s) = B754_zero z).
  { rewrite Hr, <- diversity_clamp; unfold aga_diversity.
    destruct (deviation p) as [b|b| |b m e H]; cbn in Fd; try discriminate; [exists b; destruct b; reflexivity|].
    exists b; destruct b; reflexivity. }
  destruct D as (z & D); destruct (adjust_of s p ref cr mr _ Ha E D) as (_ & -> & ->).
  assert (T0 : rate (B754_zero z)) by (split; auto; cbn; lra).
  destruct (complement_rate _ T0) as [T1 V]; cbn [B2R] in V; rewrite Rminus_0_r, rnd_float in V by apply isfloat_1.
  destruct (aga_crossover_range s) as [a b], (aga_mutation_range s) as [c d]; cbn [fst snd] in *.
  destruct (point_rate a b _ R1 R2 T0) as (A & _ & A0); destruct (point_rate c d _ R3 R4 T1) as (B & _).
  split; [auto|]; split; [auto|]; split; [apply A0; reflexivity|apply point_one; auto].
Qed.
(** A NaN deviation, now or of the first population, or both infinite *)
Lemma adjust_nan s p ref cr mr : adjusts (aga_interval s) (generation p) ->
  is_nan (deviation p) = true \/ is_nan (aga_reference_std s) = true \/ (deviation p = f_inf /\ aga_reference_std s = f_inf) ->
  aga_adjust s p = (ref, cr, mr) -> is_nan cr = true /\ is_nan mr = true.
Proof.
  intros Ha H E; destruct (adjust_of s p ref cr mr _ Ha E eq_refl) as (_ & -> & ->).
  assert (N : is_nan (diversity_of (deviation p) (aga_reference_std s)) = true).
  { apply diversity_nan; destruct H as [H|[H|[-> ->]]]; [destruct (deviation p); try discriminate; reflexivity| |reflexivity].
    destruct (aga_reference_std s); try discriminate; destruct (deviation p); reflexivity. }
  split; apply point_nan; auto; apply (nan_arith_r f1 _ N).
Qed.
(** Ranges written the other way round are accepted and turn the adjustment round. *)
Lemma adjust_reversed s p1 p2 ref1 cr1 mr1 ref2 cr2 mr2 :
  ranges_ok s -> adjusts (aga_interval s) (generation p1) -> adjusts (aga_interval s) (generation p2) ->
  fle f0 (deviation p1) = true -> fle (deviation p1) (deviation p2) = true ->
  is_finite (aga_reference_std s) = true -> flt f0 (aga_reference_std s) = true ->
  aga_adjust s p1 = (ref1, cr1, mr1) -> aga_adjust s p2 = (ref2, cr2, mr2) ->
  (B2R (snd (aga_crossover_range s)) <= B2R (fst (aga_crossover_range s)) -> B2R cr2 <= B2R cr1) /\
  (B2R (snd (aga_mutation_range s)) <= B2R (fst (aga_mutation_range s)) -> B2R mr1 <= B2R mr2).
Proof.
  intros (R1 & R2 & R3 & R4) Ha1 Ha2 Hd Hle Fr Hr E1 E2; rewrite adjust_yes in E1, E2 by auto.
  injection E1 as <- <- <-; injection E2 as <- <- <-; rewrite <- !diversity_clamp.
  pose proof (diversity_mono _ _ _ Hd Hle Fr Hr) as Hm.
  assert (H2 : fle f0 (deviation p2) = true).
  { apply fle_spec in Hd as (A & B & C); apply fle_spec in Hle as (D & E & F); apply fle_spec; split; [auto|split; [auto|]]; eapply Rle_trans; eauto. }
  destruct (diversity_facts (deviation p1) (aga_reference_std s)) as (Rd1 & _); auto.
  destruct (diversity_facts (deviation p2) (aga_reference_std s)) as (Rd2 & _); auto.
  destruct (complement_rate _ Rd1) as [Rc1 V1]; destruct (complement_rate _ Rd2) as [Rc2 V2].
  destruct (aga_crossover_range s) as [a b], (aga_mutation_range s) as [c d]; cbn [fst snd] in *.
  destruct R1 as [F1 R1], R2 as [F2 R2], R3 as [F3 R3], R4 as [F4 R4], Rd1 as [Fd1 Rd1], Rd2 as [Fd2 Rd2], Rc1 as [Fc1 Rc1], Rc2 as [Fc2 Rc2].
  split; intros H.
  - apply (interp_mono a b F1 F2 R1 R2 _ _ Fd1 Fd2); auto; apply Rd1 || apply Rd2.
  - apply (interp_mono c d F3 F4 R3 R4 _ _ Fc2 Fc1); auto; try apply Rc1; try apply Rc2.
    rewrite V1, V2; apply rnd_mono; lra.
Qed.
End Adjust.
