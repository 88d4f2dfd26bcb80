(** * PAlgorithms2: proofs about the adaptive algorithm and the independence of runs (C59-C62). *)
From Coq Require Import List Bool Arith NArith ZArith Reals Lia Lra Permutation.
From Flocq Require Import Core BinarySingleNaN.
From Verif Require Import Rnd LRnd F64 LF64 MStats MPopulation MSelection MModel MAlgorithms SpecF SpecA ExF ExM
  PSelection PSelection2 PSelection3 PStats PPopulation PModel PLinear PInterp PAlgorithms.
Import ListNotations.
Local Open Scope nat_scope.

(** ** Diversity *)
Lemma diversity_clamp std ref : aga_diversity std ref = diversity_of std ref.
Proof.
  unfold aga_diversity, diversity_of, f_clamp, fgt; destruct (flt (fdiv std ref) f0) eqn:E; auto.
Qed.

Lemma clamp_key x : is_nan x = false ->
  is_finite (f_clamp x f0 f1) = true /\ B2R (f_clamp x f0 f1) = Rmin 1 (Rmax 0 (key x)).
Proof.
  intros Hx; destruct f1_val as [F1 V1]; destruct f0_val as [F0 V0]; unfold f_clamp.
  assert (K1 : key f1 = 1%R) by (rewrite key_finite; auto); assert (K0 : key f0 = 0%R) by (rewrite key_finite; auto).
  destruct (flt x f0) eqn:E.
  - apply flt_spec in E as (_ & _ & E).
    assert (G : fgt f0 f1 = false) by (apply fgt_false; auto; rewrite K0, K1; lra).
    rewrite G; split; auto; rewrite Rmax_left, Rmin_right by lra; auto.
  - apply flt_false in E; auto; rewrite K0 in E; rewrite Rmax_right by lra.
    destruct (fgt x f1) eqn:G.
    + apply fgt_spec in G as (_ & _ & G); split; auto; rewrite Rmin_left by lra; auto.
    + apply fgt_false in G; auto; assert (F : is_finite x = true).
      { apply key_finite_iff; auto; pose proof big_pos; assert (1 < big)%R by (change 1%R with (bpow radix2 0); apply bpow_lt; lia); lra. }
      split; auto; rewrite Rmin_right by lra; rewrite key_finite; auto.
Qed.

Lemma fdiv_inf ref : is_finite ref = true -> (0 < B2R ref)%R -> fdiv (B754_infinity false) ref = B754_infinity false.
Proof. destruct ref as [s|s| |[|] m e H]; cbn; try discriminate; try lra; intros _ H'; auto. exfalso; assert (B2R (B754_finite true m e H : f64) <= 0)%R by (apply Bsign_neg; auto); cbn in *; lra. Qed.

Lemma fle_f0 x : fle f0 x = true -> is_nan x = false /\ (0 <= key x)%R.
Proof. intros H; apply fle_spec in H as (_ & A & B); auto. Qed.

Lemma flt_f0 x : flt f0 x = true -> is_finite x = true -> (0 < B2R x)%R.
Proof. intros H F; apply flt_spec in H as (_ & _ & B); rewrite (key_finite x) in B; auto. Qed.

Lemma div_key std ref : fle f0 std = true -> is_finite ref = true -> flt f0 ref = true ->
  is_nan (fdiv std ref) = false /\
  key (fdiv std ref) = if is_finite std then ovf (rnd (B2R std / B2R ref)) else big.
Proof.
  intros Hs Fr Hr; apply fle_f0 in Hs as [Ns Ks]; apply flt_f0 in Hr; auto.
  destruct (is_finite std) eqn:Fs.
  - destruct (fdiv_correct std ref Fs) as (A & B & _); auto; lra.
  - destruct std as [s|[|]| |s m e H]; try discriminate.
    + cbn in Ks; pose proof big_pos; lra.
    + rewrite fdiv_inf; auto.
Qed.

Lemma div_mono std1 std2 ref : fle f0 std1 = true -> fle std1 std2 = true -> is_finite ref = true -> flt f0 ref = true ->
  (key (fdiv std1 ref) <= key (fdiv std2 ref))%R.
Proof.
  intros H1 H2 Fr Hr.
  assert (H2' : fle f0 std2 = true).
  { apply fle_spec in H1 as (A & B & C); apply fle_spec in H2 as (D & E & F); apply fle_spec; split; [auto|split; [auto|]]; eapply Rle_trans; eauto. }
  destruct (div_key std1 ref) as [_ ->]; auto; destruct (div_key std2 ref) as [_ ->]; auto.
  pose proof (flt_f0 ref Hr Fr) as Hp; apply fle_spec in H2 as (N1 & N2 & H2).
  destruct (is_finite std2) eqn:F2.
  - destruct (is_finite std1) eqn:F1.
    + rewrite !key_finite in H2 by auto; apply ovf_mono, rnd_mono; unfold Rdiv; apply Rmult_le_compat_r; [|auto].
      left; apply Rinv_0_lt_compat; auto.
    + destruct std1 as [s|[|]| |s m e H]; try discriminate.
        pose proof (key_finite_bound std2 F2); change (key (B754_infinity false)) with big in H2; lra.
  - destruct (is_finite std1); [apply ovf_bound|lra].
Qed.

Lemma diversity_facts std ref : fle f0 std = true -> is_finite ref = true -> flt f0 ref = true ->
  rate (aga_diversity std ref) /\
  (fle ref std = true -> B2R (aga_diversity std ref) = 1%R) /\
  (feq std f0 = true -> B2R (aga_diversity std ref) = 0%R).
Proof.
  intros Hs Fr Hr; destruct (div_key std ref) as [Nd Kd]; auto; pose proof (flt_f0 ref Hr Fr) as Hp.
  destruct (clamp_key _ Nd) as [Fc Vc]; unfold aga_diversity, rate; rewrite Vc; split; [split; auto|split].
  - split; [apply Rmin_glb; [lra|apply Rmax_l]|apply Rmin_l].
  - intros Hle; assert (H : (1 <= key (fdiv std ref))%R).
    { eapply Rle_trans; [|apply (div_mono ref std ref); auto].
      - destruct (div_key ref ref) as [_ ->]; auto; [apply fle_spec; apply flt_spec in Hr as (A & B & C); repeat split; auto; lra|].
        rewrite Fr; unfold Rdiv; rewrite Rinv_r by lra; rewrite rnd_float by apply isfloat_1; rewrite ovf_small; [lra|].
        assert (1 < big)%R by (change 1%R with (bpow radix2 0); apply bpow_lt; lia); lra.
      - apply fle_spec; apply flt_spec in Hr as (A & B & C); repeat split; auto; lra. }
    rewrite Rmax_right, Rmin_left by lra; auto.
  - intros E; apply feq_spec in E as (_ & _ & E); change (key f0) with 0%R in E.
    assert (Fs : is_finite std = true).
    { apply key_finite_iff; [apply fle_f0; auto|]; rewrite E; pose proof big_pos; lra. }
    rewrite Fs in Kd; rewrite key_finite in E by auto; rewrite Kd, E; unfold Rdiv; rewrite Rmult_0_l, rnd_0.
    rewrite ovf_small by (pose proof big_pos; lra); rewrite Rmax_left, Rmin_right by lra; auto.
Qed.

Lemma diversity_mono std1 std2 ref : fle f0 std1 = true -> fle std1 std2 = true -> is_finite ref = true -> flt f0 ref = true ->
  (B2R (aga_diversity std1 ref) <= B2R (aga_diversity std2 ref))%R.
Proof.
  intros H1 H2 Fr Hr; pose proof (div_mono _ _ _ H1 H2 Fr Hr).
  assert (H2' : fle f0 std2 = true).
  { apply fle_spec in H1 as (A & B & C); apply fle_spec in H2 as (D & E & F); apply fle_spec; split; [auto|split; [auto|]]; eapply Rle_trans; eauto. }
  destruct (clamp_key (fdiv std1 ref)) as [_ V1]; [apply div_key; auto|]; destruct (clamp_key (fdiv std2 ref)) as [_ V2]; [apply div_key; auto|].
  unfold aga_diversity; rewrite V1, V2; apply Rle_min_compat_l, Rle_max_compat_l; auto.
Qed.

Lemma complement_rate d : rate d -> rate (fsub f1 d) /\ B2R (fsub f1 d) = rnd (1 - B2R d).
Proof.
  intros [Fd Hd]; destruct f1_val as [F1 V1].
  destruct (in_range _ _ (fsub_correct f1 d F1 Fd)) as [F V]; [apply small_range, Rabs_le; rewrite V1; lra|].
  rewrite V1 in V; split; [|auto]; split; auto; rewrite V; split; [apply rnd_pos; lra|apply rnd_le_float; [apply isfloat_1|lra]].
Qed.

(** ** Adjusted rates *)
Section Adaptive.
Context {I : Type} (io : individual_ops I) (fexp : f64 -> f64) {MS : Type} (mdl : model I MS).
Implicit Types (p : population I).

Lemma adjusts_test n k : adjusts n k <-> k <> 0 /\ negb (n =? 0) && (k mod n =? 0) = true.
Proof.
  unfold adjusts; rewrite andb_true_iff, negb_true_iff, Nat.eqb_neq, Nat.eqb_eq; split.
  - intros (A & B & C); repeat split; auto; apply Nat.mod_divide; auto.
  - intros (A & B & C); repeat split; auto; apply Nat.mod_divide; auto.
Qed.

Lemma adjust_yes (s : aga_state I MS) p : adjusts (aga_interval s) (generation p) ->
  aga_adjust s p = (aga_reference_std s,
    point (aga_crossover_range s) (diversity_of (deviation p) (aga_reference_std s)),
    point (aga_mutation_range s) (fsub f1 (diversity_of (deviation p) (aga_reference_std s)))).
Proof.
  intros H; apply adjusts_test in H as [H0 H]; unfold aga_adjust; destruct (generation p) as [|n] eqn:E; [congruence|].
  rewrite H, diversity_clamp; reflexivity.
Qed.

Lemma adjust_no (s : aga_state I MS) p : generation p <> 0 -> ~ adjusts (aga_interval s) (generation p) ->
  aga_adjust s p = (aga_reference_std s, crossover_rate (aga_breeding s), mutation_rate (aga_breeding s)).
Proof.
  intros H0 H; rewrite adjusts_test in H; unfold aga_adjust; destruct (generation p) as [|n] eqn:E; [congruence|].
  destruct (negb (aga_interval s =? 0) && (S n mod aga_interval s =? 0)) eqn:E2; [exfalso; auto|reflexivity].
Qed.

Lemma adjust_first (s : aga_state I MS) p : generation p = 0 ->
  aga_adjust s p = (deviation p, snd (aga_crossover_range s), fst (aga_mutation_range s)).
Proof. intros E; unfold aga_adjust; rewrite E; reflexivity. Qed.

Lemma aga_prepare_may s p s' : may (aga_prepare io fexp mdl s p) s' -> forall ref cr mr, aga_adjust s p = (ref, cr, mr) ->
  exists ms b sel, may (m_pre_generation mdl (aga_model s) p (mkBreeding cr mr (parent_selector (aga_breeding s)))) (ms, b) /\
    may (prepare io fexp (parent_selector b) p) sel /\
    s' = mkAga ms (aga_size s) (aga_elite_size s) (aga_interval s) (aga_crossover_range s) (aga_mutation_range s)
           (mkBreeding (crossover_rate b) (mutation_rate b) sel) ref.
Proof.
  intros H ref cr mr E; unfold aga_prepare in H; rewrite E in H; apply may_bind in H as ([ms b] & H1 & H).
  apply may_bind in H as (sel & H2 & H); cbn in H; subst s'; eauto 6.
Qed.

(** ** The history of the rates *)
Lemma prepared_history s0 ps s : rates_left_alone mdl -> prepared io fexp mdl s0 ps s ->
  aga_size s = aga_size s0 /\ aga_elite_size s = aga_elite_size s0 /\ aga_interval s = aga_interval s0 /\
  aga_crossover_range s = aga_crossover_range s0 /\ aga_mutation_range s = aga_mutation_range s0 /\
  (ps = [] -> s = s0) /\
  (forall p0, nth_error ps 0 = Some p0 ->
    aga_reference_std s = deviation p0 /\
    exists j pj, nth_error ps j = Some pj /\ (j = 0 \/ adjusts (aga_interval s0) j) /\
      (forall i, j < i < length ps -> ~ adjusts (aga_interval s0) i) /\
      crossover_rate (aga_breeding s) = (if j =? 0 then snd (aga_crossover_range s0)
        else point (aga_crossover_range s0) (diversity_of (deviation pj) (deviation p0))) /\
      mutation_rate (aga_breeding s) = (if j =? 0 then fst (aga_mutation_range s0)
        else point (aga_mutation_range s0) (fsub f1 (diversity_of (deviation pj) (deviation p0))))).
Proof.
  intros Hr; induction 1 as [|ps s p s' Hp IH Hg Hm].
  { repeat split; auto; discriminate. }
  destruct IH as (E1 & E2 & E3 & E4 & E5 & E6 & E7).
  destruct (aga_adjust s p) as [[ref cr] mr] eqn:Ea.
  destruct (aga_prepare_may _ _ _ Hm _ _ _ Ea) as (ms & b & sel & Hpre & Hsel & ->).
  apply Hr in Hpre as [Hcr Hmr]; cbn [crossover_rate mutation_rate] in Hcr, Hmr.
  cbn [aga_size aga_elite_size aga_interval aga_crossover_range aga_mutation_range aga_breeding aga_reference_std crossover_rate mutation_rate].
  repeat (split; [assumption|]); split; [intros E; destruct ps; discriminate|].
  intros p0 H0; destruct ps as [|q ps].
  - cbn in H0; injection H0 as ->; cbn in Hg; rewrite adjust_first in Ea by auto; injection Ea as <- <- <-.
    split; auto; exists 0, p0; cbn [nth_error app Nat.eqb length]; rewrite Hcr, Hmr, E4, E5; repeat split; auto; intros i Hi; lia.
  - cbn in H0; injection H0 as ->; destruct (E7 p0 eq_refl) as (Eref & j & pj & Hj & Hja & Hjn & Ecr & Emr).
    destruct (Nat.eq_dec (generation p) 0) as [G0|G0]; [rewrite Hg in G0; discriminate|].
    assert (D : adjusts (aga_interval s0) (generation p) \/ ~ adjusts (aga_interval s0) (generation p)).
    { rewrite adjusts_test; destruct (negb (aga_interval s0 =? 0) && (generation p mod aga_interval s0 =? 0)); [left; auto|right; intros [_ H]; discriminate]. }
    destruct D as [D|D].
    + rewrite adjust_yes in Ea by (rewrite E3; auto); injection Ea as <- <- <-; split; auto.
      exists (generation p), p; rewrite Hcr, Hmr, E4, E5, Eref, (proj2 (Nat.eqb_neq _ _) G0).
      split; [rewrite Hg, nth_error_app2 by lia; rewrite Nat.sub_diag; reflexivity|].
      split; auto; split; [|auto]; intros i Hi; rewrite app_length in Hi; cbn [length] in *; lia.
    + rewrite adjust_no in Ea by (rewrite ?E3; auto); injection Ea as <- <- <-; split; auto.
      exists j, pj; split; [rewrite nth_error_app1; auto; eapply nth_error_some_lt; eauto|]; split; auto.
      split; [|rewrite Hcr, Hmr; auto].
      intros i Hi; rewrite app_length in Hi; cbn [length] in *; destruct (Nat.eq_dec i (S (length ps))) as [->|].
      * rewrite <- Hg; auto.
      * apply Hjn; lia.
Qed.
End Adaptive.

(** ** NaN rates *)
Section Same.
Lemma same_refl {A} (m : M A) : same_behaviour m m.
Proof. induction m; cbn; auto. Qed.

Lemma same_bind {A B} (m m' : M A) (f g : A -> M B) :
  same_behaviour m m' -> (forall a, may m a -> same_behaviour (f a) (g a)) -> same_behaviour (bind m f) (bind m' g).
Proof.
  revert m'; induction m as [a|e|n k IH|n k IH]; intros [a'|e'|n' k'|n' k']; cbn; try tauto.
  - intros <- H; apply H; auto.
  - intros [<- H] Hf; split; auto; intros i Hi; apply IH; auto; intros a Ha; apply Hf; eauto.
  - intros [<- H] Hf; split; auto; intros i Hi; apply IH; auto; intros a Ha; apply Hf; eauto.
Qed.

Lemma same_bind_r {A B} (m : M A) (f g : A -> M B) :
  (forall a, may m a -> same_behaviour (f a) (g a)) -> same_behaviour (bind m f) (bind m g).
Proof. apply same_bind, same_refl. Qed.

Lemma same_sym {A} (m m' : M A) : same_behaviour m m' -> same_behaviour m' m.
Proof.
  revert m'; induction m as [a|e|n k IH|n k IH]; intros [a'|e'|n' k'|n' k']; cbn; auto; intros [<- H]; split; auto.
Qed.

Lemma same_trans {A} (m1 m2 m3 : M A) : same_behaviour m1 m2 -> same_behaviour m2 m3 -> same_behaviour m1 m3.
Proof.
  revert m2 m3; induction m1 as [a|e|n k IH|n k IH]; intros [a'|e'|n' k'|n' k'] [a3|e3|n3 k3|n3 k3]; cbn; try tauto; try congruence;
  intros [<- H] [<- H']; split; auto; intros; eapply IH; eauto.
Qed.

Lemma same_may {A} (m m' : M A) : same_behaviour m m' -> forall v, may m v <-> may m' v.
Proof.
  revert m'; induction m as [a|e|n k IH|n k IH]; intros [a'|e'|n' k'|n' k']; cbn; try tauto.
  - intros <-; tauto.
  - intros [<- H] v; split; intros (i & Hi & Hv); exists i; split; auto; eapply IH; eauto.
  - intros [<- H] v; split; intros (i & Hi & Hv); exists i; split; auto; eapply IH; eauto.
Qed.

Lemma same_must {A} (m m' : M A) P : same_behaviour m m' -> must m P -> must m' P.
Proof.
  revert m'; induction m as [a|e|n k IH|n k IH]; intros [a'|e'|n' k'|n' k']; cbn; try tauto.
  - intros <-; auto.
  - intros [<- H] [Hn Hm]; split; auto; intros i Hi; eapply IH; eauto.
  - intros [<- H] [Hn Hm]; split; auto; intros i Hi; eapply IH; eauto.
Qed.

Context {I : Type} (io : individual_ops I) (fexp : f64 -> f64) {MS : Type} (mdl : model I MS).

Lemma same_gate {A} r (x y z : M A) : flt f0 r = false ->
  same_behaviour (u <- gen_f64 ;; if flt u r then x else z) (u <- gen_f64 ;; if flt u r then y else z).
Proof.
  intros H; apply same_bind_r; intros u Hu; apply may_gen_f64 in Hu as (i & Hi & <-); rewrite unit_not_below by auto; apply same_refl.
Qed.

Lemma no_variation ms p (b : breeding I) c m : flt f0 (crossover_rate b) = false -> flt f0 (mutation_rate b) = false ->
  same_behaviour (breed io fexp mdl ms p b) (breed io fexp (with_variation mdl c m) ms p b).
Proof.
  intros Hc Hm; unfold breed; apply same_bind_r; intros [i parent1] _; apply same_bind_r; intros o Ho.
  assert (o = None) as ->.
  { unfold breed_parent2 in Ho; destruct (_ <? _); [|cbn in Ho; auto].
    apply may_bind in Ho as (u & Hu & Ho); apply may_gen_f64 in Hu as (j & Hj & <-); rewrite unit_not_below in Ho by auto; cbn in Ho; auto. }
  unfold breed_from; cbn [bind m_improve m_evaluate m_can_survive with_variation].
  apply same_bind_r; intros u Hu; apply may_gen_f64 in Hu as (j & Hj & <-); rewrite unit_not_below by auto; apply same_refl.
Qed.
End Same.

Lemma flt_nan_r x y : is_nan y = true -> flt x y = false.
Proof. intros H; rewrite flt_fcmp, fcmp_nan_r; auto. Qed.

Lemma nan_arith_r x y : is_nan y = true -> is_nan (fadd x y) = true /\ is_nan (fsub x y) = true /\ is_nan (fmul x y) = true.
Proof. destruct y; try discriminate; intros _; destruct x as [| | |]; auto. Qed.

Lemma zero_div a b : feq a f0 = true -> feq b f0 = true -> is_nan (fdiv a b) = true.
Proof. intros Ha Hb; apply feq_zero_iff in Ha as [sa ->]; apply feq_zero_iff in Hb as [sb ->]; reflexivity. Qed.

Lemma diversity_nan std ref : is_nan (fdiv std ref) = true -> is_nan (diversity_of std ref) = true.
Proof.
  intros H; unfold diversity_of; cbv zeta; rewrite flt_fcmp, fcmp_nan_l by auto; rewrite flt_nan_r by auto; auto.
Qed.

Lemma point_nan range t : is_nan t = true -> is_nan (point range t) = true.
Proof. intros H; apply nan_arith_r, nan_arith_r; auto. Qed.

(** ** The claims *)
Section Claims.
Context {I : Type} (io : individual_ops I) (fexp : f64 -> f64) {MS : Type} (mdl : model I MS).

Definition ranges_ok (s : aga_state I MS) : Prop :=
  rate (fst (aga_crossover_range s)) /\ rate (snd (aga_crossover_range s)) /\
  rate (fst (aga_mutation_range s)) /\ rate (snd (aga_mutation_range s)).

Lemma point_rate a b t : rate a -> rate b -> rate t ->
  rate (point (a, b) t) /\
  ((B2R a <= B2R b)%R -> (B2R a <= B2R (point (a, b) t) <= B2R b + bpow radix2 (-53))%R) /\
  (B2R t = 0%R -> B2R (point (a, b) t) = B2R a).
Proof.
  intros [Fa Ha] [Fb Hb] [Ft Ht]; change (point (a, b) t) with (interpolate_f64 a b t).
  destruct (interp_val a b Fa Fb Ha Hb t Ft Ht) as [Fi _].
  destruct (interp_bounds a b Fa Fb Ha Hb t Ft Ht) as (B1 & B2 & B3).
  split; [split; auto|]; split.
  - intros H; split; [auto|apply interp_over; auto].
  - intros H; apply interp_zero; auto.
Qed.

Lemma adapted_rates (s : aga_state I MS) p ref cr mr :
  ranges_ok s -> adjusts (aga_interval s) (generation p) ->
  fle f0 (deviation p) = true -> is_finite (aga_reference_std s) = true -> flt f0 (aga_reference_std s) = true ->
  aga_adjust s p = (ref, cr, mr) ->
  ref = aga_reference_std s /\ rate cr /\ rate mr /\
  ((B2R (fst (aga_crossover_range s)) <= B2R (snd (aga_crossover_range s)))%R ->
     (B2R (fst (aga_crossover_range s)) <= B2R cr <= B2R (snd (aga_crossover_range s)) + bpow radix2 (-53))%R) /\
  ((B2R (fst (aga_mutation_range s)) <= B2R (snd (aga_mutation_range s)))%R ->
     (B2R (fst (aga_mutation_range s)) <= B2R mr <= B2R (snd (aga_mutation_range s)) + bpow radix2 (-53))%R) /\
  (fle (aga_reference_std s) (deviation p) = true -> B2R mr = B2R (fst (aga_mutation_range s))) /\
  (feq (deviation p) f0 = true -> B2R cr = B2R (fst (aga_crossover_range s))).
Proof.
  intros (R1 & R2 & R3 & R4) Ha Hd Fr Hr E; rewrite adjust_yes in E by auto; injection E as <- <- <-.
  rewrite <- diversity_clamp; destruct (diversity_facts (deviation p) (aga_reference_std s)) as (Rd & D1 & D0); auto.
  destruct (complement_rate _ Rd) as [Rc Vc]; destruct (aga_crossover_range s) as [a b], (aga_mutation_range s) as [c d]; cbn [fst snd] in *.
  destruct (point_rate a b _ R1 R2 Rd) as (A1 & A2 & A3); destruct (point_rate c d _ R3 R4 Rc) as (B1 & B2 & B3).
  repeat (split; [auto|]); [|auto]; intros H; apply B3; rewrite Vc, D1 by auto; rewrite Rminus_diag_eq by auto; apply rnd_0.
Qed.

Lemma adapted_mono (s : aga_state I MS) p1 p2 ref1 cr1 mr1 ref2 cr2 mr2 :
  ranges_ok s -> adjusts (aga_interval s) (generation p1) -> adjusts (aga_interval s) (generation p2) ->
  fle f0 (deviation p1) = true -> fle (deviation p1) (deviation p2) = true ->
  is_finite (aga_reference_std s) = true -> flt f0 (aga_reference_std s) = true ->
  aga_adjust s p1 = (ref1, cr1, mr1) -> aga_adjust s p2 = (ref2, cr2, mr2) ->
  ((B2R (fst (aga_crossover_range s)) <= B2R (snd (aga_crossover_range s)))%R -> (B2R cr1 <= B2R cr2)%R) /\
  ((B2R (fst (aga_mutation_range s)) <= B2R (snd (aga_mutation_range s)))%R -> (B2R mr2 <= B2R mr1)%R).
Proof.
  intros (R1 & R2 & R3 & R4) Ha1 Ha2 Hd Hle Fr Hr E1 E2; rewrite adjust_yes in E1, E2 by auto.
  injection E1 as <- <- <-; injection E2 as <- <- <-; rewrite <- !diversity_clamp.
  pose proof (diversity_mono _ _ _ Hd Hle Fr Hr) as Hm.
  assert (H2 : fle f0 (deviation p2) = true).
  { apply fle_spec in Hd as (A & B & C); apply fle_spec in Hle as (D & E & F); apply fle_spec; split; [auto|split; [auto|]]; eapply Rle_trans; eauto. }
  destruct (diversity_facts (deviation p1) (aga_reference_std s)) as (Rd1 & _); auto.
  destruct (diversity_facts (deviation p2) (aga_reference_std s)) as (Rd2 & _); auto.
  destruct (complement_rate _ Rd1) as [Rc1 V1]; destruct (complement_rate _ Rd2) as [Rc2 V2].
  destruct (aga_crossover_range s) as [a b], (aga_mutation_range s) as [c d]; cbn [fst snd] in *.
  destruct R1 as [F1 R1], R2 as [F2 R2], R3 as [F3 R3], R4 as [F4 R4], Rd1 as [Fd1 Rd1], Rd2 as [Fd2 Rd2], Rc1 as [Fc1 Rc1], Rc2 as [Fc2 Rc2].
  split; intros H.
  - apply (interp_mono a b F1 F2 R1 R2 _ _ Fd1 Fd2); auto; apply Rd1 || apply Rd2.
  - apply (interp_mono c d F3 F4 R3 R4 _ _ Fc2 Fc1); auto; try apply Rc1; try apply Rc2.
    rewrite V1, V2; apply rnd_mono; lra.
Qed.

Lemma frozen_rates (s : aga_state I MS) p ref cr mr :
  adjusts (aga_interval s) (generation p) -> feq (deviation p) f0 = true -> feq (aga_reference_std s) f0 = true ->
  aga_adjust s p = (ref, cr, mr) -> is_nan cr = true /\ is_nan mr = true.
Proof.
  intros Ha Hd Hr E; rewrite adjust_yes in E by auto; injection E as <- <- <-.
  pose proof (diversity_nan _ _ (zero_div _ _ Hd Hr)) as H; split; apply point_nan; auto.
  apply (nan_arith_r f1 (diversity_of (deviation p) (aga_reference_std s)) H).
Qed.

Lemma nan_no_variation ms p (b : breeding I) c m : is_nan (crossover_rate b) = true -> is_nan (mutation_rate b) = true ->
  same_behaviour (breed io fexp mdl ms p b) (breed io fexp (with_variation mdl c m) ms p b).
Proof. intros H1 H2; apply no_variation; apply flt_nan_r; auto. Qed.
End Claims.
