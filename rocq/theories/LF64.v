(** * LF64: reasoning about binary64 arithmetic.

    Non-NaN floats are ordered like the real numbers [key x]: the value for a
    finite float, +-2^1024 for the infinities. *)
From Coq Require Import ZArith NArith Reals Bool Lia Lra.
From Flocq Require Import Core BinarySingleNaN Relative Plus_error.
From Verif Require Import Rnd LRnd F64.
Local Open Scope R_scope.

Notation fexp64 := (SpecFloat.fexp prec emax).
Notation rnd := (round radix2 fexp64 ZnearestE).
Local Arguments bpow : simpl never.
Notation big := (bpow radix2 1024).
Notation isfloat := (generic_format radix2 fexp64).

#[global] Instance fexp64_valid : Valid_exp fexp64 := FLT_exp_valid (-1074) 53.
#[global] Instance fexp64_mono : Monotone_exp fexp64 := FLT_exp_monotone (-1074) 53.

Definition key (x : f64) : R :=
  match x with
  | B754_infinity false => big
  | B754_infinity true => - big
  | _ => B2R x
  end.

Definition ovf (r : R) : R := if Rlt_bool (Rabs r) big then r else if Rlt_bool r 0 then - big else big.

Lemma big_pos : 0 < big.
Proof. apply bpow_gt_0. Qed.

Lemma key_finite x : is_finite x = true -> key x = B2R x.
Proof. destruct x as [s|[|]| |s m e H]; cbn; auto; discriminate. Qed.

Lemma B2R_bound (x : f64) : - big < B2R x < big.
Proof.
  pose proof (abs_B2R_lt_emax prec emax x) as H; apply Rabs_def2 in H; change (bpow radix2 emax) with big in H; lra.
Qed.

Lemma key_finite_bound x : is_finite x = true -> - big < key x < big.
Proof. intros H; rewrite key_finite by auto; apply B2R_bound. Qed.

Lemma key_bound x : - big <= key x <= big.
Proof.
  destruct (is_finite x) eqn:E; [pose proof (key_finite_bound x E); lra|].
  pose proof big_pos; destruct x as [s|[|]| |s m e H']; cbn; try discriminate; lra.
Qed.

Lemma finite_not_nan (x : f64) : is_finite x = true -> is_nan x = false.
Proof. destruct x; cbn; auto. Qed.

Lemma key_finite_iff x : is_nan x = false -> (is_finite x = true <-> - big < key x < big).
Proof.
  intros Hn; split; [apply key_finite_bound|].
  destruct x as [s|[|]| |s m e H']; cbn in *; auto; try discriminate; lra.
Qed.

(** ** Comparisons *)
Lemma fcmp_key x y : is_nan x = false -> is_nan y = false -> fcmp x y = Some (Rcompare (key x) (key y)).
Proof.
  intros Hx Hy; unfold fcmp.
  destruct (is_finite x) eqn:Fx; destruct (is_finite y) eqn:Fy.
  - rewrite Bcompare_correct, !key_finite; auto.
  - pose proof (key_finite_bound x Fx).
    destruct y as [s|[|]| |s m e H']; try discriminate; cbn [key].
    + rewrite Rcompare_Gt by lra; destruct x as [sx|[|]| |[|] mx ex Hx']; try discriminate; reflexivity.
    + rewrite Rcompare_Lt by lra; destruct x as [sx|[|]| |[|] mx ex Hx']; try discriminate; reflexivity.
  - pose proof (key_finite_bound y Fy).
    destruct x as [s|[|]| |s m e H']; try discriminate; cbn [key].
    + rewrite Rcompare_Lt by lra; destruct y as [sx|[|]| |[|] mx ex Hx']; try discriminate; reflexivity.
    + rewrite Rcompare_Gt by lra; destruct y as [sx|[|]| |[|] mx ex Hx']; try discriminate; reflexivity.
  - pose proof big_pos; destruct x as [s|[|]| |s m e H']; try discriminate; destruct y as [s'|[|]| |s' m' e' H'']; try discriminate;
    cbn [key]; first [rewrite Rcompare_Eq by lra|rewrite Rcompare_Lt by lra|rewrite Rcompare_Gt by lra]; reflexivity.
Qed.

Lemma fcmp_nan_l x y : is_nan x = true -> fcmp x y = None.
Proof. destruct x; cbn; try discriminate; auto. Qed.
Lemma fcmp_nan_r x y : is_nan y = true -> fcmp x y = None.
Proof. destruct y; cbn; try discriminate; destruct x as [s|[|]| |[|] m e H]; cbn; auto. Qed.

Lemma flt_fcmp x y : flt x y = match fcmp x y with Some Lt => true | _ => false end.
Proof. unfold flt, fcmp, Bltb, SpecFloat.SFltb, Bcompare; reflexivity. Qed.
Lemma fle_fcmp x y : fle x y = match fcmp x y with Some Lt | Some Eq => true | _ => false end.
Proof. unfold fle, fcmp, Bleb, SpecFloat.SFleb, Bcompare. destruct SpecFloat.SFcompare as [[]|]; reflexivity. Qed.
Lemma feq_fcmp x y : feq x y = match fcmp x y with Some Eq => true | _ => false end.
Proof. unfold feq, fcmp, Beqb, SpecFloat.SFeqb, Bcompare. destruct SpecFloat.SFcompare as [[]|]; reflexivity. Qed.

Lemma flt_spec x y : flt x y = true <-> is_nan x = false /\ is_nan y = false /\ key x < key y.
Proof.
  rewrite flt_fcmp; destruct (is_nan x) eqn:Nx; [rewrite fcmp_nan_l by auto; intuition discriminate|].
  destruct (is_nan y) eqn:Ny; [rewrite fcmp_nan_r by auto; intuition discriminate|].
  rewrite fcmp_key by auto; destruct (Rcompare_spec (key x) (key y)); split; intuition (try discriminate; lra).
Qed.
Lemma fle_spec x y : fle x y = true <-> is_nan x = false /\ is_nan y = false /\ key x <= key y.
Proof.
  rewrite fle_fcmp; destruct (is_nan x) eqn:Nx; [rewrite fcmp_nan_l by auto; intuition discriminate|].
  destruct (is_nan y) eqn:Ny; [rewrite fcmp_nan_r by auto; intuition discriminate|].
  rewrite fcmp_key by auto; destruct (Rcompare_spec (key x) (key y)); split; intuition (try discriminate; lra).
Qed.
Lemma feq_spec x y : feq x y = true <-> is_nan x = false /\ is_nan y = false /\ key x = key y.
Proof.
  rewrite feq_fcmp; destruct (is_nan x) eqn:Nx; [rewrite fcmp_nan_l by auto; intuition discriminate|].
  destruct (is_nan y) eqn:Ny; [rewrite fcmp_nan_r by auto; intuition discriminate|].
  rewrite fcmp_key by auto; destruct (Rcompare_spec (key x) (key y)); split; intuition (try discriminate; lra).
Qed.
Lemma flt_false x y : is_nan x = false -> is_nan y = false -> (flt x y = false <-> key y <= key x).
Proof.
  intros Hx Hy; destruct (flt x y) eqn:E.
  - apply flt_spec in E; split; [discriminate|lra].
  - split; auto; intros _; apply Rnot_lt_le; intros H.
    assert (flt x y = true) by (apply flt_spec; auto); congruence.
Qed.
Lemma fle_false x y : is_nan x = false -> is_nan y = false -> (fle x y = false <-> key y < key x).
Proof.
  intros Hx Hy; destruct (fle x y) eqn:E.
  - apply fle_spec in E; split; [discriminate|lra].
  - split; auto; intros _; apply Rnot_le_lt; intros H.
    assert (fle x y = true) by (apply fle_spec; auto); congruence.
Qed.
Lemma fge_spec x y : fge x y = true <-> is_nan x = false /\ is_nan y = false /\ key y <= key x.
Proof. unfold fge; fold (fle y x); rewrite fle_spec; tauto. Qed.
Lemma fgt_spec x y : fgt x y = true <-> is_nan x = false /\ is_nan y = false /\ key y < key x.
Proof. unfold fgt; fold (flt y x); rewrite flt_spec; tauto. Qed.
Lemma fgt_false x y : is_nan x = false -> is_nan y = false -> (fgt x y = false <-> key x <= key y).
Proof. intros Hx Hy; unfold fgt; fold (flt y x); rewrite flt_false by auto; tauto. Qed.

(** ** Rounding *)
Lemma rnd_mono a b : a <= b -> rnd a <= rnd b.
Proof. apply round_le; typeclasses eauto. Qed.
Lemma rnd_0 : rnd 0 = 0.
Proof. apply round_0; typeclasses eauto. Qed.
Lemma rnd_float a : isfloat a -> rnd a = a.
Proof. apply round_generic; typeclasses eauto. Qed.
Lemma rnd_isfloat a : isfloat (rnd a).
Proof. apply generic_format_round; typeclasses eauto. Qed.
Lemma rnd_pos a : 0 <= a -> 0 <= rnd a.
Proof. intros H; rewrite <- rnd_0; apply rnd_mono; auto. Qed.
Lemma rnd_neg a : a <= 0 -> rnd a <= 0.
Proof. intros H; rewrite <- rnd_0; apply rnd_mono; auto. Qed.
Lemma rnd_opp a : rnd (- a) = - rnd a.
Proof. apply round_NE_opp. Qed.
Lemma B2R_isfloat (x : f64) : isfloat (B2R x).
Proof. apply generic_format_B2R. Qed.
Lemma rnd_le_float a b : isfloat b -> a <= b -> rnd a <= b.
Proof. intros Hb H; rewrite <- (rnd_float b) by auto; apply rnd_mono; auto. Qed.
Lemma rnd_ge_float a b : isfloat b -> b <= a -> b <= rnd a.
Proof. intros Hb H; rewrite <- (rnd_float b) by auto; apply rnd_mono; auto. Qed.

Lemma isfloat_bpow e : (-1074 <= e)%Z -> isfloat (bpow radix2 e).
Proof.
  intros He; apply generic_format_bpow; unfold SpecFloat.fexp, SpecFloat.emin, emax, prec; lia.
Qed.

Lemma isfloat_IZR z : (Z.abs z <= 2 ^ 53)%Z -> isfloat (IZR z).
Proof.
  intros H; destruct (Z.eq_dec (Z.abs z) (2 ^ 53)) as [E|E].
  - assert (Hb : isfloat (bpow radix2 53)) by (apply isfloat_bpow; lia).
    assert (H2 : bpow radix2 53 = IZR (2 ^ 53)) by reflexivity.
    destruct (Z.abs_spec z) as [[_ Ez]|[_ Ez]].
    + replace z with (2 ^ 53)%Z by lia; rewrite <- H2; auto.
    + replace z with (- (2 ^ 53))%Z by lia; rewrite opp_IZR, <- H2; apply generic_format_opp; auto.
  - replace (IZR z) with (F2R (Float radix2 z 0)) by (unfold F2R; cbn; unfold bpow; lra).
    apply generic_format_FLT; exists (Float radix2 z 0); auto; cbn [Fnum Fexp]; [|unfold SpecFloat.emin, emax, prec; lia].
    change (radix2 ^ prec)%Z with (2 ^ 53)%Z; lia.
Qed.

Lemma isfloat_scale x e : isfloat x -> (0 <= e)%Z -> isfloat (x * bpow radix2 e).
Proof.
  intros Hx He; destruct (Req_dec x 0) as [->|Hne]; [rewrite Rmult_0_l; apply generic_format_0|].
  apply FLT_format_generic in Hx; [|reflexivity]. destruct Hx as [[m ex] -> Hm Hex].
  cbn [Fnum Fexp] in *. apply generic_format_FLT. exists (Float radix2 m (ex + e)); cbn [Fnum Fexp]; auto.
  - unfold F2R; cbn [Fnum Fexp]; rewrite bpow_plus; ring.
  - lia.
Qed.

Lemma big_isfloat : isfloat big.
Proof. apply isfloat_bpow; lia. Qed.
Lemma big_opp_isfloat : isfloat (- big).
Proof. apply generic_format_opp, big_isfloat. Qed.

(** ** Overflow *)
Lemma ovf_small r : - big < r < big -> ovf r = r.
Proof. intros H; unfold ovf; rewrite Rlt_bool_true; auto; apply Rabs_def1; lra. Qed.
Lemma ovf_big r : big <= r -> ovf r = big.
Proof.
  intros H; pose proof big_pos; unfold ovf; rewrite Rlt_bool_false, Rlt_bool_false; auto; try lra.
  rewrite Rabs_pos_eq; lra.
Qed.
Lemma ovf_mbig r : r <= - big -> ovf r = - big.
Proof.
  intros H; pose proof big_pos; unfold ovf; rewrite Rlt_bool_false, Rlt_bool_true; auto; try lra.
  rewrite Rabs_left; lra.
Qed.
Lemma ovf_mono a b : a <= b -> ovf a <= ovf b.
Proof.
  intros H; pose proof big_pos.
  destruct (Rle_lt_dec a (- big)); [rewrite (ovf_mbig a) by auto|];
  destruct (Rle_lt_dec b (- big)); try (rewrite (ovf_mbig b) by auto); try lra;
  destruct (Rle_lt_dec big a); try (rewrite (ovf_big a) by auto);
  destruct (Rle_lt_dec big b); try (rewrite (ovf_big b) by auto); try lra;
  rewrite ?(ovf_small a), ?(ovf_small b) by lra; lra.
Qed.
Lemma ovf_bound r : - big <= ovf r <= big.
Proof.
  pose proof big_pos; destruct (Rle_lt_dec r (- big)); [rewrite ovf_mbig; lra|].
  destruct (Rle_lt_dec big r); [rewrite ovf_big; lra|]. rewrite ovf_small; lra.
Qed.
Lemma ovf_pos r : 0 <= r -> 0 <= ovf r.
Proof. intros H; pose proof big_pos; rewrite <- (ovf_small 0) by lra; apply ovf_mono; auto. Qed.
Lemma ovf_neg r : r <= 0 -> ovf r <= 0.
Proof. intros H; pose proof big_pos; rewrite <- (ovf_small 0) by lra; apply ovf_mono; auto. Qed.
Lemma ovf_le_iff r c : - big < c < big -> (ovf r <= c <-> r <= c).
Proof.
  intros Hc; destruct (Rle_lt_dec r (- big)); [rewrite ovf_mbig by auto; lra|].
  destruct (Rle_lt_dec big r); [rewrite ovf_big by auto; lra|]. rewrite ovf_small by lra; lra.
Qed.

Lemma B2SF_inf (z : f64) s : B2SF z = SpecFloat.S754_infinity s -> z = B754_infinity s.
Proof. destruct z; cbn; intros H; inversion H; auto. Qed.

Lemma Bsign_pos (x : f64) : Bsign x = false -> 0 <= B2R x.
Proof.
  destruct x as [s|s| |[|] m e H]; cbn; try discriminate; try lra; intros _.
  apply F2R_ge_0; cbn; lia.
Qed.
Lemma Bsign_neg (x : f64) : Bsign x = true -> B2R x <= 0.
Proof.
  destruct x as [s|s| |[|] m e H]; cbn; try discriminate; try lra; intros _.
  apply F2R_le_0; cbn; lia.
Qed.

(** The shape of a correctly rounded operation with result [z] for the exact
    value [r]: finite when it fits, else the infinity of the sign of [r]. *)
Definition rounded_to (z : f64) (r : R) : Prop :=
  is_nan z = false /\ key z = ovf (rnd r) /\
  (is_finite z = true <-> - big < rnd r < big) /\
  (is_finite z = true -> B2R z = rnd r).

Lemma rounded_intro z r :
  (if Rlt_bool (Rabs (rnd r)) big then B2R z = rnd r /\ is_finite z = true
   else exists s, B2SF z = SpecFloat.S754_infinity s /\ (s = false -> 0 <= r) /\ (s = true -> r <= 0)) ->
  rounded_to z r.
Proof.
  destruct (Rlt_bool_spec (Rabs (rnd r)) big) as [H|H].
  - intros [E F]; apply Rabs_def2 in H; split; [apply finite_not_nan; auto|].
    rewrite key_finite, E, ovf_small by (auto; lra); repeat split; auto; lra.
  - intros (s & Hs & Hp & Hm); apply B2SF_inf in Hs; subst z; split; auto.
    assert (Hr : if s then rnd r <= - big else big <= rnd r).
    { destruct s; [assert (rnd r <= 0) by (apply rnd_neg; auto); rewrite Rabs_left1 in H by lra; lra|].
      assert (0 <= rnd r) by (apply rnd_pos; auto). rewrite Rabs_pos_eq in H by lra; lra. }
    destruct s; cbn [key is_finite].
    + rewrite ovf_mbig by auto; repeat split; auto; try discriminate; intros; lra.
    + rewrite ovf_big by auto; repeat split; auto; try discriminate; intros; lra.
Qed.

Lemma fadd_correct x y : is_finite x = true -> is_finite y = true -> rounded_to (fadd x y) (B2R x + B2R y).
Proof.
  intros Fx Fy; apply rounded_intro; unfold fadd.
  pose proof (Bplus_correct prec emax _ _ mode_NE x y Fx Fy) as H.
  change (bpow radix2 emax) with big in H; cbn [round_mode] in H.
  destruct (Rlt_bool _ big); [tauto|]. destruct H as [H Hs]; exists (Bsign x); split; [exact H|].
  split; intros E; rewrite E in Hs; [pose proof (Bsign_pos x E); pose proof (Bsign_pos y (eq_sym Hs)); lra|].
  pose proof (Bsign_neg x E); pose proof (Bsign_neg y (eq_sym Hs)); lra.
Qed.

Lemma fsub_correct x y : is_finite x = true -> is_finite y = true -> rounded_to (fsub x y) (B2R x - B2R y).
Proof.
  intros Fx Fy; apply rounded_intro; unfold fsub.
  pose proof (Bminus_correct prec emax _ _ mode_NE x y Fx Fy) as H.
  change (bpow radix2 emax) with big in H; cbn [round_mode] in H.
  destruct (Rlt_bool _ big); [tauto|]. destruct H as [H Hs]; exists (Bsign x); split; [exact H|].
  split; intros E; rewrite E in Hs.
  - pose proof (Bsign_pos x E); destruct (Bsign y) eqn:Ey; [|discriminate]; pose proof (Bsign_neg y Ey); lra.
  - pose proof (Bsign_neg x E); destruct (Bsign y) eqn:Ey; [discriminate|]; pose proof (Bsign_pos y Ey); lra.
Qed.

Lemma sign_mult (x y : f64) (s : bool) : xorb (Bsign x) (Bsign y) = s ->
  (s = false -> 0 <= B2R x * B2R y) /\ (s = true -> B2R x * B2R y <= 0).
Proof.
  intros <-; destruct (Bsign x) eqn:Ex; destruct (Bsign y) eqn:Ey; cbn [xorb]; split; try discriminate; intros _;
  try (pose proof (Bsign_neg x Ex)); try (pose proof (Bsign_pos x Ex)); try (pose proof (Bsign_neg y Ey)); try (pose proof (Bsign_pos y Ey)); nra.
Qed.

Lemma fmul_correct x y : is_finite x = true -> is_finite y = true -> rounded_to (fmul x y) (B2R x * B2R y).
Proof.
  intros Fx Fy; apply rounded_intro; unfold fmul.
  pose proof (Bmult_correct prec emax _ _ mode_NE x y) as H.
  change (bpow radix2 emax) with big in H; cbn [round_mode] in H.
  destruct (Rlt_bool _ big); [rewrite Fx, Fy in H; tauto|].
  exists (xorb (Bsign x) (Bsign y)); split; [exact H|apply sign_mult; auto].
Qed.

Lemma fdiv_correct x y : is_finite x = true -> B2R y <> 0 -> rounded_to (fdiv x y) (B2R x / B2R y).
Proof.
  intros Fx Fy; apply rounded_intro; unfold fdiv.
  pose proof (Bdiv_correct prec emax _ _ mode_NE x y Fy) as H.
  change (bpow radix2 emax) with big in H; cbn [round_mode] in H.
  destruct (Rlt_bool _ big); [rewrite Fx in H; tauto|].
  exists (xorb (Bsign x) (Bsign y)); split; [exact H|].
  destruct (Rtotal_order (B2R y) 0) as [Hy|[Hy|Hy]]; try lra.
  - assert (Ey : Bsign y = true) by (destruct (Bsign y) eqn:Ey; auto; pose proof (Bsign_pos y Ey); lra).
    assert (Hi : / B2R y < 0) by (apply Rinv_lt_0_compat; auto).
    unfold Rdiv; rewrite Ey; destruct (Bsign x) eqn:Ex; cbn [xorb]; split; try discriminate; intros _;
    try (pose proof (Bsign_neg x Ex)); try (pose proof (Bsign_pos x Ex)); nra.
  - assert (Ey : Bsign y = false) by (destruct (Bsign y) eqn:Ey; auto; pose proof (Bsign_neg y Ey); lra).
    assert (Hi : 0 < / B2R y) by (apply Rinv_0_lt_compat; auto).
    unfold Rdiv; rewrite Ey; destruct (Bsign x) eqn:Ex; cbn [xorb]; split; try discriminate; intros _;
    try (pose proof (Bsign_neg x Ex)); try (pose proof (Bsign_pos x Ex)); nra.
Qed.

(** ** Integers *)
Lemma f_of_Z_correct z : rounded_to (f_of_Z z) (IZR z).
Proof.
  apply rounded_intro; unfold f_of_Z.
  pose proof (binary_normalize_correct prec emax Hprec Hprec_emax mode_NE z 0 false) as H.
  cbv zeta in H; change (bpow radix2 emax) with big in H; cbn [round_mode] in H.
  replace (F2R (Float radix2 z 0)) with (IZR z) in H by (unfold F2R; cbn; unfold bpow; lra).
  destruct (Rlt_bool (Rabs (rnd (IZR z))) big); [tauto|].
  exists (Rlt_bool (IZR z) 0); split; [exact H|].
  destruct (Rlt_bool_spec (IZR z) 0); split; try discriminate; intros; lra.
Qed.

Lemma rnd_lt_big r : Rabs r <= bpow radix2 1023 -> - big < rnd r < big.
Proof.
  intros H; assert (Hb : isfloat (bpow radix2 1023)) by (apply isfloat_bpow; lia).
  assert (Hlt : bpow radix2 1023 < big) by (apply bpow_lt; lia).
  apply Rabs_le_inv in H; split.
  - assert (- bpow radix2 1023 <= rnd r) by (apply rnd_ge_float; [apply generic_format_opp; auto|lra]); lra.
  - assert (rnd r <= bpow radix2 1023) by (apply rnd_le_float; auto; lra); lra.
Qed.

Lemma f_of_Z_finite z : (Z.abs z <= 2 ^ 64)%Z -> is_finite (f_of_Z z) = true /\ B2R (f_of_Z z) = rnd (IZR z).
Proof.
  intros H; destruct (f_of_Z_correct z) as (_ & _ & Hf & Hv).
  assert (Hb : - big < rnd (IZR z) < big).
  { apply rnd_lt_big; rewrite <- abs_IZR; apply Rle_trans with (bpow radix2 64); [|apply bpow_le; lia].
    change (bpow radix2 64) with (IZR (2 ^ 64)); apply IZR_le; auto. }
  apply Hf in Hb; auto.
Qed.

Lemma f_of_Z_exact z : (Z.abs z <= 2 ^ 53)%Z -> is_finite (f_of_Z z) = true /\ B2R (f_of_Z z) = IZR z.
Proof.
  intros H; destruct (f_of_Z_finite z) as [Hf Hv]; [lia|]; split; auto.
  rewrite Hv; apply rnd_float, isfloat_IZR; auto.
Qed.

Lemma f_of_nat_finite n : (Z.of_nat n <= usize_max)%Z -> is_finite (f_of_nat n) = true /\ B2R (f_of_nat n) = rnd (INR n).
Proof.
  intros H; unfold f_of_nat; rewrite INR_IZR_INZ; apply f_of_Z_finite; unfold usize_max in H; lia.
Qed.

Lemma f_of_nat_ge1 n : (1 <= n)%nat -> (Z.of_nat n <= usize_max)%Z -> 1 <= B2R (f_of_nat n).
Proof.
  intros H1 H2; destruct (f_of_nat_finite n H2) as [_ ->].
  apply rnd_ge_float; [apply (isfloat_IZR 1); lia|]. apply (le_INR 1); auto.
Qed.

Lemma f1_val : is_finite f1 = true /\ B2R f1 = 1.
Proof. apply (f_of_Z_exact 1); lia. Qed.
Lemma f2_val : is_finite f2 = true /\ B2R f2 = 2.
Proof. apply (f_of_Z_exact 2); lia. Qed.
Lemma f4_val : is_finite f4 = true /\ B2R f4 = 4.
Proof. apply (f_of_Z_exact 4); lia. Qed.
Lemma f0_val : is_finite f0 = true /\ B2R f0 = 0.
Proof. split; reflexivity. Qed.

(** ** Unit draws *)
Lemma f_unit_val i : (i < 2 ^ 53)%N ->
  is_finite (f_unit i) = true /\ B2R (f_unit i) = IZR (Z.of_N i) * bpow radix2 (-53).
Proof.
  intros Hi; unfold f_unit.
  pose proof (binary_normalize_correct prec emax Hprec Hprec_emax mode_NE (Z.of_N i) (-53) false) as H.
  cbv zeta in H; change (bpow radix2 emax) with big in H; cbn [round_mode] in H.
  set (x := F2R (Float radix2 (Z.of_N i) (-53))) in *.
  assert (Hx : x = IZR (Z.of_N i) * bpow radix2 (-53)) by reflexivity.
  assert (Hfl : isfloat x).
  { apply generic_format_FLT; exists (Float radix2 (Z.of_N i) (-53)); auto; cbn [Fnum Fexp]; [|unfold SpecFloat.emin, emax, prec; lia].
    change (radix2 ^ prec)%Z with (2 ^ 53)%Z; lia. }
  rewrite (rnd_float x) in H by auto.
  rewrite Rlt_bool_true in H; [rewrite <- Hx; tauto|].
  assert (Hp : 0 <= x) by (rewrite Hx; apply Rmult_le_pos; [apply IZR_le; lia|apply bpow_ge_0]).
  rewrite Rabs_pos_eq by auto; apply Rlt_le_trans with (bpow radix2 0); [|apply bpow_le; lia].
  rewrite Hx; apply Rlt_le_trans with (bpow radix2 53 * bpow radix2 (-53)); [|rewrite <- bpow_plus; apply bpow_le; lia].
  apply Rmult_lt_compat_r; [apply bpow_gt_0|]. change (bpow radix2 53) with (IZR (2 ^ 53)); apply IZR_lt; lia.
Qed.

Lemma f_unit_bound i : (i < 2 ^ 53)%N -> 0 <= B2R (f_unit i) <= 1 - bpow radix2 (-53).
Proof.
  intros Hi; destruct (f_unit_val i Hi) as [_ ->].
  assert (0 < bpow radix2 (-53)) by apply bpow_gt_0; split.
  - apply Rmult_le_pos; [apply IZR_le; lia|lra].
  - apply Rle_trans with (IZR (2 ^ 53 - 1) * bpow radix2 (-53)); [apply Rmult_le_compat_r; [lra|apply IZR_le; lia]|].
    rewrite minus_IZR; change (IZR (2 ^ 53)) with (bpow radix2 53).
    rewrite Rmult_minus_distr_r, <- bpow_plus; change (bpow radix2 (53 + -53)) with 1; lra.
Qed.

(** ** Conversions to integers *)
Lemma f_floor_val x : is_finite x = true -> is_finite (f_floor x) = true /\ B2R (f_floor x) = IZR (Zfloor (B2R x)).
Proof.
  intros Hx; unfold f_floor.
  destruct (Bnearbyint_correct prec emax Hprec_emax mode_DN x) as (H1 & H2 & _).
  rewrite H2, H1; split; auto; cbn [round_mode].
  rewrite round_FIX_IZR; reflexivity.
Qed.

Lemma f_to_usize_val x : is_finite x = true -> f_to_usize x = Z.to_nat (Z.min (Ztrunc (B2R x)) usize_max).
Proof.
  intros Hx.
  assert (Ht : Btrunc x = Ztrunc (B2R x)).
  { apply eq_IZR; rewrite Btrunc_correct by exact Hprec_emax; rewrite round_FIX_IZR; reflexivity. }
  destruct x as [s|s| |s m e H]; try discriminate.
  - cbn [B2R f_to_usize]; rewrite Ztrunc_IZR; reflexivity.
  - rewrite <- Ht; reflexivity.
Qed.

Lemma f_to_usize_le x z : is_nan x = false -> (0 <= z <= usize_max)%Z -> is_finite x = true -> B2R x < IZR z + 1 -> (f_to_usize x <= Z.to_nat z)%nat.
Proof.
  intros Hn Hz Hf Hlt; rewrite f_to_usize_val by auto.
  assert (Ztrunc (B2R x) <= z)%Z.
  { destruct (Rle_lt_dec 0 (B2R x)) as [H0|H0].
    - rewrite Ztrunc_floor by auto.
      assert (Zfloor (B2R x) < z + 1)%Z; [|lia].
      apply lt_IZR; rewrite plus_IZR; pose proof (Zfloor_lb (B2R x)); lra.
    - rewrite Ztrunc_ceil by lra.
      assert (Zceil (B2R x) <= 0)%Z; [|lia]. apply Zceil_glb; lra. }
  lia.
Qed.

(** ** Error bounds *)
Lemma rnd_error r : bpow radix2 (-1022) <= Rabs r -> Rabs (rnd r - r) <= Rabs r * bpow radix2 (-53).
Proof.
  intros H.
  assert (H1 : Rabs (rnd r - r) <= / 2 * ulp radix2 fexp64 r) by (apply error_le_half_ulp; typeclasses eauto).
  assert (H2 : ulp radix2 fexp64 r <= Rabs r * bpow radix2 (-52)).
  { change fexp64 with (FLT_exp (-1074) 53); apply (ulp_FLT_le radix2 (-1074) 53); auto. }
  replace (bpow radix2 (-53)) with (/ 2 * bpow radix2 (-52)); [nra|].
  change (-52)%Z with (1 + -53)%Z; rewrite bpow_plus, bpow_1; cbn [radix_val radix2]; lra.
Qed.

(** Multiplying by a number below one strictly decreases, in spite of rounding. *)
Lemma rnd_shrink m r : bpow radix2 (-1000) <= m -> 0 <= r <= 1 - bpow radix2 (-53) -> rnd (m * r) < m.
Proof.
  intros Hm [H0 H1]; pose proof (bpow_gt_0 radix2 (-1000)) as Hp; pose proof (bpow_gt_0 radix2 (-53)) as Hq.
  assert (Hq2 : bpow radix2 (-53) < / 2).
  { change (/ 2) with (bpow radix2 (-1)); apply bpow_lt; lia. }
  set (a := m * (1 - bpow radix2 (-53))).
  assert (Ha : bpow radix2 (-1022) <= a).
  { apply Rle_trans with (bpow radix2 (-1000) * / 2); [|unfold a; nra].
    change (/ 2) with (bpow radix2 (-1)); rewrite <- bpow_plus; apply bpow_le; lia. }
  pose proof (bpow_gt_0 radix2 (-1022)).
  apply Rle_lt_trans with (rnd a); [apply rnd_mono; unfold a; nra|].
  pose proof (rnd_error a) as He; rewrite (Rabs_pos_eq a) in He by lra.
  specialize (He Ha); apply Rabs_le_inv in He.
  apply Rle_lt_trans with (a + a * bpow radix2 (-53)); [lra|].
  assert (0 < m * (bpow radix2 (-53) * bpow radix2 (-53))) by (repeat apply Rmult_lt_0_compat; lra).
  unfold a; lra.
Qed.

(** A float strictly below the rounding of [n] is strictly below [n]. *)
Lemma float_lt_rnd v n : isfloat v -> v < rnd n -> v < n.
Proof.
  intros Hv H; apply Rnot_le_lt; intros Hn; apply rnd_mono in Hn; rewrite (rnd_float v) in Hn by auto; lra.
Qed.

Lemma fmul_shrink x r : is_finite x = true -> bpow radix2 (-1000) <= B2R x ->
  is_finite r = true -> 0 <= B2R r <= 1 - bpow radix2 (-53) ->
  is_finite (fmul x r) = true /\ 0 <= B2R (fmul x r) < B2R x.
Proof.
  intros Fx Hx Fr Hr; destruct (fmul_correct x r Fx Fr) as (_ & _ & Hf & Hv).
  pose proof (rnd_shrink _ _ Hx Hr) as H1; pose proof (bpow_gt_0 radix2 (-1000)).
  assert (H2 : 0 <= rnd (B2R x * B2R r)) by (apply rnd_pos, Rmult_le_pos; lra).
  pose proof (B2R_bound x); pose proof big_pos.
  assert (F : is_finite (fmul x r) = true) by (apply Hf; lra).
  rewrite (Hv F); auto.
Qed.

(** A float below one is at most 1 - 2^-53. *)
Lemma below_one (x : f64) : is_finite x = true -> B2R x < 1 -> B2R x <= 1 - bpow radix2 (-53).
Proof.
  intros Fx H.
  assert (Hp : pred radix2 fexp64 1 = 1 - bpow radix2 (-53)).
  { change 1 with (bpow radix2 0) at 1; rewrite pred_bpow; reflexivity. }
  rewrite <- Hp; apply pred_ge_gt; auto; try typeclasses eauto.
  - apply B2R_isfloat.
  - apply (isfloat_IZR 1); lia.
Qed.
