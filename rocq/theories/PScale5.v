(** * PScale5: statistics in other units (C130). *)
From Coq Require Import List Bool Arith NArith ZArith Reals Lia Lra.
From Flocq Require Import Core BinarySingleNaN.
From Verif Require Import Rnd LRnd F64 LF64 MStats SpecF SpecO SpecScale PLinear PStats PScale PIso PPopulation.
Import ListNotations.
Local Open Scope R_scope.
Local Arguments bpow : simpl never.
Local Notation B := (bpow radix2).

Definition far (e : Z) (r : R) : Prop := r = 0 \/ B e <= Rabs r.
Definition sc (k : Z) (x y : f64) : Prop := is_finite x = true /\ is_finite y = true /\ B2R y = B2R x * B k.
(** [z] is [r] rounded, and [r] is far from the ends of the range. *)
Definition okr (z : f64) (r : R) : Prop := rounded_to z r /\ Rabs r <= B 1023 /\ far (-900) r.

Lemma far_le e e' r : (e' <= e)%Z -> far e r -> far e' r.
Proof. intros H [->|H']; [left; auto|right]; eapply Rle_trans; [apply bpow_le; exact H|auto]. Qed.
Lemma far_rnd e r : (-1074 <= e)%Z -> far e r -> far e (rnd r).
Proof.
  intros He [->|H]; [left; apply rnd_0|right]; pose proof (bpow_gt_0 radix2 e).
  destruct (Rle_lt_dec 0 r) as [Hr|Hr].
  - rewrite Rabs_pos_eq in * by (try apply rnd_pos; auto); apply rnd_ge_float; auto; apply isfloat_bpow; auto.
  - rewrite Rabs_left in H by auto; rewrite <- (Ropp_involutive r), rnd_opp, Rabs_Ropp, Rabs_pos_eq by (apply rnd_pos; lra).
    apply rnd_ge_float; auto; apply isfloat_bpow; auto.
Qed.
Lemma rnd_times_abs k r : far (-900) r -> far (-900) (r * B k) -> rnd (r * B k) = rnd r * B k.
Proof.
  intros H H'; pose proof (bpow_gt_0 radix2 k) as Pk; pose proof (bpow_gt_0 radix2 (-900)) as P9.
  destruct H as [->|H]; [apply rnd_times; left; auto|].
  destruct H' as [Z|H']; [exfalso; apply Rmult_integral in Z as [->|Z]; [rewrite Rabs_R0 in H; lra|lra]|].
  rewrite Rabs_mult, (Rabs_pos_eq (B k)) in H' by lra.
  destruct (Rle_lt_dec 0 r) as [Hr|Hr].
  - rewrite Rabs_pos_eq in H, H' by auto; apply rnd_times; right; auto.
  - rewrite Rabs_left in H, H' by auto; pose proof (rnd_times k (- r) (or_intror (conj H H'))) as E; rewrite <- Ropp_mult_distr_l, !rnd_opp in E; lra.
Qed.
Lemma okr_val z r : okr z r -> is_finite z = true /\ B2R z = rnd r.
Proof. intros (H & H' & _); apply in_range; auto. Qed.
Lemma okr_sc k z z' r r' : okr z r -> okr z' r' -> r' = r * B k -> sc k z z'.
Proof.
  intros H H' ->; destruct (okr_val _ _ H) as [F V], (okr_val _ _ H') as [F' V'].
  split; [auto|]; split; [auto|]; rewrite V, V'; apply rnd_times_abs; [apply H|apply H'].
Qed.
Lemma grid x : isfloat x -> B (-300) <= x -> exists z, x = IZR z * B (-352).
Proof.
  intros Hx Hb; pose proof (bpow_gt_0 radix2 (-300)) as P3.
  assert (M : (-300 < mag radix2 x)%Z) by (apply mag_gt_bpow; rewrite Rabs_pos_eq; lra).
  assert (C : (-352 <= cexp radix2 fexp64 x)%Z) by (unfold cexp, SpecFloat.fexp, SpecFloat.emin, prec, emax; lia).
  exists (Ztrunc (scaled_mantissa radix2 fexp64 x) * 2 ^ (cexp radix2 fexp64 x + 352))%Z.
  rewrite mult_IZR, (IZR_Zpower radix2) by lia; rewrite Rmult_assoc, <- bpow_plus.
  replace (cexp radix2 fexp64 x + 352 + -352)%Z with (cexp radix2 fexp64 x) by ring; exact Hx.
Qed.
Lemma far_diff x y : isfloat x -> isfloat y -> B (-300) <= x -> B (-300) <= y -> far (-352) (x - y).
Proof.
  intros Hx Hy Bx By; destruct (grid x Hx Bx) as [z ->], (grid y Hy By) as [w ->].
  pose proof (bpow_gt_0 radix2 (-352)) as P; rewrite <- Rmult_minus_distr_r, <- minus_IZR.
  destruct (Z.eq_dec (z - w) 0) as [->|Hn]; [left; ring|right].
  rewrite Rabs_mult, (Rabs_pos_eq (B (-352))), <- abs_IZR by lra; rewrite <- (Rmult_1_l (B (-352))) at 1.
  apply Rmult_le_compat_r; [lra|apply IZR_le; lia].
Qed.
Lemma far_mult a b r s : (-1074 <= a)%Z -> far a r -> far b s -> far (a + b) (r * s).
Proof.
  intros Ha [->|Hr] [->|Hs]; [left; ring|left; ring|left; ring|right].
  rewrite Rabs_mult, bpow_plus; apply Rmult_le_compat; auto; apply bpow_ge_0.
Qed.
Lemma count_val n : (1 <= n)%nat -> exact_count n -> is_finite (f_of_nat n) = true /\ B2R (f_of_nat n) = INR n /\ 1 <= INR n <= B 53.
Proof.
  intros H1 Hn; unfold exact_count in Hn; destruct (f_of_Z_exact (Z.of_nat n)) as [F V]; [lia|].
  split; [exact F|]; split; [unfold f_of_nat; rewrite V, <- INR_IZR_INZ; auto|].
  split; [apply (le_INR 1); auto|]; rewrite INR_IZR_INZ; change (B 53) with (IZR (2 ^ 53)); apply IZR_le; auto.
Qed.
Lemma far_div n d : 1 <= n <= B 53 -> far (-352) d -> far (-405) (d / n) /\ Rabs (d / n) <= Rabs d.
Proof.
  intros Hn Hd; assert (Hi : 0 < / n <= 1) by (split; [apply Rinv_0_lt_compat; lra|rewrite <- Rinv_1; apply Rinv_le; lra]).
  assert (Hj : B (-53) <= / n) by (change (-53)%Z with (- (53))%Z; rewrite bpow_opp; apply Rinv_le; lra).
  unfold Rdiv; split.
  - apply (far_mult (-352) (-53)); auto; [lia|]; right; rewrite Rabs_pos_eq; lra.
  - rewrite Rabs_mult, (Rabs_pos_eq (/ n)) by lra; pose proof (Rabs_pos d); nra.
Qed.
Lemma cap c : (0 <= c <= 2 ^ 53)%Z -> isfloat (IZR c * B 800) /\ IZR c * B 800 <= B 1023.
Proof.
  intros Hc; split; [apply isfloat_scale; [apply isfloat_IZR; lia|lia]|].
  apply Rle_trans with (B 53 * B 800); [|rewrite <- bpow_plus; apply bpow_le; lia].
  apply Rmult_le_compat_r; [apply bpow_ge_0|]; change (B 53) with (IZR (2 ^ 53)); apply IZR_le; lia.
Qed.

(** ** One sample more *)
Definition fine_sum (n : nat) (v : f64) : Prop :=
  is_finite v = true /\ Bsign v = false /\ far (-704) (B2R v) /\ 0 <= B2R v <= INR n * B 800.
Lemma one_side a x n v : fair a -> fair x -> (1 <= n)%nat -> exact_count (S n) -> fine_sum n v ->
  let c := f_of_nat (S n) in let d := fsub x a in let q := fdiv d c in let a1 := fadd a q in let e := fsub x a1 in let m := fmul d e in
  okr d (B2R x - B2R a) /\ okr q (B2R d / INR (S n)) /\ okr a1 (B2R a + B2R q) /\ okr e (B2R x - B2R a1) /\ okr m (B2R d * B2R e) /\
  okr (fadd v m) (B2R v + B2R m) /\ fair a1 /\ fine_sum (S n) (fadd v m).
Proof.
  intros (Fa & La & Ua) (Fx & Lx & Ux) Hn Hc (Fv & Sv & Lv & Bv) c d q a1 e m.
  destruct (count_val (S n) ltac:(lia) Hc) as (Fc & Vc & Bc).
  assert (H2 : 2 <= INR (S n)) by (apply (le_INR 2); lia).
  pose proof (bpow_gt_0 radix2 (-300)) as P3; pose proof (bpow_gt_0 radix2 400) as P4.
  assert (Hb : B 400 <= bnd) by (apply bpow_le; lia).
  assert (H10 : B 400 + B 400 <= B 1023).
  { replace (B 400 + B 400) with (B 401) by (change 401%Z with (1 + 400)%Z; rewrite bpow_plus; change (B 1) with 2; ring). apply bpow_le; lia. }
  destruct (avg_step a x c Fa Fx) as (Fd & Fa1 & Up & Dn);
    [rewrite Rabs_pos_eq; lra|rewrite Rabs_pos_eq; lra|exact Fc|unfold c; rewrite Vc; exact H2|].
  fold d in Fd, Up, Dn; fold q in Fa1, Up, Dn; fold a1 in Fa1, Up, Dn.
  assert (Ba1 : B (-300) <= B2R a1 <= B 400).
  { destruct (Rle_lt_dec (B2R a) (B2R x)) as [H|H]; [destruct (Up H)|destruct (Dn (Rlt_le _ _ H))]; lra. }
  assert (Od : okr d (B2R x - B2R a)).
  { split; [apply fsub_correct; auto|]; split; [apply Rabs_le; lra|].
    apply (far_le (-352)); [lia|]; apply far_diff; auto using B2R_isfloat. }
  destruct (okr_val _ _ Od) as [_ Vd].
  assert (Ld : far (-352) (B2R d)) by (rewrite Vd; apply far_rnd; [lia|]; apply far_diff; auto using B2R_isfloat).
  assert (Ud : Rabs (B2R d) <= B 400).
  { rewrite Vd; apply Rabs_le; split; [rewrite <- (Ropp_involutive (B2R x - B2R a)), rnd_opp; apply Ropp_le_contravar|];
    apply rnd_le_float; try (apply isfloat_bpow; lia); lra. }
  destruct (far_div (INR (S n)) (B2R d) Bc Ld) as [Lq Uq].
  assert (Oq : okr q (B2R d / INR (S n))).
  { unfold q; split; [rewrite <- Vc; apply fdiv_correct; auto; rewrite Vc; lra|]; split; [lra|].
    apply (far_le (-405)); [lia|auto]. }
  destruct (okr_val _ _ Oq) as [Fq Vq].
  assert (Uq' : Rabs (B2R q) <= B 400).
  { rewrite Vq.
    assert (U : Rabs (B2R d / INR (S n)) <= B 400) by lra; apply Rabs_le_inv in U; apply Rabs_le; split.
    - rewrite <- (Ropp_involutive (B2R d / INR (S n))), rnd_opp; apply Ropp_le_contravar, rnd_le_float; [apply isfloat_bpow; lia|lra].
    - apply rnd_le_float; [apply isfloat_bpow; lia|lra]. }
  assert (Oa : okr a1 (B2R a + B2R q)).
  { assert (Hr : Rabs (B2R a + B2R q) <= B 1023) by (apply Rabs_le_inv in Uq'; apply Rabs_le; lra).
    split; [apply fadd_correct; auto|]; split; [exact Hr|].
    destruct (in_range a1 (B2R a + B2R q)) as [_ Va]; [apply fadd_correct; auto|exact Hr|].
    destruct (Rle_lt_dec (B (-900)) (B2R a + B2R q)) as [H|H]; [right; rewrite Rabs_pos_eq; auto; pose proof (bpow_gt_0 radix2 (-900)); lra|exfalso].
    assert (B2R a1 <= B (-900)) by (rewrite Va; apply rnd_le_float; [apply isfloat_bpow; lia|lra]).
    assert (B (-900) < B (-300)) by (apply bpow_lt; lia); lra. }
  assert (Oe : okr e (B2R x - B2R a1)).
  { split; [apply fsub_correct; auto|]; split; [apply Rabs_le; lra|].
    apply (far_le (-352)); [lia|]; apply far_diff; auto using B2R_isfloat; lra. }
  destruct (okr_val _ _ Oe) as [Fe Ve].
  assert (Le : far (-352) (B2R e)) by (rewrite Ve; apply far_rnd; [lia|]; apply far_diff; auto using B2R_isfloat; lra).
  assert (Ue : Rabs (B2R e) <= B 400).
  { rewrite Ve; apply Rabs_le; split; [rewrite <- (Ropp_involutive (B2R x - B2R a1)), rnd_opp; apply Ropp_le_contravar|];
    apply rnd_le_float; try (apply isfloat_bpow; lia); lra. }
  assert (Sm : 0 <= B2R d * B2R e).
  { rewrite Ve; destruct (Rle_lt_dec (B2R a) (B2R x)) as [H|H].
    - destruct (Up H); apply Rmult_le_pos; [lra|apply rnd_pos; lra].
    - destruct (Dn (Rlt_le _ _ H)); assert (rnd (B2R x - B2R a1) <= 0) by (apply rnd_neg; lra); nra. }
  assert (Lm : far (-704) (B2R d * B2R e)) by (apply (far_mult (-352) (-352)); auto; lia).
  assert (Um : Rabs (B2R d * B2R e) <= B 800).
  { rewrite Rabs_mult; change 800%Z with (400 + 400)%Z; rewrite bpow_plus; apply Rmult_le_compat; auto; apply Rabs_pos. }
  assert (Om : okr m (B2R d * B2R e)).
  { split; [apply fmul_correct; auto|]; split; [eapply Rle_trans; [exact Um|apply bpow_le; lia]|]; apply (far_le (-704)); [lia|auto]. }
  destruct (okr_val _ _ Om) as [Fm Vm].
  assert (Lm' : far (-704) (B2R m)) by (rewrite Vm; apply far_rnd; [lia|auto]).
  rewrite Rabs_pos_eq in Um by auto.
  assert (Bm : 0 <= B2R m <= B 800) by (rewrite Vm; split; [apply rnd_pos; auto|apply rnd_le_float; [apply isfloat_bpow; lia|auto]]).
  unfold exact_count in Hc; destruct (cap (Z.of_nat (S n)) ltac:(lia)) as [Cf Cb]; rewrite <- INR_IZR_INZ in Cf, Cb.
  assert (Ls : far (-704) (B2R v + B2R m)).
  { destruct Lv as [Z|Lv]; [rewrite Z, Rplus_0_l; auto|right]; rewrite Rabs_pos_eq in Lv by lra; rewrite Rabs_pos_eq; lra. }
  assert (Us : 0 <= B2R v + B2R m <= INR (S n) * B 800) by (rewrite S_INR; lra).
  assert (Os : okr (fadd v m) (B2R v + B2R m)).
  { split; [apply fadd_correct; auto|]; split; [rewrite Rabs_pos_eq; lra|]; apply (far_le (-704)); [lia|auto]. }
  destruct (okr_val _ _ Os) as [Fs Vs].
  repeat (split; [assumption|]); split; [split; [exact Fa1|exact Ba1]|]; split; [exact Fs|]; split; [|split].
  - unfold fadd in *; pose proof (Bplus_correct prec emax Hprec Hprec_emax mode_NE v m Fv Fm) as C.
    rewrite Rlt_bool_true in C.
    + destruct C as (_ & _ & ->); rewrite Sv; cbn [andb]; destruct (Rcompare_spec (B2R v + B2R m) 0); auto; lra.
    + change (Rabs (rnd (B2R v + B2R m)) < B emax); rewrite <- Vs; apply abs_B2R_lt_emax.
  - rewrite Vs; apply far_rnd; [lia|auto].
  - rewrite Vs; split; [apply rnd_pos; lra|apply rnd_le_float; [auto|lra]].
Qed.

(** ** All samples *)
Definition fair_pair (k : Z) (x y : f64) : Prop := fair x /\ fair y /\ times_power k x y.
Record both (k : Z) (n : nat) (s t : stats f64) : Prop := mkBoth {
  bo_n : s_count s = n; bo_n' : s_count t = n;
  bo_amn : s_arg_min t = s_arg_min s; bo_amx : s_arg_max t = s_arg_max s;
  bo_mn : fair_pair k (s_min s) (s_min t); bo_mx : fair_pair k (s_max s) (s_max t);
  bo_avg : fair_pair k (s_avg s) (s_avg t);
  bo_ss : fine_sum n (s_sum_squared s); bo_ss' : fine_sum n (s_sum_squared t);
  bo_sc : sc (2 * k) (s_sum_squared s) (s_sum_squared t) }.
Lemma two_power k : B (2 * k) = B k * B k.
Proof. rewrite <- bpow_plus; f_equal; ring. Qed.
Lemma flt_pair k x y x' y' : fair_pair k x y -> fair_pair k x' y' -> flt y y' = flt x x'.
Proof.
  intros ((Fx & _) & (Fy & _) & E) ((Fx' & _) & (Fy' & _) & E'); unfold flt, times_power in *; rewrite !Bltb_correct by auto.
  pose proof (bpow_gt_0 radix2 k) as P; rewrite E, E'; destruct (Rlt_bool_spec (B2R x) (B2R x')) as [L|L].
  - apply Rlt_bool_true, Rmult_lt_compat_r; auto.
  - apply Rlt_bool_false, Rmult_le_compat_r; lra.
Qed.
Lemma both_record k n s t x y : (1 <= n)%nat -> exact_count (S n) -> both k n s t -> fair_pair k x y ->
  both k (S n) (record f64ops s x) (record f64ops t y).
Proof.
  intros Hn Hc [N N' A A' Mn Mx Av Ss Ss' Sc] Hxy.
  pose proof (flt_pair k _ _ _ _ Hxy Mn) as E1; pose proof (flt_pair k _ _ _ _ Mx Hxy) as E2.
  unfold record; rewrite N, N'; destruct (Nat.eqb_spec n 0) as [Z|_]; [lia|]; cbn [negb].
  cbn [n_ltb n_sub n_add n_div n_mul n_of_nat f64ops]; rewrite E1, E2; replace (n + 1)%nat with (S n) by lia.
  destruct Hxy as (Fx & Fy & Exy), Av as (Fa & Fb & Eab).
  destruct (one_side (s_avg s) x n (s_sum_squared s) Fa Fx Hn Hc Ss) as (O1 & O2 & O3 & O4 & O5 & O6 & G & V).
  destruct (one_side (s_avg t) y n (s_sum_squared t) Fb Fy Hn Hc Ss') as (O1' & O2' & O3' & O4' & O5' & O6' & G' & V').
  unfold times_power in Exy, Eab.
  destruct (okr_sc k _ _ _ _ O1 O1') as (_ & _ & D1); [rewrite Exy, Eab; ring|].
  destruct (okr_sc k _ _ _ _ O2 O2') as (_ & _ & D2); [rewrite D1; unfold Rdiv; ring|].
  destruct (okr_sc k _ _ _ _ O3 O3') as (_ & _ & D3); [rewrite D2, Eab; ring|].
  destruct (okr_sc k _ _ _ _ O4 O4') as (_ & _ & D4); [rewrite D3, Exy; ring|].
  destruct (okr_sc (2 * k) _ _ _ _ O5 O5') as (_ & _ & D5); [rewrite D1, D4, two_power; ring|].
  pose proof (okr_sc (2 * k) _ _ _ _ O6 O6') as D6.
  destruct (flt x (s_min s)), (flt (s_max s) x); constructor; cbn [s_count s_min s_max s_arg_min s_arg_max s_avg s_sum_squared]; auto;
    try (split; [assumption|split; [assumption|assumption]]);
    try (apply D6; destruct Sc as (_ & _ & Sc); rewrite Sc, D5; ring).
Qed.
Lemma fine_0 n : fine_sum n f0.
Proof.
  split; [reflexivity|]; split; [reflexivity|]; split; [left; reflexivity|].
  cbn [f0 B2R]; split; [apply Rle_refl|]; apply Rmult_le_pos; [apply pos_INR|apply bpow_ge_0].
Qed.
Lemma both_first k x y : fair_pair k x y -> both k 1 (mkStats 1 x 0 x 0 x f0) (mkStats 1 y 0 y 0 y f0).
Proof.
  intros H; constructor; cbn; auto; try apply fine_0.
  split; [reflexivity|]; split; [reflexivity|]; cbn; ring.
Qed.
Lemma both_iter k l l' : Forall2 (fair_pair k) l l' -> l <> [] -> exact_count (length l) ->
  both k (length l) (from_iter f64ops l) (from_iter f64ops l').
Proof.
  revert l'; induction l as [|x l IH] using rev_ind; intros l' H Hne Hc; [congruence|].
  apply Forall2_app_inv_l in H as (l1 & l2 & H1 & H2 & ->).
  inversion H2 as [|? y ? ? Hxy Hn]; subst; inversion Hn; subst.
  destruct l as [|z l]; [inversion H1; subst; cbn [app]; rewrite !from_iter_one; apply both_first; auto|].
  rewrite !from_iter_snoc, app_length, Nat.add_1_r in *; apply both_record; auto; [cbn; lia|].
  apply IH; auto; [discriminate|]; unfold exact_count in *; lia.
Qed.

(** ** Variance and deviation *)
Definition var_of (s : stats f64) : f64 := ps_var f64ops (mkPopulated s).
Definition std_of (s : stats f64) : f64 := ps_std f64ops (mkPopulated s).
Lemma both_var k n s t : (1 <= n)%nat -> exact_count n -> both k n s t ->
  sc (2 * k) (var_of s) (var_of t) /\ 0 <= B2R (var_of s) /\ 0 <= B2R (var_of t) /\
  far (-757) (B2R (var_of s)) /\ far (-757) (B2R (var_of t)) /\ Bsign (var_of s) = false /\ Bsign (var_of t) = false.
Proof.
  intros Hn Hc [N N' _ _ _ _ _ (F & S & L & Bd) (F' & S' & L' & Bd') Sc]; unfold var_of, ps_var; cbn [p_stats]; rewrite N, N'.
  destruct (Nat.ltb_spec 1 n) as [H|H].
  2:{ cbn [n_zero f64ops]; repeat split; cbn; try ring; try apply Rle_refl; left; reflexivity. }
  cbn [n_div n_of_nat f64ops]; set (c := f_of_nat (n - 1)); unfold exact_count in Hc.
  destruct (count_val (n - 1) ltac:(lia)) as (Fc & Vc & Bc); [unfold exact_count; lia|]; fold c in Fc, Vc.
  assert (Hi : 0 < / INR (n - 1) <= 1) by (split; [apply Rinv_0_lt_compat; lra|rewrite <- Rinv_1; apply Rinv_le; lra]).
  assert (Hj : B (-53) <= / INR (n - 1)) by (change (-53)%Z with (- (53))%Z; rewrite bpow_opp; apply Rinv_le; lra).
  destruct (cap (Z.of_nat n) ltac:(lia)) as [_ Cb]; rewrite <- INR_IZR_INZ in Cb.
  assert (G : forall v, is_finite v = true -> Bsign v = false -> far (-704) (B2R v) -> 0 <= B2R v <= INR n * B 800 ->
     okr (fdiv v c) (B2R v / INR (n - 1)) /\ 0 <= B2R (fdiv v c) /\ far (-757) (B2R (fdiv v c)) /\ Bsign (fdiv v c) = false).
  { intros v Fv Sv Lv Bv.
    assert (Lq : far (-757) (B2R v / INR (n - 1))) by (apply (far_mult (-704) (-53)); auto; [lia|right; rewrite Rabs_pos_eq; lra]).
    assert (Pq : 0 <= B2R v / INR (n - 1)) by (apply Rmult_le_pos; lra).
    assert (O : okr (fdiv v c) (B2R v / INR (n - 1))).
    { split; [rewrite <- Vc; apply fdiv_correct; auto; rewrite Vc; lra|]; split; [|apply (far_le (-757)); [lia|auto]].
      rewrite Rabs_pos_eq by auto; unfold Rdiv; nra. }
    destruct (okr_val _ _ O) as [Fq Vq]; split; [exact O|].
    split; [rewrite Vq; apply rnd_pos; auto|]; split; [rewrite Vq; apply far_rnd; [lia|auto]|].
    unfold fdiv in *; pose proof (Bdiv_correct prec emax Hprec Hprec_emax mode_NE v c ltac:(rewrite Vc; lra)) as C.
    rewrite Rlt_bool_true in C.
    - destruct C as (_ & _ & Sg); assert (Sc' : Bsign c = false) by (destruct (Bsign c) eqn:Q; [apply Bsign_neg in Q; lra|auto]).
      rewrite Sg, Sv, Sc'; [reflexivity|]; destruct (Bdiv mode_NE v c); auto; discriminate.
    - change (Rabs (rnd (B2R v / B2R c)) < B emax); rewrite Vc, <- Vq; apply abs_B2R_lt_emax. }
  destruct (G _ F S L Bd) as (O & P & Fr & Sg), (G _ F' S' L' Bd') as (O' & P' & Fr' & Sg').
  repeat (split; [try assumption|]); auto; try (apply (okr_sc (2 * k) _ _ _ _ O O'); destruct Sc as (_ & _ & ->); unfold Rdiv; ring).
Qed.
Lemma far_sqrt v : 0 <= v -> far (-757) v -> v = 0 \/ B (-379) <= sqrt v.
Proof.
  intros H [->|L]; [left; auto|right]; rewrite Rabs_pos_eq in L by auto.
  rewrite <- (sqrt_Rsqr (B (-379))) by apply bpow_ge_0; apply sqrt_le_1; [apply Rle_0_sqr|auto|].
  unfold Rsqr; rewrite <- bpow_plus; eapply Rle_trans; [|exact L]; apply bpow_le; lia.
Qed.
Lemma both_std k n s t : (1 <= n)%nat -> exact_count n -> both k n s t ->
  sc k (std_of s) (std_of t) /\ 0 <= B2R (std_of s) /\ 0 <= B2R (std_of t) /\ Bsign (std_of s) = false /\ Bsign (std_of t) = false.
Proof.
  intros Hn Hc H; destruct (both_var k n s t Hn Hc H) as ((F & F' & E) & P & P' & L & L' & S & S').
  unfold std_of, ps_std; fold (var_of s) (var_of t); cbn [n_sqrt f64ops].
  assert (G : forall v, is_finite v = true -> 0 <= B2R v -> Bsign v = false -> Bsign (fsqrt v) = false).
  { intros v Fv Pv Sv; destruct (fsqrt_val v Fv Pv) as [Fq _]; unfold fsqrt in *.
    destruct (Bsqrt_correct prec emax _ _ mode_NE v) as (_ & _ & Hs); rewrite Hs; auto; destruct (Bsqrt mode_NE v); auto; discriminate. }
  destruct (fsqrt_val _ F P) as [Fq Vq], (fsqrt_val _ F' P') as [Fq' Vq'].
  split; [split; [auto|split; [auto|]]|].
  - rewrite Vq, Vq', E, two_power, sqrt_mult by (auto; apply Rle_0_sqr || (apply Rmult_le_pos; apply bpow_ge_0)).
    rewrite sqrt_square by apply bpow_ge_0.
    assert (ES : sqrt (B2R (var_of t)) = sqrt (B2R (var_of s)) * B k).
    { rewrite E, two_power, sqrt_mult, sqrt_square; auto; [apply bpow_ge_0|apply Rmult_le_pos; apply bpow_ge_0]. }
    assert (B (-900) <= B (-379)) by (apply bpow_le; lia).
    apply rnd_times; rewrite <- ES.
    destruct (far_sqrt _ P L) as [Z|Q]; [left; rewrite Z, sqrt_0; auto|].
    destruct (far_sqrt _ P' L') as [Z|Q']; [|right; lra].
    left; rewrite E in Z; apply Rmult_integral in Z as [Z|Z]; [rewrite Z, sqrt_0; auto|pose proof (bpow_gt_0 radix2 (2 * k)); lra].
  - split; [rewrite Vq; apply rnd_pos, sqrt_pos|]; split; [rewrite Vq'; apply rnd_pos, sqrt_pos|]; auto.
Qed.

Lemma units_stats k l l' : Forall2 (fair_pair k) l l' -> exact_count (length l) ->
  let s := from_iter f64ops l in let t := from_iter f64ops l' in
  st_count t = st_count s /\ st_arg_min t = st_arg_min s /\ st_arg_max t = st_arg_max s /\
  shown_times k (st_min s) (st_min t) /\ shown_times k (st_max s) (st_max t) /\ shown_times k (st_avg s) (st_avg t) /\
  shown_times (2 * k) (st_var f64ops s) (st_var f64ops t) /\ shown_times k (st_std f64ops s) (st_std f64ops t).
Proof.
  intros H Hc s t; destruct l as [|x l]; [inversion H; subst; cbn; tauto|].
  assert (Hb : both k (length (x :: l)) s t) by (apply both_iter; auto; discriminate).
  destruct (both_var k (length (x :: l)) s t ltac:(cbn; lia) Hc Hb) as (Vr & _), (both_std k (length (x :: l)) s t ltac:(cbn; lia) Hc Hb) as (Sd & _).
  destruct Hb as [N N' A A' Mn Mx Av _ _ _]; cbn [length] in N, N'.
  assert (EV : forall w, s_count w = S (length l) -> st_var f64ops w = Some (var_of w)).
  { intros w Hw; unfold st_var, var_of, ps_var; cbn [p_stats]; rewrite Hw; destruct (length l); reflexivity. }
  assert (ES : forall w, s_count w = S (length l) -> st_std f64ops w = Some (std_of w)).
  { intros w Hw; unfold st_std; rewrite EV by auto; reflexivity. }
  rewrite !EV, !ES by auto; unfold st_count, st_arg_min, st_arg_max, st_min, st_max, st_avg; rewrite N, N', A, A'.
  destruct Mn as ([? _] & [? _] & ?), Mx as ([? _] & [? _] & ?), Av as ([? _] & [? _] & ?).
  destruct Vr as (? & ? & ?), Sd as (? & ? & ?); cbn [shown_times]; unfold times_power in *; repeat split; auto.
Qed.
