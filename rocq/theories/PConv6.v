(** * PConv6: adaptive OneMax runs from a diverse start find the optimum (C96). *)
From Coq Require Import List Bool Arith NArith ZArith Reals Lia Lra Permutation.
From Flocq Require Import Core BinarySingleNaN.
From Verif Require Import Rnd LRnd Prob LProb F64 LF64 MStats MOperators MCrossover MMutation MPopulation MSelection MModel MAlgorithms MOneMax
  Spec SpecF SpecA SpecH SpecK SpecR SpecL PStats PStats2 POperatorsRandom PMutationProb PSelection PSelection2 PLinear PPopulation PModel PAlgorithms PRun PRun3 PRun4 PRun5 PKeep
  PInterp POneMax POneMax2 PHist PReach PReach2 PReach3 PConv PConv2 PConv3 PConv4 PConv5.
Import ListNotations.
Local Open Scope nat_scope.

Lemma sumR_nonneg l : (forall x, In x l -> (0 <= x)%R) -> (0 <= sumR l)%R.
Proof. induction l as [|x t IH]; intros H; cbn [sumR]; [lra|]; pose proof (H x (or_introl eq_refl)); assert (0 <= sumR t)%R by (apply IH; intros; apply H; right; auto); lra. Qed.

Lemma sumR_two (f : f64 -> R) l x y : (forall z, (0 <= f z)%R) -> In x l -> In y l -> x <> y -> (f x + f y <= sumR (map f l))%R.
Proof.
  intros Hf; assert (One : forall t z, In z t -> (f z <= sumR (map f t))%R).
  { induction t as [|h t IH]; intros z Hz; [destruct Hz|]; cbn [map sumR].
    assert (0 <= sumR (map f t))%R by (apply sumR_nonneg; intros w Hw; apply in_map_iff in Hw as (v & <- & _); auto).
    pose proof (Hf h); destruct Hz as [<-|Hz]; [lra|]; specialize (IH z Hz); lra. }
  induction l as [|h t IH]; intros Hx Hy Hxy; [destruct Hx|]; cbn [map sumR].
  destruct Hx as [<-|Hx], Hy as [<-|Hy]; [congruence| | |].
  - pose proof (One t y Hy); lra.
  - pose proof (One t x Hx); lra.
  - pose proof (IH Hx Hy Hxy); pose proof (Hf h); lra.
Qed.

(** Two samples in [0, 1] far enough apart make the float deviation positive. *)
Lemma deviation_positive (l : list f64) (x y : f64) (k : nat) :
  (forall z, In z l -> is_finite z = true /\ (0 <= B2R z <= 1)%R) -> In x l -> In y l -> 1 <= k ->
  (/ (2 * INR k) <= B2R x - B2R y)%R -> (INR k * INR (length l) <= bpow radix2 20)%R ->
  let d := ps_std f64ops (mkPopulated (from_iter f64ops l)) in is_finite d = true /\ flt f0 d = true.
Proof.
  intros Hl Hx Hy Hk Hgap Hsz.
  assert (Hk1 : (1 <= INR k)%R) by (apply (le_INR 1); auto).
  assert (Hxy : x <> y).
  { intros ->; assert (0 < / (2 * INR k))%R by (apply Rinv_0_lt_compat; lra); lra. }
  assert (Hlen : 2 <= length l).
  { destruct l as [|a [|b t]]; [destruct Hx| |cbn; lia]. destruct Hx as [<-|[]], Hy as [<-|[]]; congruence. }
  set (n := INR (length l)) in *.
  assert (Hn2 : (2 <= n)%R) by (apply (le_INR 2); auto).
  assert (Hn20 : (n <= bpow radix2 20)%R).
  { apply Rle_trans with (INR k * n)%R; [|exact Hsz]; rewrite <- (Rmult_1_l n) at 1; apply Rmult_le_compat_r; lra. }
  assert (HZ : (Z.of_nat (length l) <= 2 ^ 20)%Z).
  { unfold n in Hn20; rewrite INR_IZR_INZ in Hn20; change (bpow radix2 20) with (IZR (2 ^ 20)) in Hn20; apply le_IZR in Hn20; exact Hn20. }
  destruct (var_accuracy l 1) as (var & Ev & Fv & Hv); auto; try lia.
  { change 1%R with (bpow radix2 0); apply bpow_le; lia. }
  { intros z Hz; destruct (Hl z Hz) as [F B]; split; auto; rewrite Rabs_pos_eq; lra. }
  fold n in Hv; set (m := (sumR (map B2R l) / n)%R) in *.
  pose proof (sumR_two (fun z => ((B2R z - m) * (B2R z - m))%R) l x y (fun z => Rle_0_sqr (B2R z - m)) Hx Hy Hxy) as Hss.
  set (g := (/ (2 * INR k))%R) in *; assert (Hg : (0 < g)%R) by (apply Rinv_0_lt_compat; lra).
  cbv beta in Hss; change (map (fun z : f64 => ((B2R z - m) * (B2R z - m))%R) l) with (map (fun z : binary_float prec emax => ((B2R z - m) * (B2R z - m))%R) l) in Hss.
  set (ss := sumR (map (fun z => ((B2R z - m) * (B2R z - m))%R) l)) in *.
  assert (Hssg : (g * g / 2 <= ss)%R).
  { set (u := (B2R x - m)%R) in *; set (v := (B2R y - m)%R) in *.
    assert (g <= u - v)%R by (unfold u, v; lra).
    assert (g * g <= (u - v) * (u - v))%R by (apply Rmult_le_compat; lra).
    assert (0 <= (u + v) * (u + v))%R by apply Rle_0_sqr.
    replace (u * u + v * v)%R with (((u - v) * (u - v) + (u + v) * (u + v)) / 2)%R in Hss by field; lra. }
  (* the error is smaller *)
  assert (Hgk : (g * (2 * INR k) = 1)%R) by (unfold g; apply Rinv_l; lra).
  assert (Hin : (0 < / n)%R) by (apply Rinv_0_lt_compat; lra).
  assert (Hss2 : (g * g / 2 / n <= ss / (n - 1))%R).
  { apply Rle_trans with (ss / n)%R; [unfold Rdiv at 1 3; apply Rmult_le_compat_r; lra|].
    unfold Rdiv; apply Rmult_le_compat_l; [eapply Rle_trans; [|exact Hssg]; apply Rmult_le_pos; [apply Rmult_le_pos; lra|lra]|apply Rinv_le; lra]. }
  assert (Htiny : (bpow radix2 (-1075) <= bpow radix2 (-56))%R) by (apply bpow_le; lia).
  assert (E56 : (bpow radix2 (-53) = 8 * bpow radix2 (-56))%R) by (change (-53)%Z with (3 + -56)%Z; rewrite bpow_plus; reflexivity).
  assert (B56 : (0 < bpow radix2 (-56))%R) by apply bpow_gt_0.
  assert (Herr : (16 * (n + 4) * (bpow radix2 (-53) * (1 * 1) + bpow radix2 (-1075) * (1 + 1)) <= 640 * n * bpow radix2 (-56))%R).
  { apply Rle_trans with (16 * (n + 4) * (10 * bpow radix2 (-56)))%R.
    - apply Rmult_le_compat_l; lra.
    - replace (16 * (n + 4) * (10 * bpow radix2 (-56)))%R with ((160 * n + 640) * bpow radix2 (-56))%R by ring.
      apply Rmult_le_compat_r; lra. }
  assert (Hmain : (640 * n * bpow radix2 (-56) < g * g / 2 / n)%R).
  { assert (Hkn : (INR k * n * (INR k * n) <= bpow radix2 40)%R).
    { change 40%Z with (20 + 20)%Z; rewrite bpow_plus; apply Rmult_le_compat; auto; apply Rmult_le_pos; lra. }
    assert (Hm : (640 * (8 * (INR k * n * (INR k * n))) * bpow radix2 (-56) < 1)%R).
    { apply Rle_lt_trans with (640 * (8 * bpow radix2 40) * bpow radix2 (-56))%R.
      - apply Rmult_le_compat_r; [lra|]; apply Rmult_le_compat_l; [lra|]; apply Rmult_le_compat_l; [lra|exact Hkn].
      - replace (640 * (8 * bpow radix2 40) * bpow radix2 (-56))%R with (5120 * (bpow radix2 40 * bpow radix2 (-56)))%R by ring.
        rewrite <- bpow_plus; change (bpow radix2 (40 + -56)) with (/ 65536)%R; lra. }
    replace (g * g / 2 / n)%R with (/ (8 * (INR k * INR k) * n))%R by (unfold g; field; lra).
    assert (Hp : (0 < 8 * (INR k * INR k) * n)%R) by (apply Rmult_lt_0_compat; [apply Rmult_lt_0_compat; [lra|apply Rmult_lt_0_compat; lra]|lra]).
    apply Rmult_lt_reg_r with (8 * (INR k * INR k) * n)%R; auto; rewrite Rinv_l by lra.
    replace (640 * n * bpow radix2 (-56) * (8 * (INR k * INR k) * n))%R with (640 * (8 * (INR k * n * (INR k * n))) * bpow radix2 (-56))%R by ring; exact Hm. }
  apply Rabs_le_inv in Hv.
  assert (Hvp : (0 < B2R var)%R) by lra.
  assert (Ed : ps_std f64ops (mkPopulated (from_iter f64ops l)) = fsqrt var).
  { unfold ps_std, ps_var; cbn [p_stats n_sqrt f64ops]; f_equal.
    unfold st_var in Ev; rewrite from_iter_count in *; destruct (length l) as [|[|c]]; [lia|lia|]; injection Ev as <-; reflexivity. }
  cbv zeta; rewrite Ed; destruct (fsqrt_val var Fv ltac:(lra)) as [F V]; split; auto.
  apply flt_spec; split; [reflexivity|]; split; [apply finite_not_nan; auto|].
  rewrite (key_finite (fsqrt var)), V by auto; change (key f0) with 0%R.
  destruct (Rle_or_lt (B2R var) 1) as [H1|H1].
  - apply Rlt_le_trans with (B2R var); auto; apply rnd_ge_float; [apply B2R_isfloat|].
    rewrite <- (sqrt_square (B2R var)) at 1 by lra; apply sqrt_le_1_alt.
    rewrite <- (Rmult_1_r (B2R var)) at 3; apply Rmult_le_compat_l; lra.
  - apply Rlt_le_trans with 1%R; [lra|]; apply rnd_ge_float; [apply (isfloat_IZR 1); lia|].
    rewrite <- sqrt_1; apply sqrt_le_1_alt; lra.
Qed.

Section OneMaxAga.
Variable n : nat.
Hypothesis Hn : 1 <= n.
Context {PS : Type} (fexp : f64 -> f64) (q : aga_params).
Notation AGA := (aga_algorithm onemax_ops fexp onemax_model).
Hypothesis Hacc : aga_accepted q.
Hypothesis Hexp : aga_explores q.
Hypothesis Hone : (1 <= INR (aga_population_size q) * B2R (aga_elitism_rate q))%R.
Hypothesis Hst : (rank_based (aga_selection_strategy q) /\ robust_strategy (aga_selection_strategy q)) \/ aga_selection_strategy q = StRouletteWheel.

Lemma score_gap (x y : onemax) : (Z.of_nat n <= 2 ^ 52)%Z -> scored n x -> scored n y -> ones (genome y) < ones (genome x) ->
  (/ (2 * INR n) <= B2R (om_fitness x) - B2R (om_fitness y))%R.
Proof.
  intros H52 Hx Hy Hlt.
  assert (Hn1 : (1 <= INR n)%R) by (apply (le_INR 1); auto).
  destruct (scored_val n Hn ltac:(lia) x Hx) as (_ & Vx & _); destruct (scored_val n Hn ltac:(lia) y Hy) as (_ & Vy & _).
  assert (Hf : forall k, k <= n -> (0 <= INR k / INR n <= 1)%R).
  { intros k Hk; pose proof (pos_INR k); apply le_INR in Hk; split; [apply Rmult_le_pos; [auto|left; apply Rinv_0_lt_compat; lra]|].
    apply Rmult_le_reg_r with (INR n); [lra|]; unfold Rdiv; rewrite Rmult_assoc, Rinv_l; lra. }
  pose proof (ones_le (genome x)) as Lx; pose proof (ones_le (genome y)) as Ly; destruct Hx as [Ex _], Hy as [Ey _]; rewrite Ex in Lx; rewrite Ey in Ly.
  pose proof (rnd_half _ (Hf _ Lx)) as Ax; pose proof (rnd_half _ (Hf _ Ly)) as Ay; apply Rabs_le_inv in Ax; apply Rabs_le_inv in Ay.
  rewrite Vx, Vy.
  assert (Hd : (/ INR n <= INR (ones (genome x)) / INR n - INR (ones (genome y)) / INR n)%R).
  { apply Nat.le_succ_l, le_INR in Hlt; rewrite S_INR in Hlt.
    replace (INR (ones (genome x)) / INR n - INR (ones (genome y)) / INR n)%R with ((INR (ones (genome x)) - INR (ones (genome y))) * / INR n)%R by (field; lra).
    rewrite <- (Rmult_1_l (/ INR n)) at 1; apply Rmult_le_compat_r; [left; apply Rinv_0_lt_compat; lra|lra]. }
  assert (H53 : (bpow radix2 (-54) + bpow radix2 (-54) <= / (2 * INR n))%R).
  { replace (bpow radix2 (-54) + bpow radix2 (-54))%R with (/ (2 * bpow radix2 52))%R.
    - apply Rinv_le; [lra|]; apply Rmult_le_compat_l; [lra|]; rewrite INR_IZR_INZ; change (bpow radix2 52) with (IZR (2 ^ 52)); apply IZR_le; exact H52.
    - replace (bpow radix2 (-54) + bpow radix2 (-54))%R with (2 * bpow radix2 (-54))%R by ring.
      change 2%R with (bpow radix2 1); rewrite <- !bpow_plus; change (1 + -54)%Z with (- (1 + 52))%Z; rewrite bpow_opp; reflexivity. }
  rewrite Rinv_mult in *; lra.
Qed.

Lemma om_diverse init x y : (INR n * INR (length init) <= bpow radix2 20)%R -> (forall z, In z init -> length (genome z) = n) ->
  In x init -> In y init -> ones (genome y) < ones (genome x) ->
  must (initialize_population onemax_ops onemax_model tt init) (fun p => is_finite (deviation p) = true /\ flt f0 (deviation p) = true).
Proof.
  intros Hsz Hlen Hx Hy Hlt.
  assert (Hn1 : (1 <= INR n)%R) by (apply (le_INR 1); auto).
  assert (Hi1 : (1 <= INR (length init))%R) by (apply (le_INR 1); destruct init; [destruct Hx|cbn; lia]).
  assert (Hn20 : (Z.of_nat n <= 2 ^ 20)%Z).
  { assert (INR n <= bpow radix2 20)%R by (eapply Rle_trans; [|exact Hsz]; rewrite <- (Rmult_1_r (INR n)) at 1; apply Rmult_le_compat_l; lra).
    rewrite INR_IZR_INZ in H; change (bpow radix2 20) with (IZR (2 ^ 20)) in H; apply le_IZR in H; exact H. }
  assert (Hl20 : (Z.of_nat (length init) <= 2 ^ 20)%Z).
  { assert (INR (length init) <= bpow radix2 20)%R by (eapply Rle_trans; [|exact Hsz]; rewrite <- (Rmult_1_l (INR (length init))) at 1; apply Rmult_le_compat_r; lra).
    rewrite INR_IZR_INZ in H; change (bpow radix2 20) with (IZR (2 ^ 20)) in H; apply le_IZR in H; exact H. }
  assert (Hsc : forall z, In z init -> scored n (score (genome z)) /\ is_valid onemax_ops (score (genome z)) = true).
  { intros z Hz; assert (scored n (score (genome z))) by (apply score_scored; auto); split; auto; apply (scored_valid n Hn ltac:(lia)); auto. }
  unfold initialize_population.
  assert (Em : mapM (m_evaluate onemax_model tt) init = Ret (map (fun z => score (genome z)) init)).
  { clear; induction init as [|a t IH]; cbn [mapM map]; [reflexivity|]; rewrite IH; reflexivity. }
  rewrite Em; cbn [bind].
  assert (Ef : filter (is_valid onemax_ops) (map (fun z => score (genome z)) init) = map (fun z => score (genome z)) init).
  { clear Em Hx Hy Hsz Hi1 Hl20 Hlen; induction init as [|a t IH]; cbn [map filter]; [reflexivity|].
    rewrite (proj2 (Hsc a (or_introl eq_refl))); f_equal; apply IH; intros z Hz; apply Hsc; right; auto. }
  rewrite Ef.
  eapply must_mono; [|apply (new_must onemax_ops)]; [|destruct init; [destruct Hx|discriminate]].
  intros p ((_ & [M1 M2] & _ & M3 & M4 & _) & _); rewrite map_length in M3.
  assert (Hat : forall z, In z init -> exists z', In z' (individuals p) /\ genome z' = genome z /\ scored n z').
  { intros z Hz; destruct (M2 (score (genome z))) as [H|(w & Hw & E)]; [apply in_map_iff; exists z; auto| |].
    - exists (score (genome z)); split; auto; split; [reflexivity|apply Hsc; auto].
    - exists w; split; auto; cbn [onemax_ops ieq] in E; apply andb_true_iff in E as [E _]; apply genome_eqb_eq in E; split; [symmetry; exact E|].
      apply M1, in_map_iff in Hw as (v & <- & Hv); apply Hsc; auto. }
  destruct (Hat x Hx) as (x' & Ix & Gx & Sx); destruct (Hat y Hy) as (y' & Iy & Gy & Sy).
  unfold deviation; rewrite M4; unfold stats_of.
  apply (deviation_positive (map (fitness onemax_ops) (individuals p)) (om_fitness x') (om_fitness y') n).
  - intros v Hv; apply in_map_iff in Hv as (z & <- & Hz); apply M1, in_map_iff in Hz as (w & <- & Hw).
    destruct (scored_val n Hn ltac:(lia) _ (proj1 (Hsc w Hw))) as (F & _ & B); auto.
  - apply (in_map om_fitness); exact Ix.
  - apply (in_map om_fitness); exact Iy.
  - exact Hn.
  - apply score_gap; auto; [lia|congruence].
  - rewrite map_length; eapply Rle_trans; [|exact Hsz]; apply Rmult_le_compat_l; [lra|apply le_INR; exact M3].
Qed.

Lemma om_aga_conv g (s : aga_state onemax unit) init x y (ps : PS) :
  (Z.of_nat (length init) <= 2 ^ 20)%Z -> (INR n * INR (length init) <= bpow radix2 20)%R -> (forall z, In z init -> length (genome z) = n) ->
  In x init -> In y init -> ones (genome y) < ones (genome x) ->
  (1 - aga_generations (Nat.max (aga_population_size q) (length init)) q (n - 1) (/ INR n) / INR (S g) <=
   prob (evolve_population onemax_ops fexp onemax_model AGA (quiet (until all_ones)) (S g) s init q ps) (fun r => existsb all_ones (individuals (r_population r))))%R.
Proof.
  intros H20 Hsz Hlen Hx Hy Hlt.
  assert (Hn1 : (1 <= INR n)%R) by (apply (le_INR 1); auto).
  assert (Hi1 : (1 <= INR (length init))%R) by (apply (le_INR 1); destruct init; [destruct Hx|cbn; lia]).
  assert (Hn20 : (Z.of_nat n <= 2 ^ 20)%Z).
  { assert (INR n <= bpow radix2 20)%R by (eapply Rle_trans; [|exact Hsz]; rewrite <- (Rmult_1_r (INR n)) at 1; apply Rmult_le_compat_l; lra).
    rewrite INR_IZR_INZ in H; change (bpow radix2 20) with (IZR (2 ^ 20)) in H; apply le_IZR in H; exact H. }
  apply (aga_conv onemax_ops fexp onemax_model (has_length n) (scored n) all_ones om_level 1 n (/ INR n) q _ conv_sel); auto; try lia.
  - exact om_number.
  - exact om_equal.
  - apply om_total; auto; lia.
  - apply om_keeps.
  - intros ms p b ms' b' [= <- <-]; auto.
  - intros ms u z p; reflexivity.
  - apply om_ladder; auto; lia.
  - apply Rinv_0_lt_compat, lt_0_INR; lia.
  - destruct Hexp as (_ & _ & _ & _ & H); lia.
  - intros sel Hs; destruct Hst as [[A B]|E]; [left; split; [eapply rank_created; eauto|eapply created_safe; eauto]|].
    right; rewrite E in Hs; injection Hs as <-; eexists; reflexivity.
  - intros sel [[_ H]|[t ->]]; auto; left; exact Logic.I.
  - apply om_often; auto; lia.
  - split; [apply Forall_forall; auto|]; exists x; split; auto; cbn [onemax_model m_evaluate onemax_evaluate must].
    change (is_valid onemax_ops (score (genome x)) = true /\ 1 <= om_level (score (genome x))).
    split; [apply (scored_valid n); auto; [lia|apply score_scored; auto]|].
    change (1 <= ones (genome x)); lia.
  - right; split.
    + intros z Hz _; destruct (scored_val n Hn ltac:(lia) z Hz) as (F & _ & B); split; auto.
      cbn [onemax_ops fitness]; rewrite Rabs_pos_eq by apply B; apply Rle_trans with 1%R; [apply B|change 1%R with (bpow radix2 0); apply bpow_le; lia].
    + destruct (aga_model s); apply (om_diverse init x y); auto.
Qed.
End OneMaxAga.

(** ** Example *)
Definition c96_params : aga_params := mkAgaParams 100 (f_lit 1 100) (f_lit 3 10, f_lit 9 10) (f_lit 1 10, f1) StRouletteWheel 1.
Definition c96_init : list onemax := [onemax_from [true; false; false]; onemax_from [true; true; false]].
Lemma c96_example :
  aga_accepted c96_params /\ aga_explores c96_params /\
  (1 <= INR (aga_population_size c96_params) * B2R (aga_elitism_rate c96_params))%R /\
  (INR 3 * INR (length c96_init) <= bpow radix2 20)%R /\ (forall z, In z c96_init -> length (genome z) = 3) /\
  exists x y, In x c96_init /\ In y c96_init /\ count_ones (genome y) < count_ones (genome x).
Proof.
  assert (Hlt : forall x y, is_finite x = true -> is_finite y = true -> flt x y = true -> (B2R x < B2R y)%R).
  { intros x y Fx Fy H; apply flt_spec in H as (_ & _ & H); rewrite !key_finite in H; auto. }
  destruct default_explores as (A & B & _).
  split; [|split; [|split; [|split; [|split]]]].
  - split; [discriminate|]; split; [apply A|].
    split; [apply rate_lit; vm_compute; reflexivity|]; split; [apply rate_lit; vm_compute; reflexivity|].
    split; [apply rate_lit; vm_compute; reflexivity|]; split; [|exact Logic.I]; cbn [c96_params aga_mutation_rate_range snd]; split; [reflexivity|rewrite (proj2 f1_val); lra].
  - unfold aga_explores; cbn [c96_params aga_crossover_rate_range aga_mutation_rate_range aga_population_size aga_elitism_rate fst snd].
    split; [left; apply Hlt; vm_compute; reflexivity|]; split; [|split; [split|split; [apply B|vm_compute; discriminate]]].
    + assert (H : (B2R (f_lit 9 10) < B2R (f_lit 15 16))%R) by (apply Hlt; vm_compute; reflexivity).
      assert (E : B2R (f_lit 15 16) = (15 / 16)%R).
      { rewrite <- SF2R_B2SF; replace (B2SF (f_lit 15 16)) with (SpecFloat.S754_finite false 8444249301319680 (-53)) by (vm_compute; reflexivity).
        cbn [SF2R cond_Zopp]; unfold F2R; cbn [Fnum Fexp].
        change (bpow radix2 (-53)) with (/ 9007199254740992)%R; lra. }
      assert (bpow radix2 (-53) < / 16)%R by (change (/ 16)%R with (bpow radix2 (-4)); apply bpow_lt; lia).
      rewrite E in H; lra.
    + change 0%R with (B2R f0); apply Hlt; vm_compute; reflexivity.
    + left; apply Hlt; vm_compute; reflexivity.
  - exact one_percent.
  - change (bpow radix2 20) with 1048576%R; cbn; lra.
  - intros z [<-|[<-|[]]]; reflexivity.
  - exists (onemax_from [true; true; false]), (onemax_from [true; false; false]).
    split; [right; left; reflexivity|]; split; [left; reflexivity|cbn; lia].
Qed.
