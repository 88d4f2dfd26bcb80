(** * PSelection2: the roulette law, selector preparation, degenerate parameters,
    select_distinct and selector construction (C34-C36, C38-C40, C70). *)
From Coq Require Import List Bool Arith NArith ZArith Reals Lia Lra Permutation.
From Flocq Require Import Core BinarySingleNaN.
From Verif Require Import Rnd Prob LRnd LProb F64 LF64 MStats MPopulation MSelection SpecF PSelection.
Import ListNotations.

Local Arguments bpow : simpl never.

Lemma n53_Z : Z.of_nat (N.to_nat (2 ^ 53)) = (2 ^ 53)%Z.
Proof. rewrite N_nat_Z; reflexivity. Qed.
Lemma n53_INR : INR (N.to_nat (2 ^ 53)) = bpow radix2 53.
Proof. rewrite INR_IZR_INZ, n53_Z; reflexivity. Qed.

Lemma threshold (f : nat -> bool) n :
  (forall i j, i <= j -> j < n -> f j = true -> f i = true) ->
  exists k, k <= n /\ forall i, i < n -> f i = (i <? k).
Proof.
  induction n as [|n IH]; intros H; [exists 0; split; [lia|intros; lia]|].
  destruct IH as (k & Hk & Hf); [intros i j Hij Hj; apply (H i j); lia|].
  destruct (f n) eqn:E.
  - exists (S n); split; [lia|]; intros i Hi; rewrite (proj2 (Nat.ltb_lt _ _)) by lia.
    apply (H i n); auto; lia.
  - exists k; split; [lia|]; intros i Hi; destruct (Nat.eq_dec i n) as [->|]; [|apply Hf; lia].
    rewrite E; symmetry; apply Nat.ltb_ge; lia.
Qed.

Section Sel2.
Context {I : Type} (io : individual_ops I) (fexp : f64 -> f64).
Implicit Types (p : population I) (l : list I).

(** ** Roulette law *)
Definition weights_ok (w : I -> f64) l : Prop :=
  forall x, In x l -> is_finite (w x) = true /\ (0 <= B2R (w x))%R.

Lemma running_sum_mono w l i j : weights_ok w l -> i <= j -> j <= length l ->
  is_nan (running_sum w l i) = false /\ is_nan (running_sum w l j) = false /\
  (0 <= key (running_sum w l i) <= key (running_sum w l j))%R.
Proof.
  intros Hw Hij Hj.
  assert (Hstep : forall k x, nth_error l k = Some x -> is_nan (running_sum w l k) = false -> (0 <= key (running_sum w l k))%R ->
    is_nan (running_sum w l (S k)) = false /\ (key (running_sum w l k) <= key (running_sum w l (S k)))%R).
  { intros k x Hx Hn Hk; rewrite (running_sum_S w l k x Hx).
    destruct (Hw x (nth_error_In _ _ Hx)) as [Fw Hw0].
    destruct (is_finite (running_sum w l k)) eqn:F.
    - destruct (fadd_correct _ _ F Fw) as (N1 & K1 & _); split; auto; rewrite K1.
      rewrite (key_finite _ F).
      rewrite <- (ovf_small (B2R (running_sum w l k))) at 1 by apply B2R_bound.
      apply ovf_mono; apply rnd_ge_float; [apply B2R_isfloat|lra].
    - destruct (running_sum w l k) as [s|[|]| |s m e H']; cbn in *; try discriminate.
      + pose proof big_pos; lra.
      + destruct (w x) as [s|[|]| |s m e H']; cbn in *; try discriminate; split; auto; lra. }
  assert (H0 : forall k, k <= length l -> is_nan (running_sum w l k) = false /\ (0 <= key (running_sum w l k))%R).
  { induction k as [|k IH]; intros Hk; [cbn; split; [auto|lra]|].
    destruct IH as [A B]; [lia|]. destruct (nth_error_lt l k) as [x Hx]; [lia|].
    destruct (Hstep k x Hx A B); split; auto; lra. }
  destruct (H0 i) as [Ni Ki]; [lia|]. split; auto; split; [apply H0; auto|]; split; auto.
  induction Hij as [|j Hij IH]; [lra|].
  destruct (H0 j) as [Nj Kj]; [lia|]. destruct (nth_error_lt l j) as [x Hx]; [lia|].
  destruct (Hstep j x Hx Nj Kj); specialize (IH ltac:(lia)); lra.
Qed.

Lemma wheel_le w l target i j : weights_ok w l -> wheel_picks w l target j -> S i < length l ->
  (j <=? i) = fge (running_sum w l (S i)) target.
Proof.
  intros Hw (Hj & H1 & H2) Hi; destruct (Nat.leb_spec j i) as [H|H].
  - symmetry; destruct H2 as [H2|H2]; [|lia].
    apply fge_spec in H2 as (N1 & N2 & K).
    destruct (running_sum_mono w l (S j) (S i) Hw) as (A & B & C); [lia|lia|].
    apply fge_spec; repeat split; auto; lra.
  - symmetry; apply H1; auto.
Qed.

Lemma bpow53 : (bpow radix2 (-53) * bpow radix2 53 = 1)%R.
Proof. rewrite <- bpow_plus; reflexivity. Qed.

(** The share of the draws whose target is at most [c]. *)
Lemma target_count (c T : R) (Tf : f64) :
  is_finite Tf = true -> B2R Tf = T -> (bpow radix2 (-900) <= T)%R -> (0 <= c <= T)%R -> isfloat c ->
  exists k, k <= N.to_nat (2 ^ 53) /\
    (forall u, u < N.to_nat (2 ^ 53) -> Rle_bool (key (fmul (f_unit (N.of_nat u)) Tf)) c = (u <? k)) /\
    (0 <= INR k / bpow radix2 53 - c / T <= 3 * bpow radix2 (-53))%R.
Proof.
  intros FT HT HTb Hc Hcf.
  pose proof (bpow_gt_0 radix2 (-900)) as Hp; pose proof (bpow_gt_0 radix2 53) as H53; pose proof (bpow_gt_0 radix2 (-53)) as Hm53.
  pose proof bpow53 as Hb.
  assert (Hu : forall u, u < N.to_nat (2 ^ 53) -> key (fmul (f_unit (N.of_nat u)) Tf) = rnd (INR u * bpow radix2 (-53) * T)).
  { intros u Hlt; destruct (f_unit_val (N.of_nat u)) as [Fu Vu]; [lia|].
    assert (Hub : (0 <= INR u * bpow radix2 (-53) * T <= T)%R).
    { assert (0 <= INR u)%R by apply pos_INR.
      assert (INR u <= bpow radix2 53)%R by (rewrite <- n53_INR; apply le_INR; lia).
      assert (0 <= INR u * bpow radix2 (-53) <= 1)%R by (split; [nra|]; rewrite <- Hb, Rmult_comm; nra).
      nra. }
    destruct (fmul_correct _ _ Fu FT) as (_ & K & _); rewrite K, Vu, HT.
    assert (E : IZR (Z.of_N (N.of_nat u)) = INR u) by (rewrite nat_N_Z, INR_IZR_INZ; auto).
    rewrite E; apply ovf_small; split.
    - apply Rlt_le_trans with 0%R; [pose proof big_pos; lra|apply rnd_pos; lra].
    - apply Rle_lt_trans with (B2R Tf); [|apply B2R_bound].
      apply rnd_le_float; [apply B2R_isfloat|lra]. }
  destruct (threshold (fun u => Rle_bool (key (fmul (f_unit (N.of_nat u)) Tf)) c) (N.to_nat (2 ^ 53))) as (k & Hk & Hf).
  { intros i j Hij Hj; cbv beta; rewrite !Hu by lia; intros Hle.
    case (Rle_bool_spec (rnd (INR j * bpow radix2 (-53) * T)) c) as [H|H] in Hle; [|discriminate].
    apply Rle_bool_true; eapply Rle_trans; [|exact H]; apply rnd_mono.
    apply Rmult_le_compat_r; [lra|]; apply Rmult_le_compat_r; [lra|apply le_INR; auto]. }
  exists k; split; auto; split; auto.
  set (q := (c / T)%R).
  assert (Hq : (0 <= q <= 1)%R).
  { unfold q; split; [apply Rmult_le_pos; [lra|left; apply Rinv_0_lt_compat; lra]|].
    apply (Rmult_le_reg_r T); [lra|]; unfold Rdiv; rewrite Rmult_assoc, Rinv_l by lra; lra. }
  assert (HcT : (c = q * T)%R) by (unfold q; field; lra).
  assert (Hlow : (q * bpow radix2 53 <= INR k)%R).
  { destruct (Nat.eq_dec k (N.to_nat (2 ^ 53))) as [->|Hne]; [rewrite n53_INR; nra|].
    assert (Hk' : k < N.to_nat (2 ^ 53)) by lia.
    specialize (Hf k Hk'); cbv beta in Hf; rewrite Nat.ltb_irrefl, Hu in Hf by auto.
    case (Rle_bool_spec (rnd (INR k * bpow radix2 (-53) * T)) c) as [H|H] in Hf; [discriminate|].
    assert (Hx : (c < INR k * bpow radix2 (-53) * T)%R).
    { apply Rnot_le_lt; intros Hle; apply (rnd_le_float _ c) in Hle; auto; lra. }
    rewrite HcT in Hx; apply Rmult_lt_reg_r in Hx; [|lra].
    apply (Rmult_lt_compat_r (bpow radix2 53)) in Hx; auto; rewrite Rmult_assoc, Hb in Hx; lra. }
  assert (Hhigh : (INR k <= q * bpow radix2 53 + 3)%R).
  { destruct (Nat.le_gt_cases k 2) as [H2|H2].
    { apply le_INR in H2; change (INR 2) with 2%R in H2; nra. }
    assert (Hk' : k - 1 < N.to_nat (2 ^ 53)) by lia.
    pose proof (Hf (k - 1) Hk') as Hf1; cbv beta in Hf1.
    rewrite (proj2 (Nat.ltb_lt _ _)) in Hf1 by lia; rewrite Hu in Hf1 by auto.
    case (Rle_bool_spec (rnd (INR (k - 1) * bpow radix2 (-53) * T)) c) as [H|H] in Hf1; [|discriminate].
    set (x := (INR (k - 1) * bpow radix2 (-53) * T)%R) in *.
    assert (Hk1 : (1 <= INR (k - 1))%R) by (apply (le_INR 1); lia).
    assert (Hxl : (bpow radix2 (-1022) <= x)%R).
    { apply Rle_trans with (bpow radix2 (-53) * bpow radix2 (-900))%R; [rewrite <- bpow_plus; apply bpow_le; lia|].
      unfold x; apply Rmult_le_compat; nra. }
    pose proof (bpow_gt_0 radix2 (-1022)) as Hs.
    assert (He : (Rabs (rnd x - x) <= x * bpow radix2 (-53))%R).
    { rewrite <- (Rabs_pos_eq x) at 3 by lra; apply rnd_error; rewrite Rabs_pos_eq; lra. }
    apply Rabs_le_inv in He.
    assert (Hx : (x * (1 - bpow radix2 (-53)) <= q * T)%R) by lra.
    unfold x in Hx.
    assert (Hx2 : (INR (k - 1) * bpow radix2 (-53) * (1 - bpow radix2 (-53)) <= q)%R).
    { apply (Rmult_le_reg_r T); [lra|]; lra. }
    assert (Hk53 : (INR (k - 1) <= bpow radix2 53)%R) by (rewrite <- n53_INR; apply le_INR; lia).
    apply (Rmult_le_compat_r (bpow radix2 53)) in Hx2; [|lra].
    replace (INR (k - 1) * bpow radix2 (-53) * (1 - bpow radix2 (-53)) * bpow radix2 53)%R
      with (INR (k - 1) * (1 - bpow radix2 (-53)) * (bpow radix2 (-53) * bpow radix2 53))%R in Hx2 by ring.
    rewrite Hb, Rmult_1_r in Hx2.
    assert (INR (k - 1) * bpow radix2 (-53) <= 1)%R by (rewrite <- Hb, (Rmult_comm (bpow radix2 (-53))); apply Rmult_le_compat_r; lra).
    rewrite minus_INR in * by lia; change (INR 1) with 1%R in *; lra. }
  assert (HD : (INR k / bpow radix2 53 = INR k * bpow radix2 (-53))%R).
  { unfold Rdiv; f_equal; rewrite <- bpow_opp; reflexivity. }
  rewrite HD; split.
  - apply (Rmult_le_reg_r (bpow radix2 53)); auto; rewrite Rmult_0_l, Rmult_minus_distr_r, Rmult_assoc, Hb; lra.
  - apply (Rmult_le_reg_r (bpow radix2 53)); auto; rewrite Rmult_minus_distr_r, Rmult_assoc, Hb, Rmult_assoc, Hb; lra.
Qed.

Lemma wheel_prob w total l i :
  weights_ok w l -> is_finite total = true -> (bpow radix2 (-900) <= B2R total)%R ->
  S i < length l -> is_finite (running_sum w l (S i)) = true ->
  (B2R (running_sum w l (S i)) <= B2R total)%R ->
  (0 <= prob (u <- gen_f64 ;; wheel_select w total u l) (fun r => fst r <=? i)
        - B2R (running_sum w l (S i)) / B2R total <= 3 * bpow radix2 (-53))%R.
Proof.
  intros Hw FT HT Hi Fc Hc.
  destruct (running_sum_mono w l 0 (S i) Hw) as (_ & Nc & Hc0); [lia|lia|].
  rewrite (key_finite _ Fc) in Hc0.
  destruct (target_count (B2R (running_sum w l (S i))) (B2R total) total) as (k & Hk & Hf & Hb); auto.
  { split; [|auto]; destruct Hc0 as [H1 H2]; lra. }
  { apply B2R_isfloat. }
  assert (E : prob (u <- gen_f64 ;; wheel_select w total u l) (fun r => fst r <=? i) = (INR k / bpow radix2 53)%R).
  { rewrite prob_expect, expect_bind; unfold gen_f64; cbn [expect]; rewrite n53_INR; f_equal.
    rewrite <- (Rsum_count (N.to_nat (2 ^ 53)) k) by auto; apply Rsum_ext; intros u Hu.
    destruct (wheel_select_spec w total (f_unit (N.of_nat u)) l) as (j & x & -> & Hx & Hp); [destruct l; cbn in Hi; [lia|congruence]|].
    cbn [expect fst]; rewrite (wheel_le w l _ i j Hw Hp Hi), <- (Hf u Hu).
    destruct (f_unit_val (N.of_nat u)) as [Fu _]; [lia|].
    destruct (fmul_correct _ _ Fu FT) as (Nt & _).
    case (Rle_bool_spec (key (fmul (f_unit (N.of_nat u)) total)) (B2R (running_sum w l (S i)))) as [H|H].
    - replace (fge _ _) with true; auto; symmetry; apply fge_spec; repeat split; auto; rewrite (key_finite _ Fc); auto.
    - destruct (fge _ _) eqn:G; auto; apply fge_spec in G as (_ & _ & G); rewrite (key_finite _ Fc) in G; lra. }
  rewrite E; exact Hb.
Qed.

(** ** prepare *)
Lemma par_sum_split fuel (l : list f64) : must (par_sum fuel l) (split_sum l).
Proof.
  revert l; induction fuel as [|f IH]; intros l; cbn [par_sum must]; [apply ss_seq|].
  split; [lia|]; intros i Hi; destruct (i =? 0)%N; [apply ss_seq|].
  eapply must_bind_intro; [apply IH|]; intros a Ha.
  eapply must_bind_intro; [apply IH|]; intros b Hb; cbn.
  rewrite <- (firstn_skipn (N.to_nat i) l); apply ss_split; auto.
Qed.

Lemma prepare_roulette total p :
  must (prepare io fexp (RouletteWheel total) p)
    (fun s => exists v, s = RouletteWheel v /\ split_sum (map (fitness io) (individuals p)) v).
Proof.
  cbn [prepare]; eapply must_bind_intro; [apply par_sum_split|]; intros v Hv; exists v; auto.
Qed.

Lemma prepare_boltzmann t c total p :
  must (prepare io fexp (Boltzmann t c total) p)
    (fun s => exists v, s = Boltzmann (fmul t c) c v /\
       split_sum (map (fun x => fexp (fdiv (fitness io x) (fmul t c))) (individuals p)) v).
Proof.
  cbn [prepare]; eapply must_bind_intro; [apply par_sum_split|]; intros v Hv; exists v; auto.
Qed.

Lemma prepare_other s p :
  match s with Tournament _ | Rank | Elitist _ | Linear _ => prepare io fexp s p = Ret s | _ => True end.
Proof. destruct s; cbn; auto. Qed.

Lemma cooled_shift k t c : cooled k (fmul t c) c = fmul (cooled k t c) c.
Proof. induction k as [|k IH]; cbn; auto; rewrite IH; auto. Qed.

Lemma prepares_boltzmann ps : forall t c total,
  must (prepares io fexp (Boltzmann t c total) ps)
    (fun s => exists v, s = Boltzmann (cooled (length ps) t c) c v).
Proof.
  induction ps as [|p ps IH]; intros t c total; cbn [prepares length cooled].
  - cbn; eauto.
  - eapply must_bind_intro; [apply prepare_boltzmann|]; intros s (v & -> & _); cbv beta.
    eapply must_mono; [|apply IH]; intros s (v' & ->); exists v'; rewrite cooled_shift; auto.
Qed.

(** ** Cold Boltzmann *)
Lemma split_sum_inf (l : list f64) v : split_sum l v -> Forall (fun x => x = f_inf) l ->
  (l = [] /\ v = f0) \/ (l <> [] /\ v = f_inf).
Proof.
  induction 1 as [l|l1 l2 a b H1 IH1 H2 IH2]; intros HF.
  - destruct l as [|x l]; [auto|right; split; [congruence|]].
    assert (G : forall (l : list f64) acc, Forall (fun x => x = f_inf) l -> acc = f_inf -> fold_left fadd l acc = f_inf).
    { clear; induction l as [|y l IH]; intros acc HF ->; cbn [fold_left]; auto; inversion HF; subst; apply IH; auto. }
    inversion HF; subst; cbn [fold_left]; apply G; auto.
  - apply Forall_app in HF as [HF1 HF2].
    destruct (IH1 HF1) as [[-> ->]|[Hn1 ->]]; destruct (IH2 HF2) as [[-> ->]|[Hn2 ->]].
    + left; auto.
    + right; auto.
    + right; rewrite app_nil_r; auto.
    + right; split; auto; intros E; apply app_eq_nil in E; tauto.
Qed.

Lemma unit_pos_inf u : (0 < u < 2 ^ 53)%N -> fmul (f_unit u) f_inf = f_inf.
Proof.
  intros Hu; destruct (f_unit_val u) as [F V]; [lia|].
  assert (0 < B2R (f_unit u))%R by (rewrite V; apply Rmult_lt_0_compat; [apply IZR_lt; lia|apply bpow_gt_0]).
  destruct (f_unit u) as [s|s| |[|] m e H']; cbn in *; try discriminate; try lra; auto.
  exfalso; apply (Rlt_not_le _ _ H); apply F2R_le_0; cbn; lia.
Qed.

Lemma boltzmann_cold t c total p x0 rest :
  individuals p = x0 :: rest ->
  (forall x, In x (individuals p) -> fexp (fdiv (fitness io x) (fmul t c)) = f_inf) ->
  must (prepare io fexp (Boltzmann t c total) p) (fun s =>
    exists k, select io fexp s p = Draw (2 ^ 53) k /\
      forall u, (0 < u < 2 ^ 53)%N -> k u = Ret (0, x0)).
Proof.
  intros Hp Hinf; eapply must_mono; [|apply prepare_boltzmann]; intros s (v & -> & Hv); cbv beta.
  eexists; split; [reflexivity|]; intros u Hu; cbn [bind].
  apply split_sum_inf in Hv.
  2: { apply Forall_forall; intros y Hy; apply in_map_iff in Hy as (x & <- & Hx); auto. }
  rewrite Hp in Hv; destruct Hv as [[Hv _]|[_ ->]]; [discriminate|].
  unfold wheel_select; rewrite unit_pos_inf by auto; rewrite Hp; cbn [wheel].
  unfold scaled_fitness; rewrite Hinf by (rewrite Hp; left; auto); reflexivity.
Qed.

(** ** Linear with bias 1 *)
Lemma linear_offset_one n u : fits_usize n -> (u < 2 ^ 53)%N -> linear_offset n f1 (f_unit u) = 0.
Proof.
  intros Hn Hu; destruct (f_unit_val u Hu) as [Fu _]; destruct (f_of_nat_finite n Hn) as [Fn _].
  unfold linear_offset.
  replace (fmul (fmul f4 (fsub f1 f1)) (f_unit u)) with (B754_zero (Bsign (f_unit u)) : f64).
  2: { destruct (f_unit u) as [[|]|s| |[|] m e H']; cbn in Fu |- *; try discriminate; reflexivity. }
  set (b := Bsign (f_unit u)); clearbody b.
  replace (fsub f1 (fsqrt (fsub (fmul f1 f1) (B754_zero b)))) with f0 by (destruct b; vm_compute; reflexivity).
  replace (fsub f1 f1) with f0 by (vm_compute; reflexivity).
  destruct (f_of_nat n) as [[|]|s| |[|] m e H']; cbn in Fn; try discriminate; reflexivity.
Qed.

Lemma linear_one p : individuals p <> [] -> fits_usize (length (individuals p)) ->
  exists x k, nth_error (individuals p) (length (individuals p) - 1) = Some x /\
    select io fexp (Linear f1) p = Draw (2 ^ 53) k /\
    forall u, (u < 2 ^ 53)%N -> k u = Ret (length (individuals p) - 1, x).
Proof.
  intros Hp Hf.
  assert (Hn : 1 <= length (individuals p)) by (destruct (individuals p); cbn; [congruence|lia]).
  destruct (nth_error_lt (individuals p) (length (individuals p) - 1)) as [x Hx]; [lia|].
  exists x; eexists; split; auto; split; [reflexivity|]; intros u Hu; cbn [bind].
  rewrite linear_offset_one by auto; unfold massert; rewrite (proj2 (Nat.ltb_lt _ _)) by lia; cbn [bind].
  rewrite Nat.sub_0_r, (idx_some _ _ _ Hx); reflexivity.
Qed.

(** ** select_distinct *)
Lemma select_distinct_must s p tries ex :
  must (select io fexp s p) (entry p) ->
  must (select_distinct io fexp s p tries ex)
    (fun o => match o with Some r => entry p r /\ ieq io (snd r) ex = false | None => True end).
Proof.
  intros H; induction tries as [|t IH]; cbn [select_distinct]; [cbn; auto|].
  eapply must_bind_intro; [exact H|]; intros [i c] Hr; destruct (ieq io c ex) eqn:E; cbn [negb]; auto.
  cbn; auto.
Qed.

Lemma select_distinct_some s p tries ex r :
  may (select_distinct io fexp s p tries ex) (Some r) <->
  1 <= tries /\ may (select io fexp s p) r /\ ieq io (snd r) ex = false.
Proof.
  induction tries as [|t IH]; cbn [select_distinct]; [cbn; split; [discriminate|lia]|].
  rewrite may_bind; split.
  - intros ([i c] & Hm & H); destruct (ieq io c ex) eqn:E; cbn [negb] in H.
    + apply IH in H; split; [lia|tauto].
    + cbn in H; injection H as <-; split; [lia|auto].
  - intros (_ & Hm & E); exists r; split; auto; destruct r as [i c]; cbn in E; rewrite E; reflexivity.
Qed.

Lemma select_distinct_none s p tries ex :
  may (select_distinct io fexp s p tries ex) None <->
  tries = 0 \/ exists r, may (select io fexp s p) r /\ ieq io (snd r) ex = true.
Proof.
  induction tries as [|t IH]; cbn [select_distinct]; [cbn; tauto|].
  rewrite may_bind; split.
  - intros ([i c] & Hm & H); destruct (ieq io c ex) eqn:E; cbn [negb] in H; [|cbn in H; discriminate].
    right; exists (i, c); auto.
  - intros [H|([i c] & Hm & E)]; [discriminate|].
    exists (i, c); split; auto; cbn in E; rewrite E; cbn [negb]; apply IH; right; exists (i, c); auto.
Qed.

Lemma select_distinct_fail s p tries ex e :
  may_fail (select_distinct io fexp s p tries ex) e <-> 1 <= tries /\ may_fail (select io fexp s p) e.
Proof.
  induction tries as [|t IH]; cbn [select_distinct]; [cbn; lia|].
  rewrite may_fail_bind; split.
  - intros [H|([i c] & Hm & H)]; [split; auto; lia|].
    destruct (ieq io c ex) eqn:E; cbn [negb] in H; [apply IH in H; split; [lia|tauto]|destruct H].
  - intros [_ H]; auto.
Qed.

(** A mechanism with no unspecified (non-random) choice. *)
Fixpoint no_pick {A} (m : M A) : Prop :=
  match m with
  | Ret _ | Fail _ => True
  | Draw n k => forall i, no_pick (k i)
  | Pick _ _ => False
  end.

Lemma no_pick_bind {A B} (m : M A) (f : A -> M B) : no_pick m -> (forall a, no_pick (f a)) -> no_pick (bind m f).
Proof. induction m; cbn; auto. Qed.

Lemma expect_scale {A} (m : M A) c g : no_pick m -> expect m (fun a => g a * c)%R = (expect m g * c)%R.
Proof.
  induction m as [a|e|n k IH|n k IH]; cbn; intros H; try tauto.
  - lra.
  - rewrite (Rsum_ext _ _ (fun i => expect (k (N.of_nat i)) g * c)%R) by (intros; apply IH, H).
    rewrite Rsum_mult_r; unfold Rdiv; ring.
Qed.

Lemma no_pick_gen_range lo hi : no_pick (gen_range lo hi).
Proof. unfold gen_range; destruct (lo <? hi); cbn; auto. Qed.

Lemma no_pick_repeat {A} (m : M A) k : no_pick m -> no_pick (repeatM k m).
Proof. intros H; induction k; cbn; auto; apply no_pick_bind; auto; intros; apply no_pick_bind; cbn; auto. Qed.

Lemma no_pick_idx {A} (l : list A) i : no_pick (idx l i).
Proof. unfold idx; destruct nth_error; cbn; auto. Qed.

Lemma no_pick_wheel w t u l : no_pick (wheel_select w t u l).
Proof.
  unfold wheel_select, last_entry, massert; destruct wheel as [r|]; cbn; auto.
  destruct (length l =? 0); cbn; auto; destruct (last _ _); cbn; auto.
Qed.

Definition builtin (s : selector I) : Prop := match s with Custom _ _ _ _ => False | _ => True end.

Lemma no_pick_select s p : builtin s -> no_pick (select io fexp s p).
Proof.
  destruct s; cbn [builtin select]; intros H; try tauto.
  - unfold tournament_select, massert; destruct (length (individuals p) =? 0); cbn [negb bind]; [exact Logic.I|].
    apply no_pick_bind; [apply no_pick_repeat, no_pick_gen_range|]; intros [|d ds]; cbn [unwrap bind]; [exact Logic.I|].
    apply no_pick_bind; [apply no_pick_idx|]; cbn; auto.
  - cbn; intros; apply no_pick_wheel.
  - cbn; intros; apply no_pick_wheel.
  - unfold rank_select; apply no_pick_bind; [unfold gen_range_incl; destruct (_ <=? _); cbn; auto|].
    intros a; destruct rank_loop as [r|]; cbn; auto; destruct (individuals p); cbn; auto.
  - unfold elitist_select; apply no_pick_bind; [apply no_pick_gen_range|]; intros; apply no_pick_bind; [apply no_pick_idx|]; cbn; auto.
  - unfold linear_select; cbn [gen_f64 bind no_pick]; intros i; unfold massert; destruct (_ <? _); cbn [bind]; [|exact Logic.I].
    apply no_pick_bind; [apply no_pick_idx|]; cbn; auto.
Qed.

Lemma select_distinct_none_prob s p tries ex : builtin s ->
  prob (select_distinct io fexp s p tries ex) (fun o => match o with None => true | Some _ => false end)
  = (prob (select io fexp s p) (fun r => ieq io (snd r) ex) ^ tries)%R.
Proof.
  intros Hs; rewrite !prob_expect; induction tries as [|t IH]; cbn [select_distinct pow]; [reflexivity|].
  rewrite expect_bind, <- (expect_scale _ (expect (select io fexp s p) (fun a => if ieq io (snd a) ex then 1%R else 0%R) ^ t)%R) by (apply no_pick_select; auto).
  apply expect_ext; intros [i c]; cbn [snd]; destruct (ieq io c ex) eqn:E; cbn [negb].
  - rewrite IH; lra.
  - cbn; lra.
Qed.

(** ** Construction *)
Lemma feq_zero c : feq c f0 = true <-> is_nan c = false /\ is_finite c = true /\ B2R c = 0%R.
Proof.
  rewrite feq_spec; change (key f0) with 0%R; split.
  - intros (H & _ & K); assert (F : is_finite c = true) by (apply key_finite_iff; auto; pose proof big_pos; lra).
    rewrite key_finite in K by auto; auto.
  - intros (H & F & K); rewrite key_finite by auto; auto.
Qed.

Lemma feq_zero_iff c : feq c f0 = true <-> exists s, c = B754_zero s.
Proof.
  split.
  - destruct c as [s|[|]| |[|] m e H]; cbn; try discriminate; eauto.
  - intros [[|] ->]; reflexivity.
Qed.

End Sel2.
