(** * PReach: what a run can reach. *)
From Coq Require Import List Bool Arith NArith ZArith Reals Lia Lra Permutation.
From Flocq Require Import Core BinarySingleNaN.
From Verif Require Import Rnd LRnd Prob LProb F64 LF64 MStats MPopulation MSelection MModel MAlgorithms SpecF SpecA SpecR
  PSelection PSelection2 PLinear PSelection3 PSum PLinear2 PPopulation PAlgorithms PRun.
Import ListNotations.
Local Open Scope nat_scope.

(** ** From probabilities to executions *)
Lemma Rsum_pos n f : (0 < Rsum n f)%R -> exists i, i < n /\ (0 < f i)%R.
Proof.
  induction n as [|n IH]; [rewrite Rsum_0; lra|]; rewrite Rsum_S; intros H.
  destruct (Rlt_or_le 0 (f n)) as [Hn|Hn]; [eauto|]. destruct IH as (i & Hi & Hf); [lra|]; eauto.
Qed.

Lemma fold_Rmin_le l x : In x l -> (fold_right Rmin 1 l <= x)%R.
Proof.
  induction l as [|h t IH]; cbn; [tauto|]; intros [->|H]; [apply Rmin_l|].
  eapply Rle_trans; [apply Rmin_r|auto].
Qed.

Fixpoint picks_nonempty {A} (m : M A) : Prop :=
  match m with
  | Ret _ | Fail _ => True
  | Draw n k => forall i, (i < n)%N -> picks_nonempty (k i)
  | Pick n k => (0 < n)%N /\ forall i, (i < n)%N -> picks_nonempty (k i)
  end.

Lemma prob_pos_may {A} (m : M A) P : picks_nonempty m -> (0 < prob m P)%R -> exists a, may m a /\ P a = true.
Proof.
  induction m as [a|e|n k IH|n k IH]; cbn [prob may picks_nonempty]; intros Hp H.
  - exists a; destruct (P a); auto; lra.
  - lra.
  - destruct (Nat.eq_dec (N.to_nat n) 0) as [E|E].
    { rewrite E in H; unfold Rdiv in H; rewrite Rsum_0, Rmult_0_l in H; lra. }
    assert (Hn : (0 < INR (N.to_nat n))%R) by (apply lt_0_INR; lia).
    assert (HS : (0 < Rsum (N.to_nat n) (fun i => prob (k (N.of_nat i)) P))%R).
    { apply Rmult_lt_reg_r with (/ INR (N.to_nat n))%R; [apply Rinv_0_lt_compat; auto|]; rewrite Rmult_0_l; exact H. }
    apply Rsum_pos in HS as (i & Hi & Hf); destruct (IH (N.of_nat i)) as (a & Ha & Pa); [apply Hp; lia|auto|].
    exists a; split; auto; exists (N.of_nat i); split; auto; lia.
  - destruct Hp as [H0 Hp].
    assert (H1 : (0 < prob (k 0%N) P)%R).
    { eapply Rlt_le_trans; [exact H|]; apply fold_Rmin_le.
      apply in_map_iff; exists 0; split; auto; apply in_seq; lia. }
    destruct (IH 0%N) as (a & Ha & Pa); [apply Hp; auto|auto|]; exists a; split; auto; exists 0%N; auto.
Qed.

Lemma picks_bind {A B} (m : M A) (f : A -> M B) : picks_nonempty m -> (forall a, picks_nonempty (f a)) -> picks_nonempty (bind m f).
Proof. intros Hm Hf; induction m as [a|e|n k IH|n k IH]; cbn in *; auto; destruct Hm; auto. Qed.

Lemma picks_gen_range lo hi : picks_nonempty (gen_range lo hi).
Proof. unfold gen_range; destruct (lo <? hi); cbn; auto. Qed.
Lemma picks_gen_range_incl lo hi : picks_nonempty (gen_range_incl lo hi).
Proof. unfold gen_range_incl; destruct (lo <=? hi); cbn; auto. Qed.
Lemma picks_idx {A} (l : list A) i : picks_nonempty (idx l i).
Proof. unfold idx; destruct (nth_error l i); cbn; auto. Qed.

Lemma may_repeat {A} (m : M A) (a : A) n : may m a -> may (repeatM n m) (repeat a n).
Proof.
  intros H; induction n as [|n IH]; cbn [repeatM repeat]; [reflexivity|].
  apply may_bind; exists a; split; auto; apply may_bind; exists (repeat a n); split; auto; reflexivity.
Qed.

(** ** Every built-in mechanism can select the last individual *)
Section Last.
Context {I : Type} (io : individual_ops I) (fexp : f64 -> f64).

Definition last_of (p : population I) (x : I) : Prop := exists l, individuals p = l ++ [x].

Lemma last_nth p x : last_of p x -> nth_error (individuals p) (length (individuals p) - 1) = Some x /\ 1 <= length (individuals p).
Proof.
  intros [l ->]; rewrite app_length; cbn [length]; split; [|lia].
  rewrite nth_error_app2 by lia; replace (length l + 1 - 1 - length l) with 0 by lia; reflexivity.
Qed.

Definition can_pick (s : selector I) (p : population I) (x : I) : Prop := exists i, may (select io fexp s p) (i, x).

Lemma entry_pick s p x i : nth_error (individuals p) i = Some x ->
  (forall r, may (select io fexp s p) r -> nth_error (individuals p) (fst r) = Some (snd r)) ->
  picks_nonempty (select io fexp s p) -> (0 < prob (select io fexp s p) (fun r => fst r =? i))%R -> can_pick s p x.
Proof.
  intros Hx He Hp H; apply prob_pos_may in H as ([j y] & Hm & Hj); auto.
  apply Nat.eqb_eq in Hj; cbn in Hj; subst j; pose proof (He _ Hm) as E; cbn in E; rewrite Hx in E; injection E as ->; exists i; auto.
Qed.

Lemma tournament_last size p x : size <> 0 -> last_of p x -> can_pick (Tournament size) p x.
Proof.
  intros Hs Hl; destruct (last_nth p x Hl) as [Hx Hn]; exists (length (individuals p) - 1); cbn [select]; unfold tournament_select.
  set (n := length (individuals p)) in *.
  destruct (Nat.eqb_spec n 0) as [E|_]; [lia|]; cbn [negb massert bind].
  apply may_bind; exists (repeat (n - 1) size); split.
  { apply may_repeat, may_gen_range; lia. }
  destruct size as [|size]; [congruence|]; cbn [repeat unwrap bind].
  assert (E : fold_left Nat.max (repeat (n - 1) size) (n - 1) = n - 1).
  { clear; induction size as [|size IH]; cbn [repeat fold_left]; auto; rewrite Nat.max_id; auto. }
  rewrite E, (idx_some _ _ _ Hx); reflexivity.
Qed.

Lemma elitist_last ratio p x : proper_ratio ratio -> last_of p x -> fits_usize (length (individuals p)) -> can_pick (Elitist ratio) p x.
Proof.
  intros [F H] Hl Hf; destruct (last_nth p x Hl) as [Hx Hn]; exists (length (individuals p) - 1); cbn [select]; unfold elitist_select.
  destruct (elitist_bound_spec (length (individuals p)) ratio Hn Hf F H) as [Hb _].
  apply may_bind; exists (length (individuals p) - 1); split; [apply may_gen_range; lia|].
  rewrite (idx_some _ _ _ Hx); reflexivity.
Qed.

Lemma rank_last p x : last_of p x -> can_pick Rank p x.
Proof.
  intros Hl; destruct (last_nth p x Hl) as [Hx Hn].
  assert (Hne : individuals p <> []) by (intros E; rewrite E in Hn; cbn in Hn; lia).
  apply (entry_pick Rank p x _ Hx).
  - intros r Hr; exact (must_may _ _ _ (rank_must p Hne) Hr).
  - cbn [select]; unfold rank_select; apply picks_bind; [apply picks_gen_range_incl|]; intros t.
    destruct (rank_loop t 0 0 (individuals p)); cbn; auto; destruct (hd_error (individuals p)); cbn; auto.
  - cbn [select]; rewrite rank_law by lia.
    assert (1 <= INR (length (individuals p)))%R by (apply (le_INR 1); auto).
    apply Rmult_lt_0_compat; [apply lt_0_INR; lia|apply Rinv_0_lt_compat; nra].
Qed.

Lemma linear_last b p x : is_finite b = true -> (1 + bpow radix2 (-10) <= B2R b <= 2)%R -> last_of p x ->
  (Z.of_nat (length (individuals p)) <= 2 ^ 20)%Z -> can_pick (Linear b) p x.
Proof.
  intros Fb Hb Hl Hn20; destruct (last_nth p x Hl) as [Hx Hn]; pose proof (bpow_gt_0 radix2 (-10)) as H10.
  apply (entry_pick (Linear b) p x _ Hx).
  - intros r Hr; cbn [select] in Hr; unfold linear_select in Hr; apply may_bind in Hr as (u & _ & Hr); cbv zeta in Hr.
    apply may_bind in Hr as ([] & _ & Hr); apply may_bind in Hr as (y & Hy & Hr); cbn in Hr; subst r; cbn [fst snd].
    set (j := _ - _ - 1) in *; clearbody j; unfold idx in Hy; destruct (nth_error (individuals p) j) as [a|] eqn:E.
    + cbn in Hy; subst a; reflexivity.
    + contradiction Hy.
  - cbn [select]; unfold linear_select; apply picks_bind; [cbn; auto|]; intros u; cbv zeta; apply picks_bind.
    + unfold massert; destruct (_ <? _); cbn; auto.
    + intros _; apply picks_bind; [apply picks_idx|cbn; auto].
  - pose proof (linear_share io fexp b p (length (individuals p) - 1) Fb ltac:(lra) ltac:(lia) ltac:(lia)) as H; cbv zeta in H.
    set (n := length (individuals p)) in *; replace (n - 1 - (n - 1)) with 0 in H by lia; cbn [INR] in H.
    assert (H1 : (1 <= INR n <= 1048576)%R).
    { split; [apply (le_INR 1); auto|]; rewrite INR_IZR_INZ; apply (IZR_le _ (2 ^ 20)); auto. }
    assert (Hs : (/ 1048576 <= (B2R b * INR n - (B2R b - 1) * (2 * 0 + 1)) / (INR n * INR n))%R).
    { apply Rmult_le_reg_r with (INR n * INR n)%R; [nra|]; unfold Rdiv; rewrite Rmult_assoc, Rinv_l, Rmult_1_r by nra.
      assert (INR n * INR n <= 1048576 * INR n)%R by (apply Rmult_le_compat_r; lra). nra. }
    assert (He : (bpow radix2 (-47) / (B2R b - 1) <= bpow radix2 (-37))%R).
    { apply Rmult_le_reg_r with (B2R b - 1)%R; [lra|]; unfold Rdiv; rewrite Rmult_assoc, Rinv_l, Rmult_1_r by lra.
      replace (bpow radix2 (-47)) with (bpow radix2 (-37) * bpow radix2 (-10))%R by (rewrite <- bpow_plus; reflexivity).
      apply Rmult_le_compat_l; [apply bpow_ge_0|lra]. }
    assert (Hb37 : (bpow radix2 (-37) < / 1048576)%R).
    { change (/ 1048576)%R with (bpow radix2 (-20)); apply bpow_lt; lia. }
    apply Rabs_le_inv in H; lra.
Qed.

Lemma roulette_last t0 p x : last_of p x ->
  (forall y, In y (individuals p) -> is_finite (fitness io y) = true /\ (0 <= B2R (fitness io y) <= B2R (fitness io x))%R) ->
  (bpow radix2 (-899) <= B2R (fitness io x) <= 1)%R -> (Z.of_nat (length (individuals p)) <= 2 ^ 20)%Z ->
  exists t, may (prepare io fexp (RouletteWheel t0) p) (RouletteWheel t) /\ can_pick (RouletteWheel t) p x.
Proof.
  intros Hl Hw Hx1 Hn20; destruct (last_nth p x Hl) as [Hx Hn]; pose proof (bpow_gt_0 radix2 (-899)) as H899.
  assert (Hne : individuals p <> []) by (intros E; rewrite E in Hn; cbn in Hn; lia).
  set (total := sumR (map (fun y => B2R (fitness io y)) (individuals p))).
  set (n := length (individuals p)) in *.
  assert (H1 : (1 <= INR n <= 1048576)%R).
  { split; [apply (le_INR 1); auto|]; rewrite INR_IZR_INZ; apply (IZR_le _ (2 ^ 20)); auto. }
  assert (Htot : forall l, (forall y, In y l -> (0 <= B2R (fitness io y) <= B2R (fitness io x))%R) ->
     (0 <= sumR (map (fun y => B2R (fitness io y)) l) <= INR (length l) * B2R (fitness io x))%R).
  { induction l as [|h t IH]; intros H; cbn [map sumR length]; [cbn [INR]; lra|].
    rewrite S_INR; pose proof (H h (or_introl eq_refl)); specialize (IH (fun y Hy => H y (or_intror Hy))); lra. }
  assert (Hlow : (B2R (fitness io x) <= total)%R).
  { destruct Hl as [l El]; unfold total; rewrite El, map_app, sumR_app; cbn [map sumR].
    assert (0 <= sumR (map (fun y => B2R (fitness io y)) l))%R; [|lra].
    apply Htot; intros y Hy; apply Hw; rewrite El; apply in_or_app; auto. }
  assert (Hup : (total <= INR n * B2R (fitness io x))%R) by (apply Htot; intros y Hy; apply Hw; auto).
  pose proof (roulette_shares io fexp t0 p (n - 1) x Hx (fun y Hy => conj (proj1 (Hw y Hy)) (proj1 (proj2 (Hw y Hy)))) ltac:(fold n; lia)) as HS.
  cbv zeta in HS; fold total n in HS.
  assert (Hb : (bpow radix2 (-899) <= total <= bpow radix2 1022)%R).
  { split; [lra|]. apply Rle_trans with (bpow radix2 20); [|apply bpow_le; lia]. change (bpow radix2 20) with 1048576%R; nra. }
  specialize (HS Hb).
  destruct (must_exists _ _ (must_and _ _ _ (prepare_roulette io fexp t0 p) HS)) as [s Hs].
  destruct (must_may _ _ _ (must_and _ _ _ (prepare_roulette io fexp t0 p) HS) Hs) as [(t & -> & _) HP].
  exists t; split; auto.
  apply (entry_pick (RouletteWheel t) p x _ Hx).
  - intros r Hr; cbn [select] in Hr; apply may_bind in Hr as (u & _ & Hr).
    destruct (wheel_select_spec (fitness io) t u (individuals p) Hne) as (j & y & E & Hy & _); rewrite E in Hr; cbn in Hr; subst r; auto.
  - cbn [select]; apply picks_bind; [cbn; auto|]; intros u.
    destruct (wheel_select_spec (fitness io) t u (individuals p) Hne) as (j & y & -> & _); cbn; auto.
  - fold n.
    assert (Hsh : (/ 1048576 <= B2R (fitness io x) / total)%R).
    { apply Rmult_le_reg_r with total; [lra|]; unfold Rdiv; rewrite Rmult_assoc, Rinv_l, Rmult_1_r by lra.
      assert (INR n * B2R (fitness io x) <= 1048576 * B2R (fitness io x))%R by (apply Rmult_le_compat_r; lra). lra. }
    assert (He : (INR n * bpow radix2 (-49) <= bpow radix2 (-29))%R).
    { replace (bpow radix2 (-29)) with (bpow radix2 20 * bpow radix2 (-49))%R by (rewrite <- bpow_plus; reflexivity).
      apply Rmult_le_compat_r; [apply bpow_ge_0|]; change (bpow radix2 20) with 1048576%R; lra. }
    assert (Hb29 : (bpow radix2 (-29) < / 1048576)%R).
    { change (/ 1048576)%R with (bpow radix2 (-20)); apply bpow_lt; lia. }
    apply Rabs_le_inv in HP; lra.
Qed.
End Last.

(** ** One generation *)
Section Step.
Context {I : Type} (io : individual_ops I) (fexp : f64 -> f64) {MS : Type} (mdl : model I MS).
Context {P S0 : Type} (alg : algorithm I MS P S0) {PS : Type}.
Implicit Types (p : population I).

Lemma gen_f64_may u : (u < 2 ^ 53)%N -> may gen_f64 (f_unit u).
Proof. intros Hu; exists u; split; auto; reflexivity. Qed.

Lemma breed_climb ms p (b : breeding I) x y : can_pick io fexp (parent_selector b) p x ->
  is_finite (crossover_rate b) = true -> (B2R (crossover_rate b) < 1)%R ->
  is_finite (mutation_rate b) = true -> (0 < B2R (mutation_rate b))%R ->
  mutation_improves io mdl ms x y -> may (breed io fexp mdl ms p b) y.
Proof.
  intros [i Hi] Fc Hc Fm Hm (z1 & z2 & H1 & H2 & H3 & Hv & Hf & Hs); unfold breed.
  apply may_bind; exists (i, x); split; auto; apply may_bind; exists None; split.
  - unfold breed_parent2; destruct (1 <? length (individuals p)); [|reflexivity].
    apply may_bind; exists largest_draw; split; [apply gen_f64_may; reflexivity|].
    destruct u_max_val as [Fu Vu].
    assert (E : flt largest_draw (crossover_rate b) = false).
    { apply flt_false; [apply finite_not_nan; auto|apply finite_not_nan; auto|]; rewrite !key_finite, Vu by auto.
      apply below_one; auto. }
    rewrite E; reflexivity.
  - unfold breed_from; cbv zeta; cbn [bind]; apply may_bind; exists (f_unit 0); split; [apply gen_f64_may; reflexivity|].
    destruct (f_unit_val 0 ltac:(reflexivity)) as [F0 V0].
    assert (E : flt (f_unit 0) (mutation_rate b) = true).
    { apply flt_spec; repeat split; try (apply finite_not_nan; auto); rewrite !key_finite, V0 by auto. cbn [Z.of_N]; lra. }
    rewrite E; apply may_bind; exists z1; split; auto; apply may_bind; exists z2; split; auto; apply may_bind; exists y; split; auto.
    rewrite Hv; apply may_bind; exists true; split; auto; reflexivity.
Qed.

(** Every member of a well-formed population is at most as fit as the last. *)
Lemma last_best p x y : sorted_by_fitness io (individuals p) -> no_nan io (individuals p) -> last_of p x -> In y (individuals p) ->
  (key (fitness io y) <= key (fitness io x))%R.
Proof.
  intros Hs Hn Hl Hy; destruct (last_nth p x Hl) as [Hx Hlen]; apply In_nth_error in Hy as [i Hi].
  pose proof (nth_error_some_lt _ _ _ Hi) as Hlt.
  destruct (Nat.eq_dec i (length (individuals p) - 1)) as [E|E].
  - rewrite E, Hx in Hi; injection Hi as ->; lra.
  - assert (H : fle (fitness io y) (fitness io x) = true) by (apply (Hs i (length (individuals p) - 1)); auto; lia).
    apply fle_spec in H; tauto.
Qed.

Lemma last_exists p : individuals p <> [] -> exists x, last_of p x.
Proof. intros H; destruct (exists_last H) as (l & x & E); exists x, l; auto. Qed.

Definition all_valid p : Prop := forall z, In z (individuals p) -> is_valid io z = true.

Lemma step_climb s s' p b n e x y : valid_is_number io -> equal_means_equal_fitness io ->
  may (alg_prepare alg s p) s' -> (forall q acc, alg_select_elites alg s' q acc = select_top e q acc) ->
  alg_reproduction_parameters alg s' = (b, n) -> e + 2 <= n -> may (breed io fexp mdl (alg_model alg s') p b) y ->
  is_valid io y = true -> flt (fitness io x) (fitness io y) = true -> well_formed io p -> all_valid p -> last_of p x ->
  exists p', may (evolve_step io fexp mdl alg s p) (s', p') /\ well_formed io p' /\ all_valid p' /\ last_of p' y /\
    generation p' = S (generation p) /\ length (individuals p') <= n /\
    (forall z, In z (individuals p') -> In z (individuals p) \/ z = y).
Proof.
  intros Hnum Heq Hp He Hr Hen Hb Hv Hlt (Hne & Hnn & Hso & Hst) Hav Hl.
  destruct (select_top_spec e p []) as (rest & top & Ep & Elen & Et); cbn [app] in Et.
  set (offspring := top ++ repeat y (n - length top)).
  assert (Htop : length top <= e) by (rewrite Elen; apply Nat.le_min_l).
  assert (Hgen : may (generate_new_population io fexp mdl (alg_model alg s') (b, n) p top) offspring).
  { unfold generate_new_population, offspring; destruct (n - length top) as [|[|k]] eqn:Ek; [lia|lia|].
    apply may_bind; exists (repeat y (S (S k))); split; [apply may_repeat; auto|reflexivity]. }
  assert (Hoy : In y offspring).
  { unfold offspring; apply in_or_app; right; destruct (n - length top) as [|k] eqn:Ek; [lia|left; reflexivity]. }
  assert (Hon : offspring <> []) by (intros E; rewrite E in Hoy; destruct Hoy).
  assert (Ho : forall z, In z offspring -> In z (individuals p) \/ z = y).
  { unfold offspring; intros z Hz; apply in_app_or in Hz as [Hz|Hz].
    - left; rewrite Ep; apply in_or_app; auto.
    - right; apply repeat_spec in Hz; auto. }
  assert (Hov : forall z, In z offspring -> is_valid io z = true).
  { intros z Hz; destruct (Ho z Hz) as [H| ->]; auto. }
  assert (Hono : no_nan io offspring) by (intros z Hz; apply Hnum; auto).
  destruct (must_exists _ _ (replace_must io p offspring Hon)) as [[p' old] Hrep].
  destruct (must_may _ _ _ (replace_must io p offspring Hon) Hrep) as (Hm & Hold & Hg & _); cbn [fst snd] in *; subst old.
  pose proof (made_well_formed io offspring p' Hono Hm) as Hwf.
  destruct Hm as (Hne' & [Hs1 Hs2] & _ & Hlen & _ & _).
  exists p'; split; [|split; [exact Hwf|split; [intros z Hz; apply Hov, Hs1; auto|split; [|split; [lia|split]]]]].
  - unfold evolve_step; apply may_bind; exists s'; split; auto; apply may_bind; exists top; split; [rewrite He, Et; reflexivity|].
    rewrite Hr; apply may_bind; exists offspring; split; auto; apply may_bind; exists (p', individuals p); split; auto; reflexivity.
  - destruct (last_exists p' Hne') as [z Hz]; destruct Hwf as (_ & Hnn' & Hso' & _).
    assert (Hzy : (key (fitness io y) <= key (fitness io z))%R).
    { destruct (Hs2 y Hoy) as [Hy|(w & Hw & E)]; [apply (last_best p' z y); auto|].
      apply Heq, feq_spec in E as (_ & _ & ->); apply (last_best p' z w); auto. }
    assert (Hin : In z (individuals p')) by (destruct Hz as [l ->]; apply in_or_app; right; left; reflexivity).
    destruct (Ho z (Hs1 z Hin)) as [Hzp| <-]; auto; exfalso.
    pose proof (last_best p x z Hso Hnn Hl Hzp) as Hzx; apply flt_spec in Hlt as (_ & _ & Hlt); lra.
  - eapply Nat.le_trans; [exact Hlen|]; unfold offspring; rewrite app_length, repeat_length; lia.
  - intros z Hz; apply Ho, Hs1; auto.
Qed.

(** ** The whole run *)
Variables (n e : nat) (J : S0 -> population I -> Prop) (Gp : population I -> I -> Prop) (ms : MS) (goal : I -> bool).
Hypothesis Hnum : valid_is_number io.
Hypothesis Heq : equal_means_equal_fitness io.
Hypothesis Hen : e + 2 <= n.
Hypothesis HJ : forall s p x, J s p -> well_formed io p -> all_valid p -> last_of p x -> Gp p x ->
  exists s' b, may (alg_prepare alg s p) s' /\ (forall p', generation p' = S (generation p) -> J s' p') /\
    (forall q acc, alg_select_elites alg s' q acc = select_top e q acc) /\ alg_reproduction_parameters alg s' = (b, n) /\
    alg_model alg s' = ms /\ can_pick io fexp (parent_selector b) p x /\
    is_finite (crossover_rate b) = true /\ (B2R (crossover_rate b) < 1)%R /\
    is_finite (mutation_rate b) = true /\ (0 < B2R (mutation_rate b))%R.
Hypothesis HG : forall p p' x y, Gp p x -> mutation_improves io mdl ms x y -> length (individuals p') <= n ->
  (forall z, In z (individuals p') -> In z (individuals p) \/ z = y) -> Gp p' y.

Inductive leads : I -> Prop :=
| leads_goal x : goal x = true -> leads x
| leads_on x y : mutation_improves io mdl ms x y -> leads y -> leads x.

Lemma climbs_leads x y : climbs io mdl ms x y -> goal y = true -> leads x.
Proof.
  intros Hc Hg; apply leads_goal in Hg; induction Hc as [|y z Hc IH Hi]; auto; apply IH; eapply leads_on; eauto.
Qed.

Lemma loop_climb x : leads x -> forall s p (ps : PS) tr, J s p -> well_formed io p -> all_valid p -> last_of p x -> Gp p x ->
  exists fuel r, may (evolve_loop io fexp mdl alg (quiet (until goal)) fuel s p ps tr) r /\
    well_formed io (r_population r) /\ existsb goal (individuals (r_population r)) = true.
Proof.
  induction 1 as [x Hg|x y Hi _ IH]; intros s p ps tr Js Hwf Hav Hl HGp.
  - assert (Hin : existsb goal (individuals p) = true).
    { apply existsb_exists; exists x; split; auto; destruct Hl as [l ->]; apply in_or_app; right; left; reflexivity. }
    exists 1, (mkRun p s ps (tr ++ [p])); cbn [evolve_loop]; split; [|cbn; auto].
    unfold quiet, until; rewrite Hin; cbn; reflexivity.
  - destruct (existsb goal (individuals p)) eqn:Hin.
    { exists 1, (mkRun p s ps (tr ++ [p])); cbn [evolve_loop]; split; [|cbn; auto].
      unfold quiet, until; rewrite Hin; cbn; reflexivity. }
    destruct (HJ s p x Js Hwf Hav Hl HGp) as (s' & b & Hp & HJ' & He & Hr & Hms & Hpick & Fc & Hc & Fm & Hm).
    assert (Hb : may (breed io fexp mdl (alg_model alg s') p b) y) by (rewrite Hms; eapply breed_climb; eauto).
    pose proof Hi as (_ & _ & _ & _ & _ & Hv & Hlt & _).
    destruct (step_climb s s' p b n e x y) as (p' & Hs & Hwf' & Hav' & Hl' & Hgen & Hlen & Hz); auto.
    destruct (IH s' p' ps (tr ++ [p])) as (fuel & r & Hr' & Hq); auto.
    { eapply HG; eauto. }
    exists (S fuel), r; split; auto; cbn [evolve_loop].
    unfold quiet, until at 1; rewrite Hin; cbn [bind negb]; apply may_bind; exists (s', p'); split; auto.
Qed.
End Step.
