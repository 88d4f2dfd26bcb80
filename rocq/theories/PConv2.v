(** * PConv2: an elitist algorithm climbs a ladder of levels (C92, C96). *)
From Coq Require Import List Bool Arith NArith ZArith Reals Lia Lra Permutation.
From Flocq Require Import Core BinarySingleNaN.
From Verif Require Import Rnd LRnd Prob LProb F64 LF64 MStats MPopulation MSelection MModel MAlgorithms SpecF SpecA SpecK SpecR SpecL
  PMutationProb PSelection PSelection2 PLinear PSelection3 PPopulation PModel PInterp PAlgorithms PAlgorithms2 PRun PRun2 PRun3 PKeep PReach PReach2 PConv.
Import ListNotations.
Local Open Scope nat_scope.

Section Climb.
Context {I : Type} (io : individual_ops I) (fexp : f64 -> f64) {MS : Type} (mdl : model I MS).
Context {P S0 : Type} (alg : algorithm I MS P S0) {PS : Type}.
Implicit Types (p : population I).
Variables (raw good : I -> Prop) (goal : I -> bool) (level : I -> nat) (low top : nat) (eps cr mr : R) (n N e : nat)
  (W : S0 -> Prop) (J : S0 -> population I -> Prop).
Hypothesis Hnum : valid_is_number io.
Hypothesis Heq : equal_means_equal_fitness io.
Hypothesis Htot : total_model mdl raw.
Hypothesis Hk : keeps mdl raw good.
Hypothesis Hsurv : default_survival io mdl.
Hypothesis Hlad : ladder io mdl good goal level low top eps.
Hypothesis Heps : (0 < eps)%R.
Hypothesis Hcr : (0 <= cr < 1)%R.
Hypothesis Hmr : (0 < mr <= 1)%R.
Hypothesis Hone : 1 <= e.
Hypothesis Hse : e + 2 <= n.
Hypothesis HN : n <= N.
Hypothesis HN20 : (Z.of_nat N <= 2 ^ 20)%Z.
Hypothesis Wprep : forall s p, W s -> must (alg_prepare alg s p) W.
Hypothesis Wel : forall s, W s -> alg_select_elites alg s = select_top e.
Hypothesis Wrep : forall s, W s -> snd (alg_reproduction_parameters alg s) = n.
Hypothesis Wsafe : forall s, W s -> safe_selector (parent_selector (fst (alg_reproduction_parameters alg s))).

(** Breeding parameters whose crossover is rare enough and whose mutation is
    frequent enough *)
Definition busy (b : breeding I) : Prop :=
  rate (crossover_rate b) /\ (B2R (crossover_rate b) <= cr)%R /\ rate (mutation_rate b) /\ (mr <= B2R (mutation_rate b))%R.

Definition at_level (k : nat) p : bool := existsb (fun x => k <=? level x) (individuals p).

(** Populations the climb passes through *)
Definition pinv p : Prop :=
  well_formed io p /\ (forall y, In y (individuals p) -> is_valid io y = true /\ good y) /\ length (individuals p) <= N /\
  at_level low p = true.

Hypothesis Jprep : forall s p, W s -> J s p -> pinv p ->
  must (alg_prepare alg s p) (fun s' =>
    let b := fst (alg_reproduction_parameters alg s') in
    busy b /\ (/ (2 * INR (length (individuals p))) <= prob (select io fexp (parent_selector b) p) (is_last p))%R /\
    forall p', generation p' = S (generation p) -> J s' p').

Lemma known_safe s0 : W s0 -> known (parent_selector (fst (alg_reproduction_parameters alg s0))).
Proof. intros H; destruct (Wsafe _ H) as [A|(b & A & _)]; [left; auto|right; eauto]. Qed.

(** ** Breeding *)
Lemma prob_bind_ext {A B} (m : M A) (f g : A -> M B) Q : (forall a, prob (f a) Q = prob (g a) Q) -> prob (bind m f) Q = prob (bind m g) Q.
Proof.
  intros H; induction m as [a|er|n0 k IH|n0 k IH]; cbn [bind prob]; auto.
  - f_equal; apply Rsum_ext; intros i _; apply IH.
  - f_equal; apply map_ext; intros i; apply IH.
Qed.

Definition rise (x y : I) : bool := is_valid io y && (level x <? level y).

Lemma rise_good ms p x y : good x -> good y -> is_valid io x = true -> rise x y = true -> m_can_survive mdl ms y x p = Ret true.
Proof.
  intros Gx Gy Vx H; apply andb_true_iff in H as [Vy Hl]; apply Nat.ltb_lt in Hl.
  rewrite Hsurv; unfold default_can_survive; f_equal.
  destruct (fge (fitness io y) (fitness io x)) eqn:E; auto; exfalso.
  assert (L : fle (fitness io y) (fitness io x) = true).
  { pose proof (Hnum x Vx) as Nx; pose proof (Hnum y Vy) as Ny; unfold f_is_nan in *; apply fle_spec; repeat split; auto.
    destruct (Rle_or_lt (key (fitness io y)) (key (fitness io x))) as [|K]; auto; exfalso.
    assert (fge (fitness io y) (fitness io x) = true); [|congruence]. apply fge_spec; repeat split; auto; lra. }
  apply (proj1 Hlad) in L; auto; lia.
Qed.

Lemma from_rise ms p b x : good x -> is_valid io x = true -> low <= level x < top -> busy b -> (eps <= 1)%R ->
  (mr * eps <= prob (breed_from io mdl ms p b x None) (rise x))%R.
Proof.
  intros Gx Vx Hlv (_ & _ & [Fm Bm] & Lm) He1; destruct Hk as (K1 & _ & K3 & K4 & K5).
  unfold breed_from; cbv zeta; cbn [bind].
  apply Rle_trans with (eps * met (mutation_rate b))%R.
  { pose proof (rate_prob _ Fm Bm) as [Hm _]; rewrite Rmult_comm; apply Rmult_le_compat_l; lra. }
  apply prob_bind_low; [lra|]; intros u _ Hu; rewrite Hu.
  eapply Rle_trans; [apply ((proj2 (proj2 Hlad)) ms x Gx Vx Hlv)|].
  fold (rise x); rewrite <- (Rmult_1_l (prob (variant mdl ms x) (rise x))).
  eapply Rle_trans; [apply (prob_bind_low (variant mdl ms x) (fun y => survives <- (if is_valid io y then m_can_survive mdl ms y x p else Ret false) ;;
     Ret (if survives then y else x)) (rise x) (rise x)); [lra|]|].
  - intros y Hy Hr; apply may_bind in Hy as (y1 & H1 & Hy); apply may_bind in Hy as (y2 & H2 & Hy).
    assert (Gy : good y) by (eapply K5; [|exact Hy]; eapply K4; [|exact H2]; eapply K3; [|exact H1]; auto).
    pose proof Hr as Hr'; apply andb_true_iff in Hr' as [Vy _]; rewrite Vy, (rise_good ms p x y) by auto; cbn [bind prob]; rewrite Hr; lra.
  - unfold variant; rewrite prob_assoc.
    apply Req_le; apply prob_bind_ext; intros y1; rewrite prob_assoc; reflexivity.
Qed.

Lemma parent_none p b x : busy b ->
  ((1 - cr) / 2 <= prob (breed_parent2 io fexp p b x) (fun o => match o with None => true | _ => false end))%R.
Proof.
  intros ([Fc Bc] & Lc & _); unfold breed_parent2.
  destruct (1 <? length (individuals p)); [|cbn; lra].
  eapply Rle_trans; [|apply (draw_gate_ge (2 ^ 53) f_unit _ (fun u => flt u (crossover_rate b))); [lia|]].
  - pose proof (rate_prob _ Fc Bc) as [_ Hm]; pose proof (below_one (crossover_rate b) Fc ltac:(lra)) as Hb.
    change (prob (Draw (2 ^ 53) (fun i => Ret (f_unit i))) (fun u => flt u (crossover_rate b))) with (met (crossover_rate b)).
    destruct (met_count (crossover_rate b)) as (k & Hk53 & Ev & _); rewrite Ev in *.
    assert (Hlt : (INR k / bpow radix2 53 <= 1 - bpow radix2 (-53))%R); [|lra].
    assert (H1 : (INR k / bpow radix2 53 < 1)%R) by lra.
    assert (Hp : (bpow radix2 53 * bpow radix2 (-53) = 1)%R) by (rewrite <- bpow_plus; reflexivity).
    pose proof (bpow_gt_0 radix2 53) as P53; pose proof (bpow_gt_0 radix2 (-53)) as M53.
    assert (Hi : (/ bpow radix2 53 = bpow radix2 (-53))%R) by (apply Rmult_eq_reg_l with (bpow radix2 53); [rewrite Rinv_r, Hp by lra; reflexivity|lra]).
    unfold Rdiv in *; rewrite Hi in *.
    assert (Hk1 : (INR k < bpow radix2 53)%R).
    { apply Rmult_lt_reg_r with (bpow radix2 (-53)); [auto|rewrite Hp; auto]. }
    assert (Hk2 : (INR k + 1 <= bpow radix2 53)%R).
    { rewrite INR_IZR_INZ in *; change (bpow radix2 53) with (IZR (2 ^ 53)) in *; apply lt_IZR in Hk1.
      rewrite <- plus_IZR; apply IZR_le; lia. }
    apply Rmult_le_compat_r with (r := bpow radix2 (-53)) in Hk2; [rewrite Hp in Hk2; lra|lra].
  - intros u _ Hu; rewrite Hu; reflexivity.
Qed.

Definition delta : R := ((1 - cr) * mr * eps / (4 * INR N))%R.

Lemma breed_rise ms p (b : breeding I) x : last_of p x -> well_formed io p -> length (individuals p) <= N ->
  known (parent_selector b) -> (/ (2 * INR (length (individuals p))) <= prob (select io fexp (parent_selector b) p) (is_last p))%R ->
  busy b -> good x -> is_valid io x = true -> low <= level x < top -> (eps <= 1)%R ->
  (delta <= prob (breed io fexp mdl ms p b) (rise x))%R.
Proof.
  intros Hl Hwf Hlen Hkn Hpr Hb Gx Vx Hlv He1.
  destruct (last_nth p x Hl) as [Hx Hn].
  assert (Hne : individuals p <> []) by (intros E; rewrite E in Hn; cbn in Hn; lia).
  assert (H1 : (1 <= INR (length (individuals p)) <= INR N)%R) by (split; [apply (le_INR 1); auto|apply le_INR; auto]).
  assert (Hme : (0 < mr * eps <= 1)%R) by (split; [apply Rmult_lt_0_compat; lra|rewrite <- (Rmult_1_r 1); apply Rmult_le_compat; lra]).
  set (c := ((mr * eps) * ((1 - cr) / 2))%R).
  assert (Hc : (0 <= c <= 1)%R).
  { unfold c; split; [apply Rmult_le_pos; lra|rewrite <- (Rmult_1_r 1); apply Rmult_le_compat; lra]. }
  apply Rle_trans with (c * / (2 * INR N))%R; [apply Req_le; unfold delta, c; field; lra|].
  apply Rle_trans with (c * prob (select io fexp (parent_selector b) p) (is_last p))%R.
  { apply Rmult_le_compat_l; [lra|]; eapply Rle_trans; [|exact Hpr]; apply Rinv_le; lra. }
  unfold breed; apply prob_bind_low; auto; intros [i y] Hr Hi.
  assert (Ey : y = x).
  { pose proof (safe_entry io fexp _ p _ Hkn Hne ltac:(unfold fits_usize, usize_max; lia) Hr) as E.
    unfold is_last in Hi; apply Nat.eqb_eq in Hi; rewrite Hi, Hx in E; cbn in E; congruence. }
  subst y; clear Hi Hr.
  apply Rle_trans with (mr * eps * prob (breed_parent2 io fexp p b x) (fun o => match o with None => true | _ => false end))%R.
  { unfold c; apply Rmult_le_compat_l; [lra|apply parent_none; auto]. }
  apply prob_bind_low; [lra|]; intros [y|] _ Ho; [discriminate|]; apply from_rise; auto.
Qed.

(** ** One generation *)
Definition kinv (s : S0) p : Prop := W s /\ J s p /\ pinv p.

Lemma last_level p x k : well_formed io p -> (forall y, In y (individuals p) -> is_valid io y = true /\ good y) -> last_of p x ->
  at_level k p = true <-> k <= level x.
Proof.
  intros (Hne & Hnn & Hso & _) Hg Hl.
  assert (Hin : In x (individuals p)) by (destruct Hl as [l ->]; apply in_or_app; right; left; reflexivity).
  unfold at_level; rewrite existsb_exists; split.
  - intros (y & Hy & H); apply Nat.leb_le in H; eapply Nat.le_trans; [exact H|].
    apply (proj1 Hlad); try (apply Hg; auto); apply fle_spec; repeat split; try (apply Hnn; auto); apply (last_best io p x y); auto.
  - intros H; exists x; split; auto; apply Nat.leb_le; auto.
Qed.

Lemma kinv_step s p : kinv s p ->
  must (evolve_step io fexp mdl alg s p) (fun o => kinv (fst o) (snd o) /\
    forall k, at_level k p = true -> at_level k (snd o) = true).
Proof.
  intros (HW & HJ & HP); pose proof HP as (Hwf & Hg & Hlen & Hlow); pose proof Hk as (K1 & _).
  assert (Hfl : fits_usize (length (individuals p))) by (unfold fits_usize, usize_max; lia).
  assert (Hfn : fits_usize n) by (unfold fits_usize, usize_max; lia).
  assert (Wp : forall s0 p0 s1, W s0 -> may (alg_prepare alg s0 p0) s1 -> W s1) by (intros s0 p0 s1 H; apply must_may, Wprep; auto).
  assert (Ws : forall s0 p0, W s0 -> individuals p0 <> [] -> fits_usize (length (individuals p0)) ->
                only_members io fexp (parent_selector (fst (alg_reproduction_parameters alg s0))) p0)
    by (intros s0 p0 H A B; apply known_members; auto; apply known_safe; auto).
  eapply must_strengthen.
  - apply (step_must io fexp mdl alg n e W raw); auto; try lia.
    + intros s0 H; apply safe_steady, Wsafe; exact H.
    + split; [auto|]; split; [apply Hwf|]; split; [intros x Hx; apply K1, Hg; auto|]; split; [auto|apply Hwf].
  - intros [s' p'] Hm _; cbn [fst snd].
    destruct (step_inv io fexp mdl alg n e W) with (s := s) (p := p) (s' := s') (p' := p')
      as [(_ & Hwf' & Hav' & _) [Hl' Hgr]]; auto; try lia.
    { split; [auto|]; split; [auto|]; split; [intros x Hx; apply Hg; auto|auto]. }
    destruct (step_keeps io fexp mdl raw good Hk alg n e W) with (s := s) (p := p) (s' := s') (p' := p')
      as [(HW' & _ & _ & Hg') _]; auto; try lia.
    { split; [auto|]; split; [apply Hwf|]; split; [auto|intros x Hx; apply Hg; auto]. }
    apply step_may in Hm as (el & off & Hp & _ & _ & Hr & Hne).
    pose proof (must_may _ _ _ (Jprep s p HW HJ HP) Hp) as (_ & _ & HJ').
    destruct (must_may _ _ _ (replace_must io p off Hne) Hr) as (_ & _ & Hgen & _); cbn [fst] in Hgen.
    assert (Hup : forall k, at_level k p = true -> at_level k p' = true).
    { intros k H; apply existsb_exists in H as (x & Hx & H); destruct (Hgr Hone Heq x Hx) as (y & Hy & Hle).
      apply existsb_exists; exists y; split; auto; apply Nat.leb_le in H; apply Nat.leb_le.
      apply (proj1 Hlad) in Hle; [lia|apply Hg; auto|auto]. }
    split; [|auto]; split; [exact HW'|]; split; [apply HJ'; lia|]; split; [auto|]; split; [intros y Hy; split; auto|]; split; [lia|auto].
Qed.

Lemma step_rise s p k : kinv s p -> at_level k p = true -> at_level top p = false ->
  (eps <= 1)%R /\ (delta <= prob (evolve_step io fexp mdl alg s p) (fun o => at_level (S k) (snd o)))%R.
Proof.
  intros (HW & HJ & HP) Hkp Htop; pose proof HP as (Hwf & Hg & Hlen & Hlow); pose proof Hk as (K1 & _).
  destruct (last_exists p (proj1 Hwf)) as [x Hx].
  assert (Hin : In x (individuals p)) by (destruct Hx as [l ->]; apply in_or_app; right; left; reflexivity).
  apply (last_level p x low) in Hlow; auto; apply (last_level p x k) in Hkp; auto.
  assert (Ht : level x < top).
  { destruct (Nat.lt_ge_cases (level x) top) as [|H]; auto; apply (last_level p x top) in H; auto; congruence. }
  destruct (Hg x Hin) as [Vx Gx].
  assert (He1 : (eps <= 1)%R) by (eapply Rle_trans; [apply ((proj2 (proj2 Hlad)) (alg_model alg s) x); auto|apply prob_le_one]).
  split; auto.
  assert (Hn1 : 1 <= length (individuals p)) by (destruct (last_nth p x Hx); auto).
  assert (H1 : (1 <= INR N)%R) by (apply (le_INR 1); lia).
  assert (Hfl : fits_usize (length (individuals p))) by (unfold fits_usize, usize_max; lia).
  assert (Hd : (0 <= delta <= 1)%R).
  { assert (Hb : (0 <= (1 - cr) * mr * eps <= 1)%R).
    { split; [apply Rmult_le_pos; [apply Rmult_le_pos|]; lra|].
      rewrite <- (Rmult_1_r 1); apply Rmult_le_compat; try lra; [apply Rmult_le_pos; lra|].
      rewrite <- (Rmult_1_r 1); apply Rmult_le_compat; lra. }
    unfold delta; split; [apply Rmult_le_pos; [lra|left; apply Rinv_0_lt_compat; lra]|].
    apply Rmult_le_reg_r with (4 * INR N)%R; [lra|]; unfold Rdiv; rewrite Rmult_assoc, Rinv_l by lra; lra. }
  unfold evolve_step; eapply prob_bind_ge; [exact Hd|exact (must_and _ _ _ (Wprep s p HW) (Jprep s p HW HJ HP))|].
  intros s' (HW' & Hb & Hpr & _).
  pose proof (known_safe _ HW') as J7; pose proof (Wsafe _ HW') as J6; pose proof (Wrep _ HW') as Hn'; rewrite (Wel _ HW').
  destruct (select_top_spec e p []) as (rest & tp & Ei & Et & Es); rewrite Es; cbn [bind app].
  destruct (alg_reproduction_parameters alg s') as [b n'] eqn:Er; cbn [fst snd] in *; subst n'.
  set (ms := alg_model alg s').
  assert (Hmust : must (breed io fexp mdl ms p b) (fun _ => True)).
  { eapply must_mono; [|apply (breed_G io fexp mdl raw Htot ms p b)]; auto; [|intros y Hy; apply K1, Hg; auto].
    apply safe_steady; auto; apply Hwf. }
  assert (Hg1 : (delta <= prob (generate_new_population io fexp mdl ms (b, n) p tp) (existsb (rise x)))%R).
  { eapply Rle_trans; [apply (breed_rise ms p b x); auto|].
    assert (Htp : length tp <= e) by (rewrite Et; apply Nat.le_min_l).
    unfold generate_new_population; destruct (n - length tp) as [|[|m]] eqn:Em; [lia|lia|].
    eapply Rle_trans; [apply (repeat_some _ (rise x) (S (S m))); [exact Hmust|lia]|].
    match goal with |- (?u <= _)%R => rewrite <- (Rmult_1_l u) end; apply prob_bind_low; [lra|].
    intros l _ H; cbn [prob]; rewrite existsb_app, H, orb_true_r; lra. }
  eapply Rle_trans; [exact Hg1|].
  match goal with |- (?u <= _)%R => rewrite <- (Rmult_1_l u) end; apply prob_bind_low; [lra|].
  intros off Hoff Hr; rewrite prob_one; [lra|].
  apply existsb_exists in Hr as (y & Hy & Hr).
  assert (Hne : off <> []) by (intros ->; destruct Hy).
  apply generate_may in Hoff as (news & Eo & _ & Hbr).
  assert (Ho : forall z, In z off -> is_valid io z = true /\ good z).
  { assert (Hmem : only_members io fexp (parent_selector b) p) by (apply known_members; auto; apply Hwf).
    intros z Hz; rewrite Eo in Hz; apply in_app_or in Hz as [Hz|Hz]; [apply Hg; rewrite Ei; apply in_or_app; auto|].
    apply Hbr in Hz; split; [eapply breed_valid_may; [exact Hmem| |exact Hz]|eapply breed_keeps; [exact Hk|exact Hmem| |exact Hz]]; intros w Hw; apply Hg; auto. }
  assert (Hno : no_nan io off) by (intros z Hz; apply Hnum, Ho; auto).
  eapply must_bind_intro; [apply (replace_must io p off Hne)|].
  intros [p' old] (Hmade & _); cbn [must fst snd] in *.
  destruct Hmade as (M0 & M1 & M2); assert (Hmade : made io off p') by (split; auto).
  destruct (last_exists p' M0) as [z Hz].
  destruct (made_last io off p' z Heq Hno Hmade Hz) as [Hzo Hmax].
  apply existsb_exists; exists z; split; [destruct Hz as [l ->]; apply in_or_app; right; left; reflexivity|].
  apply Nat.leb_le; apply andb_true_iff in Hr as [_ Hr]; apply Nat.ltb_lt in Hr.
  assert (level y <= level z); [|lia].
  apply (proj1 Hlad); try (apply Ho; auto); apply fle_spec; repeat split; try (apply Hno; auto); apply Hmax; auto.
Qed.

(** ** The loop *)
Lemma goal_level s p : kinv s p -> existsb goal (individuals p) = at_level top p.
Proof.
  intros (_ & _ & _ & Hg & _); unfold at_level.
  assert (G : forall l, (forall y, In y l -> good y) -> existsb goal l = existsb (fun x => top <=? level x) l).
  { induction l as [|h t IH]; intros H; cbn [existsb]; auto; rewrite IH by (intros; apply H; right; auto); f_equal.
    pose proof (proj1 (proj2 Hlad) h (H h (or_introl eq_refl))) as E.
    destruct (Nat.leb_spec top (level h)); [apply E; auto|]; destruct (goal h); auto; exfalso; assert (top <= level h) by (apply E; auto); lia. }
  apply G; intros y Hy; apply Hg; auto.
Qed.

Definition found (r : run_result I S0 PS) : bool := existsb goal (individuals (r_population r)).

Lemma loop_done f s p (ps : PS) tr : existsb goal (individuals p) = true ->
  prob (evolve_loop io fexp mdl alg (quiet (until goal)) (S f) s p ps tr) found = 1%R.
Proof. intros H; cbn [evolve_loop]; unfold quiet, until at 1; rewrite H; cbn [bind negb prob]; unfold found; cbn [r_population]; rewrite H; reflexivity. Qed.

Lemma loop_on f s p (ps : PS) tr : existsb goal (individuals p) = false ->
  evolve_loop io fexp mdl alg (quiet (until goal)) (S f) s p ps tr =
  bind (evolve_step io fexp mdl alg s p) (fun o => let '(s', p') := o in evolve_loop io fexp mdl alg (quiet (until goal)) f s' p' ps (tr ++ [p])).
Proof. intros H; cbn [evolve_loop]; unfold quiet at 1, until at 1; rewrite H; reflexivity. Qed.

Lemma loop_conv g : forall s p (ps : PS) tr k, kinv s p -> k <= top -> at_level k p = true ->
  (1 - INR (top - k) / delta / INR (S g) <= prob (evolve_loop io fexp mdl alg (quiet (until goal)) (S g) s p ps tr) found)%R.
Proof.
  assert (H1 : (1 <= INR N)%R) by (apply (le_INR 1); lia).
  assert (Hd0 : (0 < delta)%R) by (unfold delta; apply Rdiv_lt_0_compat; [apply Rmult_lt_0_compat; [apply Rmult_lt_0_compat|]|]; lra).
  assert (Hid : (0 < / delta)%R) by (apply Rinv_0_lt_compat; auto).
  assert (Hnn : forall j f, (0 <= INR j / delta / INR (S f))%R).
  { intros j f; apply Rmult_le_pos; [apply Rmult_le_pos; [apply pos_INR|lra]|left; apply Rinv_0_lt_compat, lt_0_INR; lia]. }
  induction g as [|g IH]; intros s p ps tr k HK Hkt Hkp;
    (destruct (existsb goal (individuals p)) eqn:Hgoal; [rewrite loop_done by auto|]).
  - specialize (Hnn (top - k) 0); lra.
  - destruct (step_rise s p k HK Hkp) as [_ Hr]; [rewrite <- (goal_level s p HK); auto|].
    assert (Hd1 : (delta <= 1)%R) by (eapply Rle_trans; [exact Hr|apply prob_le_one]).
    assert (Hk1 : k < top).
    { destruct (Nat.eq_dec k top) as [->|]; [|lia]; rewrite (goal_level s p HK) in Hgoal; congruence. }
    assert (HI : (1 <= INR (top - k))%R) by (apply (le_INR 1); lia).
    eapply Rle_trans; [|apply prob_nonneg]; cbn [INR]; unfold Rdiv; rewrite Rinv_1, Rmult_1_r.
    assert (1 <= / delta)%R by (rewrite <- Rinv_1; apply Rinv_le; auto).
    assert (1 * 1 <= INR (top - k) * / delta)%R by (apply Rmult_le_compat; lra). lra.
  - specialize (Hnn (top - k) (S g)); lra.
  - destruct (step_rise s p k HK Hkp) as [_ Hr]; [rewrite <- (goal_level s p HK); auto|].
    assert (Hk1 : k < top).
    { destruct (Nat.eq_dec k top) as [->|]; [|lia]; rewrite (goal_level s p HK) in Hgoal; congruence. }
    set (f := INR (S g)) in *; assert (Hf : (1 <= f)%R) by (apply (le_INR 1); lia).
    assert (Ef : INR (S (S g)) = (f + 1)%R) by (unfold f; rewrite (S_INR (S g)); reflexivity).
    set (r := INR (top - k)) in *.
    assert (Er : INR (top - S k) = (r - 1)%R).
    { unfold r; replace (top - k) with (S (top - S k)) by lia; rewrite S_INR; ring. }
    rewrite Ef; destruct (Rle_or_lt (r / delta) (f + 1)) as [Hle|Hgt].
    2: { eapply Rle_trans; [|apply prob_nonneg].
         assert (1 < r / delta / (f + 1))%R; [|lra].
         apply Rmult_lt_reg_r with (f + 1)%R; [lra|]; unfold Rdiv at 1; rewrite Rmult_assoc, Rinv_l by lra; lra. }
    set (a := (1 - (r - 1) / delta / f)%R); set (b := (1 - r / delta / f)%R).
    assert (Hrd : (r / delta = (r - 1) / delta + / delta)%R) by (field; lra).
    assert (Hif : (0 < / f)%R) by (apply Rinv_0_lt_compat; lra).
    assert (Hab : (a - b = / delta * / f)%R) by (unfold a, b; field; lra).
    assert (Hab0 : (0 <= a - b)%R) by (rewrite Hab; apply Rmult_le_pos; lra).
    assert (Ha1 : (a <= 1)%R) by (unfold a; rewrite <- Er; unfold f; specialize (Hnn (top - S k) g); lra).
    rewrite loop_on by auto.
    eapply Rle_trans; [|apply (prob_bind_gain _ _ _ (fun o => at_level (S k) (snd o)) found a b ltac:(lra) (kinv_step s p HK))].
    + apply Rle_trans with (b + (a - b) * delta)%R; [|apply Rplus_le_compat_l, Rmult_le_compat_l; auto].
      rewrite Hab; replace (/ delta * / f * delta)%R with (/ f)%R by (field; lra).
      unfold b; set (E := (r / delta)%R) in *.
      assert (Hx : (E / (f + 1) - (E - 1) / f = (f + 1 - E) / (f * (f + 1)))%R) by (field; lra).
      assert (Hy : (0 <= (f + 1 - E) / (f * (f + 1)))%R).
      { apply Rmult_le_pos; [lra|left; apply Rinv_0_lt_compat, Rmult_lt_0_compat; lra]. }
      assert (Hz : ((E - 1) / f = E / f - / f)%R) by (field; lra).
      lra.
    + intros [s' p'] [HK' Hup]; cbn [fst snd] in *; apply IH; auto.
    + intros [s' p'] [HK' Hup] Hq; cbn [fst snd] in *; unfold a; rewrite <- Er; apply IH; auto.
Qed.
(** ** The whole run *)
Lemma Forall2_In_l {A B} (Q : A -> B -> Prop) l r a : Forall2 Q l r -> In a l -> exists b, In b r /\ Q a b.
Proof. induction 1 as [|a' b l r Hq H IH]; cbn; [tauto|]; intros [->|Ha]; [eauto|]; destruct (IH Ha) as (b' & Hb & Hq'); eauto. Qed.

Lemma climb_run g s q s1 init (ps : PS) :
  low <= top -> alg_configure alg s q = Ret s1 -> W s1 -> length init <= N ->
  must (initialize_population io mdl (alg_model alg s1) init) (J s1) ->
  startable_at io mdl raw level low (alg_model alg s1) init ->
  (1 - INR (top - low) / delta / INR (S g) <=
   prob (evolve_population io fexp mdl alg (quiet (until goal)) (S g) s init q ps) found)%R.
Proof.
  intros Hlt Ecfg HW HI HJ (Hraw & x0 & Hx0 & Hv0).
  assert (Hfi : fits_usize (length init)) by (unfold fits_usize, usize_max; lia).
  assert (Hfn : fits_usize n) by (unfold fits_usize, usize_max; lia).
  unfold evolve_population; rewrite Ecfg; cbn [bind].
  assert (Hinit : must (initialize_population io mdl (alg_model alg s1) init) (kinv s1)).
  { eapply must_strengthen; [exact HJ|].
    intros p Hp HJ1; split; [exact HW|]; split; [exact HJ1|].
    destruct (init_inv io mdl n e W ltac:(lia) Hnum s1 (alg_model alg s1) init p)
      as ((_ & Hwf & Hav & _) & _ & ev & HF & Hb); auto.
    destruct (init_keeps io mdl raw good Hk n e W ltac:(lia) s1 (alg_model alg s1) init p)
      as (_ & _ & _ & Hg); auto.
    split; [auto|]; split; [intros y Hy; split; auto|]; split.
    - unfold initialize_population in Hp; apply may_bind in Hp as (ev' & Hev & Hp).
      assert (Hne : filter (is_valid io) ev' <> []) by (intros E; rewrite E in Hp; eapply must_fail_no_may; [apply (new_empty io)|exact Hp]).
      destruct (must_may _ _ _ (new_must io _ Hne) Hp) as ((_ & _ & _ & Hl & _) & _).
      assert (length ev' = length init).
      { clear - Hev; revert ev' Hev; induction init as [|a l IH]; intros ev' Hev; cbn [mapM] in Hev; [cbn in Hev; subst; auto|].
        apply may_bind in Hev as (b & _ & Hev); apply may_bind in Hev as (bs & Hbs & Hev); cbn in Hev; subst; cbn; f_equal; auto. }
      assert (length (filter (is_valid io) ev') <= length ev').
      { clear; induction ev' as [|a l IH]; cbn; auto; destruct (is_valid io a); cbn; lia. }
      lia.
    - destruct (Forall2_In_l _ _ _ x0 HF Hx0) as (y & Hy & Hey); destruct (must_may _ _ _ Hv0 Hey) as [Vy Ly].
      destruct (Hb Heq y Hy Vy) as (z & Hz & Hle).
      apply existsb_exists; exists z; split; auto; apply Nat.leb_le.
      assert (good y) by (destruct Hk as (_ & _ & _ & _ & K5); eapply K5; [|exact Hey]; rewrite Forall_forall in Hraw; auto).
      apply (proj1 Hlad) in Hle; auto; lia. }
  assert (Hnn : (0 <= INR (top - low) / delta / INR (S g))%R).
  { apply Rmult_le_pos; [apply Rmult_le_pos; [apply pos_INR|]|]; left; apply Rinv_0_lt_compat; [|apply lt_0_INR; lia].
    unfold delta; apply Rdiv_lt_0_compat; [apply Rmult_lt_0_compat; [apply Rmult_lt_0_compat|]|apply Rmult_lt_0_compat; [|apply lt_0_INR]]; try lra; lia. }
  destruct (Rle_or_lt (1 - INR (top - low) / delta / INR (S g)) 0) as [Hneg|Hpos];
    [eapply Rle_trans; [exact Hneg|apply prob_nonneg]|].
  eapply prob_bind_ge; [lra|exact Hinit|].
  intros p HK; apply loop_conv; auto; apply HK.
Qed.
End Climb.
