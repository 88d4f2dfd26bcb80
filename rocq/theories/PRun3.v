(** * PRun3: the claims about runs (C59, C62-C67). *)
From Coq Require Import List Bool Arith NArith ZArith Reals Lia Lra Permutation.
From Flocq Require Import Core BinarySingleNaN.
From Verif Require Import Rnd LRnd F64 LF64 MStats MPopulation MSelection MModel MAlgorithms SpecF SpecA ExF ExM
  PSelection PSelection2 PLinear PSelection3 PStats PPopulation PModel PInterp PAlgorithms PAlgorithms2 PRun PRun2.
Import ListNotations.
Local Open Scope nat_scope.

Lemma fle_trans a b c : fle a b = true -> fle b c = true -> fle a c = true.
Proof. rewrite !fle_spec; intros (A & B & C) (D & E & F); split; [auto|split; [auto|]]; eapply Rle_trans; eauto. Qed.

Lemma last_nth {A} (x : A) l d : nth_error (x :: l) (length l) = Some (last (x :: l) d).
Proof. revert x; induction l as [|y l IH]; intros x; [reflexivity|]; apply (IH y). Qed.

(** ** C63 *)
Section Protocol.
Context {I : Type} (io : individual_ops I) (fexp : f64 -> f64) {MS : Type} (mdl : model I MS).
Context {P S0 : Type} (alg : algorithm I MS P S0) {PS : Type}.

Lemma init_generation ms l p : may (initialize_population io mdl ms l) p -> generation p = 0.
Proof.
  unfold initialize_population; intros H; apply may_bind in H as (ev & _ & H).
  unfold population_new in H; apply may_bind in H as ([l' st] & _ & H); cbn in H; subst; reflexivity.
Qed.

Lemma protocol_any (progress : PS -> S0 -> population I -> M (bool * PS * S0)) fuel s init q ps r :
  may (evolve_population io fexp mdl alg progress fuel s init q ps) r ->
  (forall k p, nth_error (r_trace r) k = Some p -> generation p = k) /\
  r_trace r <> [] /\ nth_error (r_trace r) (length (r_trace r) - 1) = Some (r_population r).
Proof.
  unfold evolve_population; intros H; apply may_bind in H as (s1 & _ & H); apply may_bind in H as (p & Hp & H).
  apply init_generation in Hp; destruct (loop_trace io fexp mdl alg _ _ _ _ _ _ _ H) as (t & E1 & E2 & E3).
  cbn [app] in E1; rewrite E1; split; [intros k q0 Hk; rewrite (E3 k q0 Hk); lia|]; split; [discriminate|].
  rewrite E2; cbn [length]; rewrite Nat.sub_succ, Nat.sub_0_r; apply last_nth.
Qed.

Lemma protocol (f : PS -> population I -> M (bool * PS)) fuel s init q ps r :
  may (evolve_population io fexp mdl alg (quiet f) fuel s init q ps) r ->
  asked f ps (r_trace r) (r_progress r).
Proof.
  unfold evolve_population; intros H; apply may_bind in H as (s1 & _ & H); apply may_bind in H as (p & Hp & H).
  destruct (loop_asked io fexp mdl alg _ _ _ _ _ _ _ H) as (t & E1 & E2); cbn [app] in E1; rewrite E1; auto.
Qed.

Lemma protocol_fuel (progress : PS -> S0 -> population I -> M (bool * PS * S0)) fuel fuel' s init q ps r :
  fuel <= fuel' ->
  may (evolve_population io fexp mdl alg progress fuel s init q ps) r ->
  may (evolve_population io fexp mdl alg progress fuel' s init q ps) r.
Proof.
  intros Hle; unfold evolve_population; intros H; apply may_bind in H as (s1 & H1 & H); apply may_bind in H as (p & Hp & H).
  apply may_bind; exists s1; split; auto; apply may_bind; exists p; split; auto.
  replace fuel' with (fuel + (fuel' - fuel)) by lia; apply loop_fuel; auto.
Qed.
End Protocol.

(** ** C64-C66 for any algorithm with elites *)
Section Elites.
Context {I : Type} (io : individual_ops I) (fexp : f64 -> f64) {MS : Type} (mdl : model I MS).
Context {P S0 : Type} (alg : algorithm I MS P S0) (n e : nat) (J : S0 -> Prop) {PS : Type}.
Hypothesis Jprep : forall s p s', J s -> may (alg_prepare alg s p) s' -> J s'.
Hypothesis Jel : forall s, J s -> alg_select_elites alg s = select_top e.
Hypothesis Jrep : forall s, J s -> snd (alg_reproduction_parameters alg s) = n.
Hypothesis Jsel : forall s p, J s -> individuals p <> [] -> fits_usize (length (individuals p)) ->
  only_members io fexp (parent_selector (fst (alg_reproduction_parameters alg s))) p.
Hypothesis Hen : e < n.
Hypothesis Hn : fits_usize n.
Hypothesis Hval : valid_is_number io.

Definition best_in_last (r : run_result I S0 PS) : Prop :=
  forall p x, In p (r_trace r) -> In x (individuals p) ->
    exists y, In y (individuals (r_population r)) /\ fle (fitness io x) (fitness io y) = true.

Lemma run_good (f : PS -> population I -> M (bool * PS)) fuel s q s1 init ps r :
  alg_configure alg s q = Ret s1 -> J s1 -> fits_usize (length init) ->
  may (evolve_population io fexp mdl alg (quiet f) fuel s init q ps) r ->
  good_trace io n (r_trace r) /\ well_formed io (r_population r) /\
  (1 <= e -> equal_means_equal_fitness io -> best_in_last r /\
     exists evaluated, Forall2 (fun a b => may (m_evaluate mdl (alg_model alg s1) a) b) init evaluated /\
       forall x, In x evaluated -> is_valid io x = true ->
         exists y, In y (individuals (r_population r)) /\ fle (fitness io x) (fitness io y) = true).
Proof.
  intros Hc HJ Hf H0; destruct (protocol_any io fexp mdl alg _ _ _ _ _ _ _ H0) as (Hgen & _ & Hlast).
  unfold evolve_population in H0; rewrite Hc in H0; cbn [bind] in H0; apply may_bind in H0 as (p & Hp & H).
  destruct (init_inv io mdl n e J Hen Hval s1 _ _ p HJ Hf Hp) as (Hi & Hg0 & ev & Hev & Hbest).
  destruct (loop_inv io fexp mdl alg f (Inv io J) (grows io n e) fuel
    (step_inv io fexp mdl alg n e J Jprep Jel Jrep Jsel Hen Hn Hval) _ _ _ _ _ Hi H) as (t & Et & A & B & C).
  cbn [app] in Et; rewrite Et in Hgen, Hlast.
  split; [|split; [apply C|]].
  - intros k q0 Hk; rewrite Et in Hk; destruct (A k q0 Hk) as (s' & _ & Hw & Hv & _).
    split; [auto|]; split; auto; split; auto; intros Hk1.
    destruct k as [|k]; [lia|]; assert (Hlt : k < length (p :: t)) by (apply nth_error_some_lt in Hk; lia).
    destruct (nth_error_lt _ _ Hlt) as [q1 Hq1]; apply (B k q1 q0 Hq1 Hk).
  - intros He Heq.
    assert (Hchain : forall d k q0 q1, nth_error (p :: t) k = Some q0 -> nth_error (p :: t) (k + d) = Some q1 ->
      forall x, In x (individuals q0) -> exists y, In y (individuals q1) /\ fle (fitness io x) (fitness io y) = true).
    { induction d as [|d IH]; intros k q0 q1 H0 H1 x Hx.
      - rewrite Nat.add_0_r in H1; rewrite H0 in H1; injection H1 as <-; exists x; split; auto.
        destruct (A k q0 H0) as (s' & _ & (_ & Hnn & _) & _); apply fle_spec; pose proof (Hnn x Hx) as Hx'; unfold f_is_nan in Hx'; repeat split; auto; apply Rle_refl.
      - assert (Hlt : k + d < length (p :: t)) by (apply nth_error_some_lt in H1; lia).
        destruct (nth_error_lt _ _ Hlt) as [q2 Hq2]; destruct (IH k q0 q2 H0 Hq2 x Hx) as (y & Hy & Hle).
        replace (k + S d) with (S (k + d)) in H1 by lia.
        destruct (proj2 (B _ _ _ Hq2 H1) He Heq y Hy) as (z & Hz & Hle'); exists z; split; auto; eapply fle_trans; eauto. }
    assert (HB : best_in_last r).
    { intros q0 x Hq Hx; rewrite Et in Hq; apply In_nth_error in Hq as [k Hk].
      pose proof (nth_error_some_lt _ _ _ Hk) as Hlt.
      apply (Hchain (length (p :: t) - 1 - k) k q0); auto; replace (k + (length (p :: t) - 1 - k)) with (length (p :: t) - 1) by lia; auto. }
    split; auto; exists ev; split; auto; intros x Hx Vx.
    destruct (Hbest Heq x Hx Vx) as (y & Hy & Hle); destruct (HB p y) as (z & Hz & Hle'); [rewrite Et; left; auto|auto|].
    exists z; split; auto; eapply fle_trans; eauto.
Qed.

Lemma returned_best (r : run_result I S0 PS) x : well_formed io (r_population r) -> may (take_fittest (r_population r)) x ->
  In x (individuals (r_population r)) /\ forall y, In y (individuals (r_population r)) -> fle (fitness io y) (fitness io x) = true.
Proof.
  intros Hw H; destruct (fittest_max io _ Hw) as (x' & _ & E & Hin & _ & Hmax); rewrite E in H; cbn in H; subst; auto.
Qed.

Lemma extend_length (nr : M I) l size r : may (extend_population nr l size) r -> length r = length l + size.
Proof.
  unfold extend_population; destruct (Nat.eqb_spec size 0) as [->|]; intros H; [cbn in H; subst; lia|].
  apply may_bind in H as (news & Hn' & H); cbn in H; subst; apply may_repeatM in Hn' as [Hl _]; rewrite app_length; lia.
Qed.

Lemma extend_with_shape ms size seed r : size <> 0 -> may (extend_population_with mdl ms [] size seed) r ->
  exists news, r = seed :: news /\ length r = size.
Proof.
  intros Hs; unfold extend_population_with; rewrite (proj2 (Nat.eqb_neq _ _) Hs).
  destruct (Nat.eqb_spec size 1) as [->|H1]; intros H; [cbn in H; subst; exists []; auto|].
  apply may_bind in H as (news & Hn' & H); cbn in H; subst; apply may_repeatM in Hn' as [Hl _]; exists news; cbn; split; auto; lia.
Qed.

Lemma run_best (f : PS -> population I -> M (bool * PS)) fuel s q s1 nr ps x r :
  alg_configure alg s q = Ret s1 -> J s1 -> alg_initial_population_size alg q = n ->
  may (evolution_run io fexp mdl alg (quiet f) fuel s nr q ps) (x, r) ->
  In x (individuals (r_population r)) /\
  (1 <= e -> equal_means_equal_fitness io ->
   forall p y, In p (r_trace r) -> In y (individuals p) -> fle (fitness io y) (fitness io x) = true).
Proof.
  intros Hc HJ Hsz H; unfold evolution_run in H; apply may_bind in H as (init & Hi & H).
  apply may_bind in H as (r' & Hr & H); apply may_bind in H as (x' & Hx & H); cbn in H; injection H as -> ->.
  apply extend_length in Hi; cbn in Hi.
  destruct (run_good f fuel s q s1 init ps r Hc HJ) as (_ & Hw & Hb); auto; [unfold fits_usize in *; lia|].
  destruct (returned_best r x Hw Hx) as [Hin Hmax]; split; auto; intros He Heq p y Hp Hy.
  destruct (Hb He Heq) as [HB _]; destruct (HB p y Hp Hy) as (z & Hz & Hle); eapply fle_trans; eauto.
Qed.

Lemma individual_best (f : PS -> population I -> M (bool * PS)) fuel s q s1 seed ps x r :
  alg_configure alg s q = Ret s1 -> J s1 -> alg_initial_population_size alg q = n ->
  may (evolve_individual io fexp mdl alg (quiet f) fuel s seed q ps) (x, r) ->
  In x (individuals (r_population r)) /\
  (1 <= e -> equal_means_equal_fitness io ->
   (forall p y, In p (r_trace r) -> In y (individuals p) -> fle (fitness io y) (fitness io x) = true) /\
   exists seed', may (m_evaluate mdl (alg_model alg s1) seed) seed' /\
     (is_valid io seed' = true -> fle (fitness io seed') (fitness io x) = true)).
Proof.
  intros Hc HJ Hsz H; unfold evolve_individual in H; apply may_bind in H as (init & Hi & H).
  apply may_bind in H as (r' & Hr & H); apply may_bind in H as (x' & Hx & H); cbn in H; injection H as -> ->.
  apply extend_with_shape in Hi as (news & -> & Hl); [|lia].
  assert (Hfl : fits_usize (length (seed :: news))) by (rewrite Hl, Hsz; auto).
  destruct (run_good f fuel s q s1 _ ps r Hc HJ Hfl Hr) as (_ & Hw & Hb).
  destruct (returned_best r x Hw Hx) as [Hin Hmax]; split; auto; intros He Heq.
  destruct (Hb He Heq) as [HB (ev & Hev & Hb2)]; split.
  - intros p y Hp Hy; destruct (HB p y Hp Hy) as (z & Hz & Hle); eapply fle_trans; eauto.
  - inversion Hev as [|a b l l' Hab Hl' E1 E2]; subst; exists b; split; auto; intros Vb.
    destruct (Hb2 b (or_introl eq_refl) Vb) as (z & Hz & Hle); eapply fle_trans; eauto.
Qed.
End Elites.

(** ** Instances *)
Section Instances.
Context {I : Type} (io : individual_ops I) (fexp : f64 -> f64) {MS : Type} (mdl : model I MS).

Definition ga_inv (n e : nat) (K : selector I -> Prop) (s : ga_state I MS) : Prop :=
  ga_size s = n /\ ga_elite_size s = e /\ K (parent_selector (ga_breeding s)).
Definition aga_inv (n e : nat) (K : selector I -> Prop) (s : aga_state I MS) : Prop :=
  aga_size s = n /\ aga_elite_size s = e /\ K (parent_selector (aga_breeding s)).

Lemma ga_prep n e s p s' : selector_left_alone mdl -> ga_inv n e known s -> may (ga_prepare io fexp mdl s p) s' -> ga_inv n e known s'.
Proof.
  intros Hl (H1 & H2 & H3) H; unfold ga_prepare in H; apply may_bind in H as ([ms b] & Hp & H).
  apply may_bind in H as (sel & Hs & H); cbn in H; subst s'; apply Hl in Hp; split; [auto|split; [auto|]].
  cbn; rewrite Hp in Hs; eapply prepare_known; eauto.
Qed.
Lemma aga_prep n e s p s' : selector_left_alone mdl -> aga_inv n e known s -> may (aga_prepare io fexp mdl s p) s' -> aga_inv n e known s'.
Proof.
  intros Hl (H1 & H2 & H3) H; destruct (aga_adjust s p) as [[ref cr] mr] eqn:E.
  destruct (aga_prepare_may io fexp mdl s p s' H _ _ _ E) as (ms & b & sel & Hp & Hs & ->).
  apply Hl in Hp; split; [auto|split; [auto|]]; cbn in *; rewrite Hp in Hs; eapply prepare_known; eauto.
Qed.

Lemma ga_prep_must n e s p G : total_model mdl G -> ga_inv n e safe_selector s -> must (ga_prepare io fexp mdl s p) (ga_inv n e safe_selector).
Proof.
  intros (_ & _ & _ & _ & _ & Ht) (H1 & H2 & H3); unfold ga_prepare; eapply must_bind_intro; [apply Ht|].
  intros [ms b] Hb; cbn [snd] in Hb; eapply must_bind_intro; [apply prepare_safe; rewrite Hb; exact H3|].
  intros sel Hs; cbn; repeat split; auto.
Qed.
Lemma aga_prep_must n e s p G : total_model mdl G -> aga_inv n e safe_selector s -> must (aga_prepare io fexp mdl s p) (aga_inv n e safe_selector).
Proof.
  intros (_ & _ & _ & _ & _ & Ht) (H1 & H2 & H3); unfold aga_prepare; destruct (aga_adjust s p) as [[ref cr] mr].
  eapply must_bind_intro; [apply Ht|].
  intros [ms b] Hb; cbn [snd] in Hb; eapply must_bind_intro; [apply prepare_safe; rewrite Hb; exact H3|].
  intros sel Hs; cbn; repeat split; auto.
Qed.

(** A run that gives a result was configured *)
Lemma ga_configured_accepted (s : ga_state I MS) q s1 : fits_usize (ga_population_size q) -> may (ga_configure s q) s1 -> ga_accepted q.
Proof.
  intros Hf H.
  destruct (in_unit_halfopen (ga_elitism_rate q)) eqn:E1, (in_unit_closed (ga_crossover_rate q)) eqn:E2, (in_unit_closed (ga_mutation_rate q)) eqn:E3;
      destruct (Nat.eqb_spec (ga_population_size q) 0) as [E0|E0]; unfold ga_configure, ga_validate in H; try rewrite E0 in H;
      try rewrite (proj2 (Nat.eqb_neq _ _) E0) in H; rewrite ?E1, ?E2, ?E3 in H; cbn [negb massert bind] in H; try (destruct H; fail).
    apply ratio_spec in E1; apply rate_spec in E2; apply rate_spec in E3.
    split; auto; split; auto; split; auto; split; auto.
    destruct (strategy_dec I (ga_selection_strategy q)) as [[A _]|[_ A]]; auto.
    rewrite A, interpolate_is_bound in H by (auto; apply ratio_spec; auto); destruct H.
Qed.
Lemma ga_configured s q s1 : fits_usize (ga_population_size q) -> may (ga_configure s q) s1 ->
  ga_configure s q = Ret s1 /\ exists e, elite_count (ga_population_size q) (ga_elitism_rate q) e /\ ga_inv (ga_population_size q) e known s1 /\ ga_model s1 = ga_model s /\
    (robust_strategy (ga_selection_strategy q) -> ga_inv (ga_population_size q) e safe_selector s1).
Proof.
  intros Hf H; pose proof (ga_configured_accepted s q s1 Hf H) as D.
  destruct (ga_configure_ok s q Hf D) as (e & sel & He & Hs & Hc); rewrite Hc in H |- *; cbn in H; subst s1.
  split; auto; exists e; split; auto; split; [|split; auto; intros Hr; repeat split; auto; cbn; eapply created_safe; eauto].
  repeat split; auto; cbn; eapply created_known; eauto.
Qed.
Lemma aga_configured_accepted (s : aga_state I MS) q s1 : fits_usize (aga_population_size q) -> may (aga_configure s q) s1 -> aga_accepted q.
Proof.
  intros Hf H.
  unfold aga_configure, aga_validate in H.
    destruct (Nat.eqb_spec (aga_population_size q) 0) as [E0|E0]; [destruct H|cbn [negb massert bind] in H].
    destruct (in_unit_halfopen (aga_elitism_rate q)) eqn:E1; [|destruct H]; cbn [massert bind] in H.
    destruct (in_unit_closed (fst (aga_crossover_rate_range q))) eqn:E2; [|destruct H]; cbn [massert bind] in H.
    destruct (in_unit_closed (snd (aga_crossover_rate_range q))) eqn:E3; [|destruct H]; cbn [massert bind] in H.
    destruct (in_unit_closed (fst (aga_mutation_rate_range q))) eqn:E4; [|destruct H]; cbn [massert bind] in H.
    destruct (in_unit_closed (snd (aga_mutation_rate_range q))) eqn:E5; [|destruct H]; cbn [massert bind] in H.
    rewrite interpolate_is_bound in H by auto; cbn [bind] in H.
    apply ratio_spec in E1; apply rate_spec in E2; apply rate_spec in E3; apply rate_spec in E4; apply rate_spec in E5.
    split; auto; split; auto; split; auto; split; auto; split; auto; split; auto.
    destruct (strategy_dec I (aga_selection_strategy q)) as [[A _]|[_ A]]; auto; rewrite A in H; destruct H.
Qed.
Lemma aga_configured s q s1 : fits_usize (aga_population_size q) -> may (aga_configure s q) s1 ->
  aga_configure s q = Ret s1 /\ exists e, elite_count (aga_population_size q) (aga_elitism_rate q) e /\ aga_inv (aga_population_size q) e known s1 /\ aga_model s1 = aga_model s /\
    (robust_strategy (aga_selection_strategy q) -> aga_inv (aga_population_size q) e safe_selector s1).
Proof.
  intros Hf H; pose proof (aga_configured_accepted s q s1 Hf H) as D.
  destruct (aga_configure_ok s q Hf D) as (e & sel & He & Hs & Hc); rewrite Hc in H |- *; cbn in H; subst s1.
  split; auto; exists e; split; auto; split; [|split; auto; intros Hr; repeat split; auto; cbn; eapply created_safe; eauto].
  repeat split; auto; cbn; eapply created_known; eauto.
Qed.

Lemma one_elite size ratio e : elite_count size ratio e -> (Z.of_nat size <= 2 ^ 53)%Z -> (1 <= INR size * B2R ratio)%R -> 1 <= e.
Proof.
  intros [_ H] Hs Hr; specialize (H Hs); assert (1 <= Zfloor (INR size * B2R ratio))%Z by (apply Zfloor_lub; auto); lia.
Qed.
End Instances.
