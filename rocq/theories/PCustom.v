(** * PCustom: algorithms with the default select_elites (C90). *)
From Coq Require Import List Bool Arith NArith ZArith Reals Lia Lra Permutation.
From Flocq Require Import Core BinarySingleNaN.
From Verif Require Import Rnd LRnd F64 LF64 MStats MPopulation MSelection MModel MAlgorithms SpecF SpecA SpecG
  PSelection PPopulation PModel PAlgorithms PAlgorithms3 PRun PRun3.
Import ListNotations.
Local Open Scope nat_scope.

Section Custom.
Context {I : Type} (io : individual_ops I) (fexp : f64 -> f64) {MS : Type} (mdl : model I MS).
Context {P S0 : Type} (alg : algorithm I MS P S0) {PS : Type} (progress : PS -> S0 -> population I -> M (bool * PS * S0)).

(** An invariant of steps and closure calls holds of every population shown. *)
Lemma loop_inv_any (Inv : S0 -> population I -> Prop) (R : population I -> population I -> Prop) fuel :
  (forall ps s p c ps' s', Inv s p -> may (progress ps s p) (c, ps', s') -> Inv s' p) ->
  (forall s p s' p', Inv s p -> may (evolve_step io fexp mdl alg s p) (s', p') -> Inv s' p' /\ R p p') ->
  forall s p ps tr r, Inv s p ->
  may (evolve_loop io fexp mdl alg progress fuel s p ps tr) r ->
  exists t, r_trace r = tr ++ p :: t /\
    (forall k q, nth_error (p :: t) k = Some q -> exists s', Inv s' q) /\
    (forall k q q', nth_error (p :: t) k = Some q -> nth_error (p :: t) (S k) = Some q' -> R q q').
Proof.
  intros Hprog Hstep; induction fuel as [|n IH]; intros s p ps tr r Hi H; [destruct H|]; cbn [evolve_loop] in H.
  apply may_bind in H as ([[c ps'] s1] & Hp & H); pose proof (Hprog _ _ _ _ _ _ Hi Hp) as Hi1; destruct c.
  - apply may_bind in H as ([s' p'] & Hs & H); destruct (Hstep _ _ _ _ Hi1 Hs) as [Hi' HR].
    destruct (IH _ _ _ _ _ Hi' H) as (t & E & A & B); exists (p' :: t); rewrite E, <- app_assoc; split; [reflexivity|]; split.
    + intros [|k] q; cbn [nth_error]; [intros [= <-]; eauto|apply A].
    + intros [|k] q q'; [cbn; intros [= <-] [= <-]; auto|]; apply (B k).
  - cbn in H; subst r; exists []; repeat split; auto; [|intros [|k] q q'; cbn; try discriminate; destruct k; discriminate].
    intros [|k] q; cbn [nth_error]; [intros [= <-]; eauto|destruct k; discriminate].
Qed.

(** From neighbours to all pairs *)
Lemma chain (R : population I -> population I -> Prop) (tr : list (population I)) :
  (forall p, In p tr -> R p p) -> (forall p q q', R p q -> R q q' -> R p q') ->
  (forall k q q', nth_error tr k = Some q -> nth_error tr (S k) = Some q' -> R q q') ->
  forall j k p p', j <= k -> nth_error tr j = Some p -> nth_error tr k = Some p' -> R p p'.
Proof.
  intros Hr Ht Hs j k p p' Hjk Hp Hp'; remember (k - j) as d eqn:Ed; revert j k p p' Hjk Hp Hp' Ed; induction d as [|d IH]; intros.
  - replace k with j in * by lia; rewrite Hp in Hp'; injection Hp' as <-; apply Hr; eapply nth_error_In; eauto.
  - destruct (nth_error_lt tr (k - 1)) as [q Hq]; [apply nth_error_some_lt in Hp'; lia|].
    apply Ht with q; [eapply (IH j (k - 1)); eauto; lia|]; apply (Hs (k - 1)); auto; replace (S (k - 1)) with k by lia; auto.
Qed.

Section Best.
Variables (q : P) (J : S0 -> Prop).
Hypothesis HJ : kept alg progress q J.
Hypothesis Hel : default_elites alg J.
Hypothesis Hbr : breeds_members io fexp alg J.
Hypothesis Hval : valid_is_number io.

Definition Inv0 (s : S0) (p : population I) : Prop := Inv io J s p.

Lemma custom_step s p s' p' : Inv0 s p -> may (evolve_step io fexp mdl alg s p) (s', p') ->
  Inv0 s' p' /\ (equal_means_equal_fitness io -> forall x, In x (individuals p) ->
    exists y, In y (individuals p') /\ fle (fitness io x) (fitness io y) = true).
Proof.
  intros (Js & Hw & Hv & Hf) H; apply step_may in H as (el & off & H1 & H2 & H3 & H4 & Hne).
  destruct HJ as (_ & Jprep & _); pose proof (Jprep _ _ _ Js H1) as Js'; rewrite (Hel s' p [] Js') in H2.
  destruct (default_elites_best I io p [] Hw) as (b0 & Eb & Hb0 & Hmax); rewrite Eb in H2; cbn in H2; subst el.
  destruct (Hbr s' Js') as [Hn Hsel].
  destruct (alg_reproduction_parameters alg s') as [b n] eqn:Er; cbn [fst snd] in *.
  apply generate_may in H3 as (news & Eo & El & Hb).
  pose proof Hw as (Hpne & Hnn & Hso & Hst).
  assert (Hvo : forall x, In x off -> is_valid io x = true).
  { intros x Hx; rewrite Eo in Hx; apply in_app_or in Hx as [[<-|[]]|Hx]; [apply Hv; auto|].
    apply Hb in Hx; eapply breed_valid_may; [| |exact Hx]; [|exact Hv].
    intros o Ho; eapply Hsel; eauto. }
  assert (Hno : no_nan io off) by (intros x Hx; apply Hval, Hvo; auto).
  destruct (must_may _ _ _ (replace_must io p off Hne) H4) as (Hm & _ & _ & _); cbn [fst] in Hm.
  pose proof (made_well_formed io off p' Hno Hm) as Hw'.
  pose proof Hm as (M1 & (M2 & M2') & M3 & M4 & M5 & M6).
  split.
  - split; [auto|]; split; [auto|]; split; [intros x Hx; apply Hvo; auto|].
    rewrite Eo, app_length, El in M4; cbn [length] in M4; unfold appended in M4; unfold fits_usize, usize_max in *; destruct (_ =? 1) eqn:E1; lia.
  - intros Heq x Hx.
    destruct (fittest_max io p' Hw') as (y & Hy & _ & Hin & _); exists y; split; auto.
    apply fle_trans with (fitness io b0); [auto|].
    apply (best_kept io off p' y Hno ltac:(intros; auto) Hm Hy b0); rewrite Eo; cbn; auto.
Qed.

Lemma custom_run fuel s init ps r : fits_usize (length init) -> equal_means_equal_fitness io ->
  may (evolve_population io fexp mdl alg progress fuel s init q ps) r ->
  never_worse io (r_trace r) /\ well_formed io (r_population r) /\
  exists s1 evaluated, may (alg_configure alg s q) s1 /\ Forall2 (fun a b => may (m_evaluate mdl (alg_model alg s1) a) b) init evaluated /\
    forall x, In x evaluated -> is_valid io x = true ->
      exists y, In y (individuals (r_population r)) /\ fle (fitness io x) (fitness io y) = true.
Proof.
  intros Hf Heq H0; destruct (protocol_any io fexp mdl alg _ _ _ _ _ _ _ H0) as (_ & Htr & Hlast).
  unfold evolve_population in H0; apply may_bind in H0 as (s1 & Hc & H0); apply may_bind in H0 as (p & Hp & H).
  pose proof HJ as (Jc & _ & Jp).
  destruct (init_inv io mdl 1 0 J (le_n 1) Hval s1 _ _ p (Jc _ _ Hc) Hf Hp) as (Hi & _ & ev & Hev & Hbest).
  refine (match loop_inv_any Inv0 (fun p p' => forall x, In x (individuals p) -> exists y, In y (individuals p') /\ fle (fitness io x) (fitness io y) = true)
    fuel _ _ s1 p ps [] r Hi H with ex_intro _ t (conj Et (conj A B)) => _ end).
  - intros ps0 s0 p0 c ps' s' (J0 & J1) Hpr; split; auto; eapply Jp; eauto.
  - intros s0 p0 s' p' Hi0 Hs; destruct (custom_step _ _ _ _ Hi0 Hs) as [X Y]; split; auto.
  - cbn [app] in Et.
    assert (Hw : forall p0, In p0 (r_trace r) -> well_formed io p0).
    { intros p0 Hp0; rewrite Et in Hp0; apply In_nth_error in Hp0 as [k Hk]; destruct (A k p0 Hk) as (s' & _ & W & _); exact W. }
    assert (HB : never_worse io (r_trace r)).
    { intros j k p1 p2 x Hjk H1 H2 Hx; revert x Hx.
      refine (chain (fun p p' => forall x, In x (individuals p) -> exists y, In y (individuals p') /\ fle (fitness io x) (fitness io y) = true)
        (r_trace r) _ _ _ j k p1 p2 Hjk H1 H2).
      - intros p0 Hp0 x Hx; exists x; split; auto; destruct (Hw p0 Hp0) as (_ & Hnn & _); pose proof (Hnn x Hx) as Hx'; unfold f_is_nan in Hx'.
        apply fle_spec; repeat split; auto; apply Rle_refl.
      - intros q1 q2 q3 R1 R2 x Hx; destruct (R1 x Hx) as (y & Hy & L1); destruct (R2 y Hy) as (z & Hz & L2).
        exists z; split; auto; eapply fle_trans; eauto.
      - rewrite Et; exact B. }
    split; auto; split; [apply Hw; eapply nth_error_In; eauto|].
    exists s1, ev; split; auto; split; auto; intros x Hx Vx; destruct (Hbest Heq x Hx Vx) as (y & Hy & Hle).
    destruct (HB 0 (length (r_trace r) - 1) p (r_population r) y) as (z & Hz & Hle'); auto; [lia|rewrite Et; reflexivity|].
    exists z; split; auto; eapply fle_trans; eauto.
Qed.

Lemma never_worse_last fuel s init ps (r : run_result I S0 PS) x :
  may (evolve_population io fexp mdl alg progress fuel s init q ps) r -> never_worse io (r_trace r) ->
  (forall y, In y (individuals (r_population r)) -> fle (fitness io y) (fitness io x) = true) ->
  forall p y, In p (r_trace r) -> In y (individuals p) -> fle (fitness io y) (fitness io x) = true.
Proof.
  intros H0 HB Hmax p y Hp Hy; destruct (protocol_any io fexp mdl alg _ _ _ _ _ _ _ H0) as (_ & _ & Hlast).
  apply In_nth_error in Hp as [k Hk]; destruct (HB k (length (r_trace r) - 1) p (r_population r) y) as (z & Hz & Hle); auto.
  - apply nth_error_some_lt in Hk; lia.
  - eapply fle_trans; eauto.
Qed.

Lemma custom_best fuel s nr ps x r : fits_usize (alg_initial_population_size alg q) -> equal_means_equal_fitness io ->
  may (evolution_run io fexp mdl alg progress fuel s nr q ps) (x, r) ->
  never_worse io (r_trace r) /\ In x (individuals (r_population r)) /\
  forall p y, In p (r_trace r) -> In y (individuals p) -> fle (fitness io y) (fitness io x) = true.
Proof.
  intros Hf Heq H; unfold evolution_run in H; apply may_bind in H as (init & Hi & H).
  apply may_bind in H as (r' & Hr & H); apply may_bind in H as (x' & Hx & H); cbn in H; injection H as -> ->.
  apply (extend_length 1 0 (le_n 1)) in Hi; cbn in Hi.
  destruct (custom_run fuel s init ps r) as (HB & Hw & _); auto; [rewrite Hi; auto|].
  destruct (returned_best io r x Hw Hx) as [Hin Hmax]; split; auto; split; auto; eapply never_worse_last; eauto.
Qed.

Lemma custom_seed fuel s seed ps x r : fits_usize (alg_initial_population_size alg q) -> equal_means_equal_fitness io ->
  may (evolve_individual io fexp mdl alg progress fuel s seed q ps) (x, r) ->
  never_worse io (r_trace r) /\ In x (individuals (r_population r)) /\
  (forall p y, In p (r_trace r) -> In y (individuals p) -> fle (fitness io y) (fitness io x) = true) /\
  exists s1 seed', may (alg_configure alg s q) s1 /\ may (m_evaluate mdl (alg_model alg s1) seed) seed' /\
    (is_valid io seed' = true -> fle (fitness io seed') (fitness io x) = true).
Proof.
  intros Hf Heq H; unfold evolve_individual in H; apply may_bind in H as (init & Hi & H).
  apply may_bind in H as (r' & Hr & H); apply may_bind in H as (x' & Hx & H); cbn in H; injection H as -> ->.
  destruct (Nat.eq_dec (alg_initial_population_size alg q) 0) as [E0|E0].
  { rewrite E0 in Hi; cbn in Hi; subst init; exfalso.
    unfold evolve_population in Hr; apply may_bind in Hr as (s1 & _ & Hr); apply may_bind in Hr as (p & Hp & _).
    cbn in Hp; eapply must_fail_no_may; [apply (new_empty io)|exact Hp]. }
  apply (extend_with_shape mdl 1 0 (le_n 1)) in Hi as (news & -> & Hl); auto.
  destruct (custom_run fuel s (seed :: news) ps r) as (HB & Hw & s1 & ev & Hc & Hev & Hb2); auto; [rewrite Hl; auto|].
  destruct (returned_best io r x Hw Hx) as [Hin Hmax]; split; auto; split; auto; split; [eapply never_worse_last; eauto|].
  inversion Hev as [|a b l l' Hab Hl' E1 E2]; subst; exists s1, b; split; auto; split; auto; intros Vb.
  destruct (Hb2 b (or_introl eq_refl) Vb) as (z & Hz & Hle); eapply fle_trans; eauto.
Qed.
End Best.

(** ** Target sizes up to 2 *)
Lemma made_single x (p : population I) : made io [x] p -> individuals p = [x].
Proof.
  intros (M1 & (M2 & _) & _ & M4 & _); destruct (individuals p) as [|y [|z l]]; [congruence| |cbn in M4; lia].
  destruct (M2 y (or_introl eq_refl)) as [->|[]]; auto.
Qed.

Lemma custom_stuck J fuel s q init ps r :
  kept alg progress q J -> default_elites alg J -> (forall s, J s -> snd (alg_reproduction_parameters alg s) <= 2) ->
  may (evolve_population io fexp mdl alg progress fuel s init q ps) r ->
  exists p0 x, nth_error (r_trace r) 0 = Some p0 /\ fittest p0 = Ret x /\
    forall k p, 1 <= k -> nth_error (r_trace r) k = Some p -> individuals p = [x].
Proof.
  intros HJ Hel Hsz H0; unfold evolve_population in H0; apply may_bind in H0 as (s1 & Hc & H0); apply may_bind in H0 as (p & Hp & H).
  pose proof HJ as (Jc & Jprep & Jp).
  assert (Hi : J s1 /\ individuals p <> [] /\ pop_stats p = stats_of io (individuals p)).
  { split; [eauto|]; unfold initialize_population in Hp; apply may_bind in Hp as (ev & _ & Hp).
    assert (Hne : filter (is_valid io) ev <> []) by (intros E; rewrite E in Hp; eapply must_fail_no_may; [apply (new_empty io)|exact Hp]).
    destruct (must_may _ _ _ (new_must io _ Hne) Hp) as ((M1 & _ & _ & _ & M5 & _) & _); auto. }
  refine (match loop_inv_any (fun s p => J s /\ individuals p <> [] /\ pop_stats p = stats_of io (individuals p))
    (fun p p' => forall x, fittest p = Ret x -> individuals p' = [x]) fuel _ _ s1 p ps [] r Hi H with ex_intro _ t (conj Et (conj A B)) => _ end).
  - intros ps0 s0 p0 c ps' s' (J0 & J1) Hpr; split; auto; eapply Jp; eauto.
  - intros s0 p0 s' p' (J0 & N0 & S1) Hs; apply step_may in Hs as (el & off & H1 & H2 & H3 & H4 & Hne).
    pose proof (Jprep _ _ _ J0 H1) as J1; rewrite (Hel _ _ _ J1) in H2.
    destruct (fittest_any io p0 N0 S1) as (x & Ex & _); unfold default_select_elites in H2; rewrite Ex in H2; cbn in H2; subst el.
    specialize (Hsz s' J1); destruct (alg_reproduction_parameters alg s') as [b n]; cbn [snd] in Hsz.
    apply generate_may in H3 as (news & Eo & El & Hb).
    assert (news = []) as ->.
    { destruct news as [|y news]; auto; unfold appended in El; cbn [length] in El; destruct (_ =? 1) eqn:E1; [lia|].
      apply Nat.eqb_neq in E1; lia. }
    cbn [app] in Eo; subst off.
    destruct (must_may _ _ _ (replace_must io p0 _ Hne) H4) as (Hm & _); cbn [fst] in Hm.
    pose proof Hm as (M1 & _ & _ & _ & M5 & _); split; auto.
    intros x' Ex'; rewrite Ex in Ex'; injection Ex' as <-; apply made_single; auto.
  - cbn [app] in Et; destruct Hi as (_ & N0 & S1); destruct (fittest_any io p N0 S1) as (x & Ex & _).
    exists p, x; split; [rewrite Et; reflexivity|]; split; auto.
    intros k p' Hk; rewrite Et; revert p'; induction k as [|k IH]; intros p' Hp'; [lia|].
    destruct (Nat.eq_dec k 0) as [->|Hk0]; [apply (B 0 p p'); auto|].
    destruct (nth_error_lt (p :: t) k) as [q0 Hq0]; [apply nth_error_some_lt in Hp'; lia|].
    pose proof (IH ltac:(lia) q0 Hq0) as Eq; apply (B k q0 p' Hq0 Hp').
    destruct (A k q0 Hq0) as (s' & _ & Nq & Sq); destruct (fittest_any io q0 Nq Sq) as (y & Ey & _ & Hin & _).
    rewrite Eq in Hin; destruct Hin as [->|[]]; auto.
Qed.
End Custom.
