(** * PRun2: the genetic algorithms as instances (C59, C62-C67). *)
From Coq Require Import List Bool Arith NArith ZArith Reals Lia Lra Permutation.
From Flocq Require Import Core BinarySingleNaN.
From Verif Require Import Rnd LRnd F64 LF64 MStats MPopulation MSelection MModel MAlgorithms SpecF SpecA ExF ExM
  PSelection PSelection2 PLinear PSelection3 PStats PPopulation PModel PInterp PAlgorithms PAlgorithms2 PRun.
Import ListNotations.
Local Open Scope nat_scope.

(** ** Never panicking *)
Section Total.
Context {I : Type} (io : individual_ops I) (fexp : f64 -> f64) {MS : Type} (mdl : model I MS).
Context {P S0 : Type} (alg : algorithm I MS P S0) (n e : nat) (J : S0 -> Prop) (G : I -> Prop).
Hypothesis Jprep : forall s p, J s -> must (alg_prepare alg s p) J.
Hypothesis Jel : forall s, J s -> alg_select_elites alg s = select_top e.
Hypothesis Jrep : forall s, J s -> snd (alg_reproduction_parameters alg s) = n.
Hypothesis Jsel : forall s, J s -> steady io fexp (parent_selector (fst (alg_reproduction_parameters alg s))).
Hypothesis Hen : e < n.
Hypothesis Hn : fits_usize n.
Hypothesis Htot : total_model mdl G.

Definition Inv2 (s : S0) (p : population I) : Prop :=
  J s /\ individuals p <> [] /\ (forall x, In x (individuals p) -> G x) /\ fits_usize (length (individuals p)) /\
  pop_stats p = stats_of io (individuals p).

Lemma breed_G s p b : selects_members io fexp (parent_selector b) p -> (forall x, In x (individuals p) -> G x) ->
  must (breed io fexp mdl s p b) G.
Proof.
  intros Hs HG; destruct Htot as (T1 & T2 & T3 & T4 & T5 & T6).
  eapply must_mono; [|apply (breed_must io fexp mdl s p b G G); auto].
  - intros x [Hx|[Hx _]]; auto.
  - intros o [Ho|Ho] _; auto.
  - intros o [Ho|Ho]; auto.
Qed.

Lemma step_generated s p : Inv2 s p ->
  must (s' <- alg_prepare alg s p ;;
        elites <- alg_select_elites alg s' p [] ;;
        off <- generate_new_population io fexp mdl (alg_model alg s') (alg_reproduction_parameters alg s') p elites ;;
        Ret (s', off))
    (fun o => J (fst o) /\ (forall x, In x (snd o) -> G x) /\
      length (snd o) = Nat.min e (length (individuals p)) + appended (n - Nat.min e (length (individuals p)))).
Proof.
  intros (HJ & Hne & HG & Hf & Hst).
  eapply must_bind_intro; [apply Jprep; auto|]; intros s' HJ'.
  rewrite (Jel s' HJ'); destruct (select_top_spec e p []) as (rest & top & Ei & Et & Es); rewrite Es; cbn [bind app].
  destruct (alg_reproduction_parameters alg s') as [b n'] eqn:Er; pose proof (Jrep s' HJ') as En; rewrite Er in En; cbn [snd] in En; subst n'.
  eapply must_bind_intro; [apply (generate_must io fexp mdl (alg_model alg s') b n p top G); apply breed_G; auto|].
  - pose proof (Jsel s' HJ' p Hne Hf) as H; rewrite Er in H; exact H.
  - intros off (news & -> & Hl & HF); cbn [must fst snd]; split; auto; split.
    + intros x Hx; apply in_app_or in Hx as [Hx|Hx]; [apply HG; rewrite Ei; apply in_or_app; auto|].
      rewrite Forall_forall in HF; auto.
    + rewrite app_length, Hl, Et; auto.
Qed.

Lemma step_must s p : 2 <= n -> Inv2 s p -> must (evolve_step io fexp mdl alg s p) (fun o => Inv2 (fst o) (snd o)).
Proof.
  intros Hn2 Hi; pose proof (step_generated s p Hi) as Hg; destruct Hi as (HJ & Hne & HG & Hf & Hst).
  unfold evolve_step.
  apply must_bind in Hg; cbv beta in Hg.
  apply must_bind; eapply must_strengthen; [exact Hg|]; intros s' _ Hg1; cbv beta in Hg1.
  apply must_bind in Hg1; apply must_bind; eapply must_strengthen; [exact Hg1|]; intros el _ Hg2; cbv beta in Hg2.
  apply must_bind in Hg2; apply must_bind; eapply must_strengthen; [exact Hg2|]; intros off _ Hg3; cbn [must fst snd] in Hg3.
  destruct Hg3 as (HJ' & HG' & Hl).
  assert (Ho : off <> []).
  { intros ->; cbn [length] in Hl; unfold appended in Hl.
    assert (1 <= length (individuals p)) by (destruct (individuals p); [congruence|cbn; lia]).
    destruct (Nat.eqb_spec (n - Nat.min e (length (individuals p))) 1); lia. }
  eapply must_bind_intro; [apply (replace_must io p off Ho)|].
  intros [p' l] (Hm & _); cbn [fst must snd] in *; destruct Hm as (M1 & (M2 & _) & _ & M4 & M5 & _).
  split; [auto|]; split; auto; split; [intros x Hx; apply HG', M2; auto|]; split; [|exact M5].
  unfold fits_usize, appended in *; destruct (_ =? 1) in Hl; lia.
Qed.

(** With population size 1 no step succeeds *)
Lemma step_panics s p : n = 1 -> Inv2 s p -> must_fail (evolve_step io fexp mdl alg s p) Panic.
Proof.
  intros Hn1 Hi; pose proof (step_generated s p Hi) as Hg; destruct Hi as (HJ & Hne & HG & Hf & Hst).
  unfold evolve_step.
  apply must_bind in Hg; eapply must_fail_bind_r; [exact Hg|]; intros s' Hg1; cbv beta in Hg1.
  apply must_bind in Hg1; eapply must_fail_bind_r; [exact Hg1|]; intros el Hg2; cbv beta in Hg2.
  apply must_bind in Hg2; eapply must_fail_bind_r; [exact Hg2|]; intros off Hg3; cbn [must fst snd] in Hg3.
  destruct Hg3 as (_ & _ & Hl); assert (e = 0) by lia; subst; cbn in Hl; destruct off; [|discriminate].
  apply must_fail_bind_l, replace_empty.
Qed.

Lemma init_must s ms init : J s -> fits_usize (length init) -> Forall G init ->
  (exists x, In x init /\ must (m_evaluate mdl ms x) (fun y => is_valid io y = true)) ->
  must (initialize_population io mdl ms init) (fun p => Inv2 s p /\ generation p = 0).
Proof.
  intros HJ Hf HG (x & Hx & Hv); destruct Htot as (_ & _ & _ & T4 & _); unfold initialize_population.
  apply must_bind_intro with (Q := fun ev => Forall G ev /\ length ev = length init /\ exists y, In y ev /\ is_valid io y = true).
  - clear Hf; induction init as [|a l IH]; [destruct Hx|]; cbn [mapM]; inversion HG as [|a' l' HGa HGl]; subst.
    destruct Hx as [->|Hx].
    + eapply must_bind_intro; [apply must_and; [apply T4; auto|exact Hv]|]; intros y [Hy Vy].
      eapply must_bind_intro; [|intros bs Hbs; cbn; exact Hbs].
      eapply must_mono; [|apply (must_mapM (m_evaluate mdl ms) l (fun _ b => G b))].
      * intros bs Hbs; cbn beta; split; [constructor; auto|].
        -- clear - Hbs; induction Hbs; constructor; auto.
        -- split; [cbn; f_equal; symmetry; eapply Forall2_len; eauto|exists y; split; auto; left; auto].
      * intros b Hb; apply T4; rewrite Forall_forall in HGl; auto.
    + eapply must_bind_intro; [apply T4; auto|]; intros y Hy.
      eapply must_bind_intro; [apply (IH HGl Hx)|]; intros bs (B1 & B2 & z & Bz & Vz); cbn; split; auto; split; auto; eauto.
  - intros ev (E1 & E2 & y & Hy & Vy).
    assert (Hne : filter (is_valid io) ev <> []) by (intros E; assert (H : In y []) by (rewrite <- E; apply filter_In; auto); destruct H).
    eapply must_mono; [|apply (new_must io _ Hne)]; intros p (Hm & Hg & _); split; auto.
    destruct Hm as (M1 & (M2 & _) & _ & M4 & M5 & _); split; auto; split; auto; split; [|split; [|exact M5]].
    + intros z Hz; apply M2, filter_In in Hz as [Hz _]; rewrite Forall_forall in E1; auto.
    + assert (length (filter (is_valid io) ev) <= length ev).
      { clear; induction ev as [|a l IH]; cbn; auto; destruct (is_valid io a); cbn; lia. }
      unfold fits_usize in *; lia.
Qed.
End Total.
