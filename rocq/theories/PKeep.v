(** * PKeep: invariants of the individuals of a run (C75). *)
From Coq Require Import List Bool Arith NArith ZArith Lia Permutation.
From Verif Require Import Rnd LRnd F64 MStats MPopulation MSelection MModel MAlgorithms SpecF SpecA SpecK
  PSelection PPopulation PModel PAlgorithms PAlgorithms2 PRun PRun3.
Import ListNotations.
Local Open Scope nat_scope.

Section Keep.
Context {I : Type} (io : individual_ops I) (fexp : f64 -> f64) {MS : Type} (mdl : model I MS) (raw good : I -> Prop).
Hypothesis Hk : keeps mdl raw good.

Lemma breed_keeps ms p b x : only_members io fexp (parent_selector b) p ->
  (forall y, In y (individuals p) -> good y) ->
  may (breed io fexp mdl ms p b) x -> good x.
Proof.
  destruct Hk as (K1 & K2 & K3 & K4 & K5).
  intros Hsel Hv H; unfold breed in H; apply may_bind in H as ([i1 parent1] & H1 & H).
  apply may_bind in H as (o & Ho & H); apply Hsel in H1; cbn [snd] in H1.
  assert (Hp2 : forall q, o = Some q -> In q (individuals p)) by (intros q ->; eapply parent2_member; eauto).
  unfold breed_from in H; apply may_bind in H as (o1 & Ho1 & H).
  apply may_bind in H as (u & _ & H); apply may_bind in H as (o2 & Ho2 & H).
  apply may_bind in H as (o3 & Ho3 & H); apply may_bind in H as (o4 & Ho4 & H).
  apply may_bind in H as (sv & Hsv & H); cbn in H.
  assert (R1 : raw o1) by (destruct o as [q|]; [eapply K2; [| |exact Ho1]; auto|cbn in Ho1; subst; auto]).
  assert (R2 : raw o2) by (destruct (flt _ _); [eapply K3; eauto|cbn in Ho2; subst; auto]).
  assert (R3 : raw o3) by (eapply K4; eauto).
  destruct sv; [subst x; eapply K5; eauto|].
  subst x; destruct o as [q|]; auto; destruct (fgt _ _); auto.
Qed.

Context {P S0 : Type} (alg : algorithm I MS P S0) (n e : nat) (J : S0 -> Prop) {PS : Type}.
Hypothesis Jprep : forall s p s', J s -> may (alg_prepare alg s p) s' -> J s'.
Hypothesis Jel : forall s, J s -> alg_select_elites alg s = select_top e.
Hypothesis Jrep : forall s, J s -> snd (alg_reproduction_parameters alg s) = n.
Hypothesis Jsel : forall s p, J s -> individuals p <> [] -> fits_usize (length (individuals p)) ->
  only_members io fexp (parent_selector (fst (alg_reproduction_parameters alg s))) p.
Hypothesis Hen : e < n.
Hypothesis Hn : fits_usize n.

Definition Keeps (s : S0) (p : population I) : Prop :=
  J s /\ individuals p <> [] /\ fits_usize (length (individuals p)) /\ forall x, In x (individuals p) -> good x.

Lemma step_keeps s p s' p' : Keeps s p -> may (evolve_step io fexp mdl alg s p) (s', p') -> Keeps s' p' /\ True.
Proof.
  intros (HJ & Hpne & Hf & Hg) H; apply step_may in H as (el & off & H1 & H2 & H3 & H4 & Hne).
  pose proof (Jprep _ _ _ HJ H1) as HJ'; rewrite (Jel s' HJ') in H2.
  destruct (select_top_spec e p []) as (rest & top & Ei & Et & Es); rewrite Es in H2; cbn in H2; subst el.
  destruct (alg_reproduction_parameters alg s') as [b n'] eqn:Er; pose proof (Jrep s' HJ') as En; rewrite Er in En; cbn [snd] in En; subst n'.
  apply generate_may in H3 as (news & Eo & El & Hb).
  destruct (must_may _ _ _ (replace_must io p off Hne) H4) as (Hm & _ & _ & _); cbn [fst] in Hm.
  destruct Hm as (M1 & (M2 & _) & _ & M4 & _).
  split; [|exact Logic.I]; split; [auto|]; split; [auto|]; split.
  - rewrite Eo, app_length, El in M4; unfold appended, fits_usize in *; destruct (_ =? 1); lia.
  - intros x Hx; apply M2 in Hx; rewrite Eo in Hx; apply in_app_or in Hx as [Hx|Hx]; [apply Hg; rewrite Ei; apply in_or_app; auto|].
    apply Hb in Hx; eapply breed_keeps; [| |exact Hx]; auto.
    pose proof (Jsel s' p HJ' Hpne Hf) as Hs; rewrite Er in Hs; exact Hs.
Qed.

Lemma init_keeps s ms init p : J s -> fits_usize (length init) -> Forall raw init ->
  may (initialize_population io mdl ms init) p -> Keeps s p.
Proof.
  destruct Hk as (_ & _ & _ & _ & K5).
  intros HJ Hf Hr H; unfold initialize_population in H; apply may_bind in H as (ev & Hev & H).
  assert (Hne : filter (is_valid io) ev <> []) by (intros E; rewrite E in H; eapply must_fail_no_may; [apply (new_empty io)|exact H]).
  assert (HF : length ev = length init /\ Forall good ev).
  { clear - Hev Hr K5; revert ev Hev; induction Hr as [|a l Ha Hl IH]; intros ev Hev; cbn [mapM] in Hev; [cbn in Hev; subst; auto|].
    apply may_bind in Hev as (b & Hb & Hev); apply may_bind in Hev as (bs & Hbs & Hev); cbn in Hev; subst.
    destruct (IH _ Hbs) as [A B]; cbn; split; auto; constructor; auto; eapply K5; eauto. }
  destruct HF as [Hlen HF]; rewrite Forall_forall in HF.
  destruct (must_may _ _ _ (new_must io _ Hne) H) as (Hm & _); destruct Hm as (M1 & (M2 & _) & _ & M4 & _).
  split; [auto|]; split; [auto|]; split.
  - assert (length (filter (is_valid io) ev) <= length ev).
    { clear; induction ev as [|a l IH]; cbn; auto; destruct (is_valid io a); cbn; lia. }
    unfold fits_usize in *; lia.
  - intros x Hx; apply M2, filter_In in Hx; apply HF; tauto.
Qed.

Lemma run_keeps (f : PS -> population I -> M (bool * PS)) fuel s q s1 init ps r :
  alg_configure alg s q = Ret s1 -> J s1 -> fits_usize (length init) -> Forall raw init ->
  may (evolve_population io fexp mdl alg (quiet f) fuel s init q ps) r ->
  forall p x, In p (r_trace r) -> In x (individuals p) -> good x.
Proof.
  intros Hc HJ Hf Hr H; unfold evolve_population in H; rewrite Hc in H; cbn [bind] in H; apply may_bind in H as (p0 & Hp & H).
  pose proof (init_keeps s1 _ _ p0 HJ Hf Hr Hp) as Hi.
  destruct (loop_inv io fexp mdl alg f Keeps (fun _ _ => True) fuel step_keeps _ _ _ _ _ Hi H) as (t & Et & A & _ & _).
  cbn [app] in Et; intros p x Hin Hx; rewrite Et in Hin; apply In_nth_error in Hin as [k Hk'].
  destruct (A k p Hk') as (s' & _ & _ & _ & Hg); auto.
Qed.
End Keep.

Lemma take_member {I} (p : population I) x : may (take_fittest p) x -> In x (individuals p).
Proof.
  unfold take_fittest; intros H; apply may_bind in H as ([y l] & Hy & H); cbn in H; subst y.
  unfold swap_remove in Hy; apply may_bind in Hy as (z & Hz & Hy).
  unfold idx in Hz; destruct (nth_error _ _) eqn:E; cbn in Hz; [subst|destruct Hz].
  destruct (nth_error (individuals p) _) in Hy; cbn in Hy; [|destruct Hy]; injection Hy as -> _; eapply nth_error_In; eauto.
Qed.

Lemma extend_raw {I} (raw : I -> Prop) nr size l : (forall y, may nr y -> raw y) -> may (extend_population nr [] size) l ->
  length l = size /\ Forall raw l.
Proof.
  intros Hr Hi; unfold extend_population in Hi; destruct (Nat.eqb_spec size 0); [cbn in Hi; subst; auto|].
  apply may_bind in Hi as (news & Hn & Hi); cbn in Hi; subst; apply may_repeatM in Hn as [Hl Hn]; split; auto.
  eapply Forall_impl; [|exact Hn]; auto.
Qed.

Lemma extend_with_raw {I MS} {mdl : model I MS} (raw : I -> Prop) ms size seed l :
  (forall ms a x, raw a -> may (m_mutate mdl ms a) x -> raw x) -> raw seed ->
  may (extend_population_with mdl ms [] size seed) l -> length l = size /\ Forall raw l.
Proof.
  intros Hr Hse Hi; unfold extend_population_with in Hi; destruct (Nat.eqb_spec size 0); [cbn in Hi; subst; auto|].
  destruct (Nat.eqb_spec size 1); [cbn in Hi; subst; auto|].
  apply may_bind in Hi as (news & Hn & Hi); cbn in Hi; subst; apply may_repeatM in Hn as [Hl Hn]; cbn; split; [lia|].
  constructor; auto; eapply Forall_impl; [|exact Hn]; cbn; eauto.
Qed.

Section Instances.
Context {I : Type} (io : individual_ops I) (fexp : f64 -> f64) {MS : Type} (mdl : model I MS) {PS : Type}.
Notation GA := (ga_algorithm io fexp mdl).
Notation AGA := (aga_algorithm io fexp mdl).

Lemma ga_keeps (raw good : I -> Prop) (f : PS -> population I -> M (bool * PS)) fuel s init q ps r :
  keeps mdl raw good -> selector_left_alone mdl -> fits_usize (ga_population_size q) -> fits_usize (length init) -> Forall raw init ->
  may (evolve_population io fexp mdl GA (quiet f) fuel s init q ps) r ->
  forall p x, In p (r_trace r) -> In x (individuals p) -> good x.
Proof.
  intros Hk Hl Hf Hi Hr H; pose proof H as H'; unfold evolve_population in H'; apply may_bind in H' as (s1 & Hc & _).
  destruct (ga_configured s q s1 Hf Hc) as (Hc' & e & He & HJ & _).
  apply (run_keeps io fexp mdl raw good Hk GA (ga_population_size q) e (ga_inv (ga_population_size q) e known)) with (f := f) (fuel := fuel) (s := s) (q := q) (s1 := s1) (init := init) (ps := ps); auto.
  - intros s0 p s' H0 H1; exact (ga_prep io fexp mdl _ _ _ _ _ Hl H0 H1).
  - intros s0 (_ & <- & _); reflexivity.
  - intros s0 (<- & _); reflexivity.
  - intros s0 p (_ & _ & Hk') Hp Hfp; apply known_members; auto.
  - apply He.
Qed.
Lemma aga_keeps (raw good : I -> Prop) (f : PS -> population I -> M (bool * PS)) fuel s init q ps r :
  keeps mdl raw good -> selector_left_alone mdl -> fits_usize (aga_population_size q) -> fits_usize (length init) -> Forall raw init ->
  may (evolve_population io fexp mdl AGA (quiet f) fuel s init q ps) r ->
  forall p x, In p (r_trace r) -> In x (individuals p) -> good x.
Proof.
  intros Hk Hl Hf Hi Hr H; pose proof H as H'; unfold evolve_population in H'; apply may_bind in H' as (s1 & Hc & _).
  destruct (aga_configured s q s1 Hf Hc) as (Hc' & e & He & HJ & _).
  apply (run_keeps io fexp mdl raw good Hk AGA (aga_population_size q) e (aga_inv (aga_population_size q) e known)) with (f := f) (fuel := fuel) (s := s) (q := q) (s1 := s1) (init := init) (ps := ps); auto.
  - intros s0 p s' H0 H1; exact (aga_prep io fexp mdl _ _ _ _ _ Hl H0 H1).
  - intros s0 (_ & <- & _); reflexivity.
  - intros s0 (<- & _); reflexivity.
  - intros s0 p (_ & _ & Hk') Hp Hfp; apply known_members; auto.
  - apply He.
Qed.

(** run and evolve_individual *)
Lemma ga_run_keeps (raw good : I -> Prop) (f : PS -> population I -> M (bool * PS)) fuel s nr q ps x r :
  keeps mdl raw good -> selector_left_alone mdl -> fits_usize (ga_population_size q) -> (forall y, may nr y -> raw y) ->
  may (evolution_run io fexp mdl GA (quiet f) fuel s nr q ps) (x, r) ->
  good x /\ forall p y, In p (r_trace r) -> In y (individuals p) -> good y.
Proof.
  intros Hk Hl Hf Hnr H; unfold evolution_run in H; apply may_bind in H as (init & Hi & H).
  apply may_bind in H as (r' & Hr & H); apply may_bind in H as (x' & Hx & H); cbn in H; injection H as -> ->.
  destruct (extend_raw raw _ _ _ Hnr Hi) as [Hlen Hraw].
  assert (HG : forall p y, In p (r_trace r) -> In y (individuals p) -> good y).
  { eapply ga_keeps; eauto; rewrite Hlen; auto. }
  split; auto.
  destruct (protocol_any io fexp mdl GA _ _ _ _ _ _ _ Hr) as (_ & _ & Hlast).
  apply (HG (r_population r)); [eapply nth_error_In; eauto|apply take_member; auto].
Qed.
Lemma ga_individual_keeps (raw good : I -> Prop) (f : PS -> population I -> M (bool * PS)) fuel s seed q ps x r :
  keeps mdl raw good -> selector_left_alone mdl -> fits_usize (ga_population_size q) -> raw seed ->
  may (evolve_individual io fexp mdl GA (quiet f) fuel s seed q ps) (x, r) ->
  good x /\ forall p y, In p (r_trace r) -> In y (individuals p) -> good y.
Proof.
  intros Hk Hl Hf Hse H; unfold evolve_individual in H; apply may_bind in H as (init & Hi & H).
  apply may_bind in H as (r' & Hr & H); apply may_bind in H as (x' & Hx & H); cbn in H; injection H as -> ->.
  destruct (extend_with_raw raw _ _ _ _ (fun ms a x => proj1 (proj2 (proj2 Hk)) ms a x) Hse Hi) as [Hlen Hraw].
  assert (HG : forall p y, In p (r_trace r) -> In y (individuals p) -> good y).
  { eapply ga_keeps; eauto; rewrite Hlen; auto. }
  split; auto.
  destruct (protocol_any io fexp mdl GA _ _ _ _ _ _ _ Hr) as (_ & _ & Hlast).
  apply (HG (r_population r)); [eapply nth_error_In; eauto|apply take_member; auto].
Qed.
Lemma aga_run_keeps (raw good : I -> Prop) (f : PS -> population I -> M (bool * PS)) fuel s nr q ps x r :
  keeps mdl raw good -> selector_left_alone mdl -> fits_usize (aga_population_size q) -> (forall y, may nr y -> raw y) ->
  may (evolution_run io fexp mdl AGA (quiet f) fuel s nr q ps) (x, r) ->
  good x /\ forall p y, In p (r_trace r) -> In y (individuals p) -> good y.
Proof.
  intros Hk Hl Hf Hnr H; unfold evolution_run in H; apply may_bind in H as (init & Hi & H).
  apply may_bind in H as (r' & Hr & H); apply may_bind in H as (x' & Hx & H); cbn in H; injection H as -> ->.
  destruct (extend_raw raw _ _ _ Hnr Hi) as [Hlen Hraw].
  assert (HG : forall p y, In p (r_trace r) -> In y (individuals p) -> good y).
  { eapply aga_keeps; eauto; rewrite Hlen; auto. }
  split; auto.
  destruct (protocol_any io fexp mdl AGA _ _ _ _ _ _ _ Hr) as (_ & _ & Hlast).
  apply (HG (r_population r)); [eapply nth_error_In; eauto|apply take_member; auto].
Qed.
Lemma aga_individual_keeps (raw good : I -> Prop) (f : PS -> population I -> M (bool * PS)) fuel s seed q ps x r :
  keeps mdl raw good -> selector_left_alone mdl -> fits_usize (aga_population_size q) -> raw seed ->
  may (evolve_individual io fexp mdl AGA (quiet f) fuel s seed q ps) (x, r) ->
  good x /\ forall p y, In p (r_trace r) -> In y (individuals p) -> good y.
Proof.
  intros Hk Hl Hf Hse H; unfold evolve_individual in H; apply may_bind in H as (init & Hi & H).
  apply may_bind in H as (r' & Hr & H); apply may_bind in H as (x' & Hx & H); cbn in H; injection H as -> ->.
  destruct (extend_with_raw raw _ _ _ _ (fun ms a x => proj1 (proj2 (proj2 Hk)) ms a x) Hse Hi) as [Hlen Hraw].
  assert (HG : forall p y, In p (r_trace r) -> In y (individuals p) -> good y).
  { eapply aga_keeps; eauto; rewrite Hlen; auto. }
  split; auto.
  destruct (protocol_any io fexp mdl AGA _ _ _ _ _ _ _ Hr) as (_ & _ & Hlast).
  apply (HG (r_population r)); [eapply nth_error_In; eauto|apply take_member; auto].
Qed.
End Instances.
