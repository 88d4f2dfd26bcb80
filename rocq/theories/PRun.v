(** * PRun: proofs about src/evolution.rs (C59, C62-C67). *)
From Coq Require Import List Bool Arith NArith ZArith Reals Lia Lra Permutation.
From Flocq Require Import Core BinarySingleNaN.
From Verif Require Import Rnd LRnd F64 LF64 MStats MPopulation MSelection MModel MAlgorithms SpecF SpecA ExF ExM
  PSelection PSelection2 PLinear PSelection3 PStats PPopulation PModel PInterp PAlgorithms PAlgorithms2.
Import ListNotations.
Local Open Scope nat_scope.

Lemma quiet_may {I S0 PS} (f : PS -> population I -> M (bool * PS)) ps (s : S0) p c ps' s' :
  may (quiet f ps s p) (c, ps', s') <-> may (f ps p) (c, ps') /\ s' = s.
Proof.
  unfold quiet; rewrite may_bind; split.
  - intros ([c1 ps1] & H & E); cbn in E; injection E as -> -> ->; auto.
  - intros [H ->]; exists (c, ps'); split; auto; reflexivity.
Qed.

Lemma quiet_must {I S0 PS} (f : PS -> population I -> M (bool * PS)) ps (s : S0) p (Q : bool -> Prop) :
  must (f ps p) (fun r => Q (fst r)) -> must (quiet f ps s p) (fun r => Q (fst (fst r)) /\ snd r = s).
Proof. intros H; unfold quiet; eapply must_bind_intro; [exact H|]; intros [c ps'] Hc; cbn in *; auto. Qed.

Lemma last_default {A} (x : A) l d d' : last (x :: l) d = last (x :: l) d'.
Proof. revert x; induction l as [|y l IH]; intros x; [reflexivity|apply (IH y)]. Qed.

(** ** The loop *)
Section Loop.
Context {I : Type} (io : individual_ops I) (fexp : f64 -> f64) {MS : Type} (mdl : model I MS).
Context {P S0 : Type} (alg : algorithm I MS P S0) {PS : Type}.
Implicit Types (p : population I) (progress : PS -> S0 -> population I -> M (bool * PS * S0)) (f : PS -> population I -> M (bool * PS)) (r : run_result I S0 PS).

Lemma step_may s p s' p' : may (evolve_step io fexp mdl alg s p) (s', p') ->
  exists elites offspring, may (alg_prepare alg s p) s' /\ may (alg_select_elites alg s' p []) elites /\
    may (generate_new_population io fexp mdl (alg_model alg s') (alg_reproduction_parameters alg s') p elites) offspring /\
    may (population_replace io p offspring) (p', individuals p) /\ offspring <> [].
Proof.
  intros H; unfold evolve_step in H; apply may_bind in H as (s1 & H1 & H); apply may_bind in H as (el & H2 & H).
  apply may_bind in H as (off & H3 & H); apply may_bind in H as ([p1 l] & H4 & H); cbn in H; injection H as -> ->.
  assert (Hne : off <> []) by (intros ->; eapply must_fail_no_may; [apply (replace_empty io p)|exact H4]).
  destruct (must_may _ _ _ (replace_must io p off Hne) H4) as (_ & E & _); cbn [snd] in E; subst l; eauto 8.
Qed.

Lemma step_generation s p s' p' : may (evolve_step io fexp mdl alg s p) (s', p') -> generation p' = S (generation p).
Proof.
  intros H; apply step_may in H as (el & off & _ & _ & _ & H & Hne).
  destruct (must_may _ _ _ (replace_must io p off Hne) H) as (_ & _ & E & _); cbn [fst] in E; lia.
Qed.

(** Induction over the populations of a run *)
Lemma loop_trace progress fuel : forall s p ps tr r,
  may (evolve_loop io fexp mdl alg progress fuel s p ps tr) r ->
  exists t, r_trace r = tr ++ p :: t /\ r_population r = last (p :: t) p /\
    (forall k q, nth_error (p :: t) k = Some q -> generation q = generation p + k).
Proof.
  induction fuel as [|f IH]; intros s p ps tr r H; [destruct H|]; cbn [evolve_loop] in H.
  apply may_bind in H as ([[c ps'] s1] & Hp & H); destruct c.
  - apply may_bind in H as ([s' p'] & Hs & H); apply step_generation in Hs.
    destruct (IH _ _ _ _ _ H) as (t & E1 & E2 & E3); exists (p' :: t); rewrite E1, <- app_assoc; split; [reflexivity|]; split.
    + rewrite E2; change (last (p :: p' :: t) p) with (last (p' :: t) p); apply last_default.
    + intros [|k] q; cbn [nth_error]; [intros [= <-]; lia|]; intros Hq; rewrite (E3 k q Hq); lia.
  - cbn in H; subst r; exists []; cbn; repeat split; auto; intros [|k] q; cbn; [intros [= <-]; lia|destruct k; discriminate].
Qed.

Lemma loop_asked f fuel : forall s p ps tr r,
  may (evolve_loop io fexp mdl alg (quiet f) fuel s p ps tr) r ->
  exists t, r_trace r = tr ++ t /\ asked f ps t (r_progress r).
Proof.
  induction fuel as [|n IH]; intros s p ps tr r H; [destruct H|]; cbn [evolve_loop] in H.
  apply may_bind in H as ([[c ps'] s1] & Hp & H); apply quiet_may in Hp as [Hp ->]; destruct c.
  - apply may_bind in H as ([s' p'] & Hs & H); destruct (IH _ _ _ _ _ H) as (t & E & A); exists (p :: t).
    rewrite E, <- app_assoc; split; auto; eapply asked_on; eauto.
  - cbn in H; subst r; exists [p]; split; auto; constructor; auto.
Qed.

(** An invariant of the steps holds of every population shown *)
Lemma loop_inv f (Inv : S0 -> population I -> Prop) (R : population I -> population I -> Prop) fuel :
  (forall s p s' p', Inv s p -> may (evolve_step io fexp mdl alg s p) (s', p') -> Inv s' p' /\ R p p') ->
  forall s p ps tr r, Inv s p ->
  may (evolve_loop io fexp mdl alg (quiet f) fuel s p ps tr) r ->
  exists t, r_trace r = tr ++ p :: t /\
    (forall k q, nth_error (p :: t) k = Some q -> exists s', Inv s' q) /\
    (forall k q q', nth_error (p :: t) k = Some q -> nth_error (p :: t) (S k) = Some q' -> R q q') /\
    Inv (r_algorithm r) (r_population r).
Proof.
  intros Hstep; induction fuel as [|n IH]; intros s p ps tr r Hi H; [destruct H|]; cbn [evolve_loop] in H.
  apply may_bind in H as ([[c ps'] s1] & Hp & H); apply quiet_may in Hp as [Hp ->]; destruct c.
  - apply may_bind in H as ([s' p'] & Hs & H); destruct (Hstep _ _ _ _ Hi Hs) as [Hi' HR].
    destruct (IH _ _ _ _ _ Hi' H) as (t & E & A & B & C); exists (p' :: t); rewrite E, <- app_assoc; split; [reflexivity|]; split; [|split].
    + intros [|k] q; cbn [nth_error]; [intros [= <-]; eauto|apply A].
    + intros [|k] q q'; [cbn; intros [= <-] [= <-]; auto|]; apply (B k).
    + auto.
  - cbn in H; subst r; exists []; repeat split; auto; [|intros [|k] q q'; cbn; try discriminate; destruct k; discriminate].
    intros [|k] q; cbn [nth_error]; [intros [= <-]; eauto|destruct k; discriminate].
Qed.

(** More iterations allowed: no result is lost. *)
Lemma loop_fuel progress fuel k : forall s p ps tr r,
  may (evolve_loop io fexp mdl alg progress fuel s p ps tr) r -> may (evolve_loop io fexp mdl alg progress (fuel + k) s p ps tr) r.
Proof.
  induction fuel as [|n IH]; intros s p ps tr r H; [destruct H|]; cbn [evolve_loop Nat.add] in *.
  apply may_bind in H as ([[c ps'] s1] & Hp & H); apply may_bind; exists (c, ps', s1); split; auto; destruct c; auto.
  apply may_bind in H as ([s' p'] & Hs & H); apply may_bind; exists (s', p'); split; auto.
Qed.

(** ** Total correctness *)
(** Every path ends in a result satisfying [Q] or runs out of fuel. *)
Fixpoint safe {A} (m : M A) (Q : A -> Prop) : Prop :=
  match m with
  | Ret a => Q a
  | Fail e => e = NoFuel
  | Draw n k | Pick n k => (0 < n)%N /\ forall i, (i < n)%N -> safe (k i) Q
  end.

Lemma must_safe {A} (m : M A) Q : must m Q -> safe m Q.
Proof. induction m; cbn; auto; try tauto; intros [Hn Hm]; auto. Qed.
Lemma safe_bind {A B} (m : M A) (k : A -> M B) Q R : safe m Q -> (forall a, Q a -> safe (k a) R) -> safe (bind m k) R.
Proof. induction m; cbn; auto; intros [Hn Hm] Hk; auto. Qed.
Lemma safe_mono {A} (m : M A) (Q R : A -> Prop) : (forall a, Q a -> R a) -> safe m Q -> safe m R.
Proof. intros H; induction m; cbn; auto; intros [Hn Hm]; auto. Qed.
Lemma safe_no_panic {A} (m : M A) Q : safe m Q -> ~ may_fail m Panic.
Proof.
  induction m as [a|e|n k IH|n k IH]; cbn; auto.
  - intros ->; discriminate.
  - intros [_ H] (i & Hi & Hf); eapply IH; eauto.
  - intros [_ H] (i & Hi & Hf); eapply IH; eauto.
Qed.

Lemma loop_safe f (Inv : S0 -> population I -> Prop) fuel :
  (forall s p, Inv s p -> must (evolve_step io fexp mdl alg s p) (fun o => Inv (fst o) (snd o))) ->
  (forall ps p, must (f ps p) (fun _ => True)) ->
  forall s p ps tr, Inv s p ->
  safe (evolve_loop io fexp mdl alg (quiet f) fuel s p ps tr) (fun r => Inv (r_algorithm r) (r_population r)).
Proof.
  intros Hstep Hf; induction fuel as [|n IH]; intros s p ps tr Hi; [reflexivity|]; cbn [evolve_loop].
  eapply safe_bind; [apply must_safe, (quiet_must f ps s p (fun _ => True)); apply Hf|].
  intros [[c ps'] s1] [_ E]; cbn in E; subst s1; destruct c; [|cbn; auto].
  eapply safe_bind; [apply must_safe, Hstep; eauto|]; intros [s' p'] Hi'; apply IH; auto.
Qed.

Lemma loop_must f (Inv : S0 -> population I -> Prop) n :
  (forall s p, Inv s p -> must (evolve_step io fexp mdl alg s p) (fun o => Inv (fst o) (snd o))) ->
  (forall ps p, must (f ps p) (fun _ => True)) ->
  (forall ps p, generation p = n -> must (f ps p) (fun o => fst o = false)) ->
  forall m s p ps tr, Inv s p -> generation p + m = n ->
  must (evolve_loop io fexp mdl alg (quiet f) (S m) s p ps tr) (fun r => Inv (r_algorithm r) (r_population r)).
Proof.
  intros Hstep Hf Hn; induction m as [|m IH]; intros s p ps tr Hi Hg.
  - cbn [evolve_loop].
    eapply must_bind_intro; [apply (quiet_must f ps s p (fun c => c = false)); apply Hn; lia|].
    intros [[c ps'] s1] [Ec E]; cbn in E, Ec; subst; cbn; auto.
  - remember (S m) as m'; cbn [evolve_loop]; subst m'.
    eapply must_bind_intro; [apply (quiet_must f ps s p (fun _ => True)); apply Hf|].
    intros [[c ps'] s1] [_ E]; cbn in E; subst s1; destruct c; [|cbn; auto].
    apply must_bind_intro with (Q := fun o => may (evolve_step io fexp mdl alg s p) o /\ Inv (fst o) (snd o));
      [eapply must_strengthen; [apply Hstep; eauto|]; auto|].
    intros [s' p'] [Hm Hi']; apply IH; auto; apply step_generation in Hm; lia.
Qed.

End Loop.

(** ** Breeding, for results only *)
Section Breeding.
Context {I : Type} (io : individual_ops I) (fexp : f64 -> f64) {MS : Type} (mdl : model I MS).
Implicit Types (p : population I) (sel : selector I).

Lemma distinct_may sel p t ex r : may (select_distinct io fexp sel p t ex) (Some r) -> may (select io fexp sel p) r.
Proof.
  induction t as [|t IH]; cbn [select_distinct]; [cbn; discriminate|].
  intros H; apply may_bind in H as ([i c] & Hs & H); destruct (negb _); [cbn in H; injection H as <-; auto|auto].
Qed.

Definition only_members sel p : Prop := forall r, may (select io fexp sel p) r -> In (snd r) (individuals p).

Lemma parent2_member p b a q : only_members (parent_selector b) p -> may (breed_parent2 io fexp p b a) (Some q) -> In q (individuals p).
Proof.
  intros Ho H; unfold breed_parent2 in H; destruct (_ <? _); [|cbn in H; discriminate].
  apply may_bind in H as (u & _ & H); destruct (flt _ _); [|cbn in H; discriminate].
  apply may_bind in H as ([r|] & Hd & H); cbn in H; [injection H as <-|discriminate]; apply distinct_may in Hd; apply Ho; auto.
Qed.

Lemma breed_valid_may ms p b x : only_members (parent_selector b) p ->
  (forall y, In y (individuals p) -> is_valid io y = true) ->
  may (breed io fexp mdl ms p b) x -> is_valid io x = true.
Proof.
  intros Hsel Hv H; unfold breed in H; apply may_bind in H as ([i1 parent1] & H1 & H).
  apply may_bind in H as (o & Ho & H); apply Hsel in H1; cbn [snd] in H1.
  unfold breed_from in H; apply may_bind in H as (o1 & _ & H).
  apply may_bind in H as (u & _ & H); apply may_bind in H as (o2 & _ & H).
  apply may_bind in H as (o3 & _ & H); apply may_bind in H as (o4 & _ & H).
  apply may_bind in H as (sv & Hsv & H); cbn in H.
  destruct sv; [subst x; destruct (is_valid io o4) eqn:V; auto; cbn in Hsv; discriminate|].
  subst x; destruct o as [q|]; auto; destruct (fgt _ _); auto; apply Hv; eapply parent2_member; eauto.
Qed.

Lemma linear_member b p r : may (select io fexp (Linear b) p) r -> In (snd r) (individuals p).
Proof.
  cbn [select]; unfold linear_select; cbv zeta; intros H; apply may_bind in H as (u & _ & H).
  apply may_bind in H as (t & _ & H); apply may_bind in H as (x & Hx & H); cbn in H; subst r; cbn [snd].
  unfold idx in Hx; destruct (nth_error _ _) eqn:E; cbn in Hx; [subst; eapply nth_error_In; eauto|destruct Hx].
Qed.

Definition known (s : selector I) : Prop := selector_ok s \/ exists b, s = Linear b.

Lemma known_members sel p : known sel -> individuals p <> [] -> fits_usize (length (individuals p)) -> only_members sel p.
Proof.
  intros [H|[b ->]] Hp Hf r Hr; [|eapply linear_member; eauto].
  pose proof (must_may _ _ _ (select_must io fexp sel p H Hp Hf) Hr) as E; eapply nth_error_In; exact E.
Qed.

Lemma prepare_known sel p s' : known sel -> may (prepare io fexp sel p) s' -> known s'.
Proof.
  intros H Hm; destruct sel.
  - cbn in Hm; subst; auto.
  - destruct (must_may _ _ _ (prepare_roulette io fexp _ p) Hm) as (v & -> & _); left; exact Logic.I.
  - destruct (must_may _ _ _ (prepare_boltzmann io fexp _ _ _ p) Hm) as (v & -> & _); left; exact Logic.I.
  - cbn in Hm; subst; auto.
  - cbn in Hm; subst; auto.
  - cbn in Hm; subst; auto.
  - destruct H as [[]|[b H]]; discriminate.
Qed.

Lemma created_known s sel : create_selector s = Ret sel -> known sel.
Proof.
  intros H; destruct s; cbn [create_selector] in H.
  - unfold tournament_new in H; destruct (Nat.eqb_spec size 0); cbn in H; [discriminate|]; injection H as <-; left; cbn; lia.
  - injection H as <-; left; exact Logic.I.
  - unfold boltzmann_new in H; destruct (feq _ _); cbn in H; [discriminate|]; injection H as <-; left; exact Logic.I.
  - injection H as <-; left; exact Logic.I.
  - injection H as <-; right; eexists; reflexivity.
  - unfold elitist_new in H; destruct (in_unit_halfopen ratio) eqn:E; cbn in H; [|discriminate]; injection H as <-; left; exact E.
Qed.

(** Selectors that never panic *)
Definition steady sel : Prop := forall p, individuals p <> [] -> fits_usize (length (individuals p)) -> selects_members io fexp sel p.

Definition safe_selector sel : Prop :=
  selector_ok sel \/ exists b, sel = Linear b /\ (b = f1 \/ linear_margin b).

Lemma safe_steady sel : safe_selector sel -> steady sel.
Proof.
  intros [H|(b & -> & [->|H])] p Hp Hf; [apply must_in_members; auto| |].
  - destruct (linear_one io fexp p Hp Hf) as (x & k & Hx & E & Hk); red; rewrite E.
    split; [reflexivity|]; intros u Hu; rewrite Hk by exact Hu; eapply nth_error_In; exact Hx.
  - eapply must_mono; [|apply (linear_must io fexp b p H Hp Hf)].
    intros r Hr; eapply nth_error_In; exact Hr.
Qed.

Lemma prepare_safe sel p : safe_selector sel -> must (prepare io fexp sel p) safe_selector.
Proof.
  intros H; destruct sel.
  - cbn; auto.
  - eapply must_mono; [|apply (prepare_roulette io fexp)]; intros s (v & -> & _); left; exact Logic.I.
  - eapply must_mono; [|apply (prepare_boltzmann io fexp)]; intros s (v & -> & _); left; exact Logic.I.
  - cbn; auto.
  - cbn; auto.
  - cbn; auto.
  - destruct H as [[]|(b & H & _)]; discriminate.
Qed.

Lemma created_safe s sel : robust_strategy s -> create_selector s = Ret sel -> safe_selector sel.
Proof.
  intros Hr H; destruct (created_known s sel H) as [Hk|[b ->]]; [left; auto|right].
  destruct s; cbn [create_selector] in H.
  - unfold tournament_new in H; destruct (Nat.eqb size 0); discriminate.
  - discriminate.
  - unfold boltzmann_new in H; destruct (feq _ _); discriminate.
  - discriminate.
  - injection H as <-; eexists; split; [reflexivity|exact Hr].
  - unfold elitist_new in H; destruct (in_unit_halfopen ratio); discriminate.
Qed.
End Breeding.

(** ** Algorithms with elites *)
Section Elites.
Context {I : Type} (io : individual_ops I) (fexp : f64 -> f64) {MS : Type} (mdl : model I MS).
Context {P S0 : Type} (alg : algorithm I MS P S0) (n e : nat) (J : S0 -> Prop).
Hypothesis Jprep : forall s p s', J s -> may (alg_prepare alg s p) s' -> J s'.
Hypothesis Jel : forall s, J s -> alg_select_elites alg s = select_top e.
Hypothesis Jrep : forall s, J s -> snd (alg_reproduction_parameters alg s) = n.
Hypothesis Jsel : forall s p, J s -> individuals p <> [] -> fits_usize (length (individuals p)) ->
  only_members io fexp (parent_selector (fst (alg_reproduction_parameters alg s))) p.
Hypothesis Hen : e < n.
Hypothesis Hn : fits_usize n.
Hypothesis Hval : valid_is_number io.

Definition all_valid (p : population I) : Prop := forall x, In x (individuals p) -> is_valid io x = true.

Definition Inv (s : S0) (p : population I) : Prop :=
  J s /\ well_formed io p /\ all_valid p /\ fits_usize (length (individuals p)).

Definition grows (p p' : population I) : Prop :=
  length (individuals p') <= n /\
  (1 <= e -> equal_means_equal_fitness io -> forall x, In x (individuals p) ->
    exists y, In y (individuals p') /\ fle (fitness io x) (fitness io y) = true).

Lemma step_inv s p s' p' : Inv s p -> may (evolve_step io fexp mdl alg s p) (s', p') -> Inv s' p' /\ grows p p'.
Proof.
  intros (HJ & Hw & Hv & Hf) H; apply step_may in H as (el & off & H1 & H2 & H3 & H4 & Hne).
  pose proof (Jprep _ _ _ HJ H1) as HJ'; rewrite (Jel s' HJ') in H2.
  destruct (select_top_spec e p []) as (rest & top & Ei & Et & Es); rewrite Es in H2; cbn in H2; subst el.
  destruct (alg_reproduction_parameters alg s') as [b n'] eqn:Er; pose proof (Jrep s' HJ') as En; rewrite Er in En; cbn [snd] in En; subst n'.
  apply generate_may in H3 as (news & Eo & El & Hb).
  pose proof Hw as (Hpne & Hnn & Hso & Hst).
  assert (Hvo : forall x, In x off -> is_valid io x = true).
  { intros x Hx; rewrite Eo in Hx; apply in_app_or in Hx as [Hx|Hx]; [apply Hv; rewrite Ei; apply in_or_app; auto|].
    apply Hb in Hx; eapply breed_valid_may; [| |exact Hx]; [|exact Hv].
    pose proof (Jsel s' p HJ' Hpne Hf) as Hs; rewrite Er in Hs; exact Hs. }
  assert (Hno : no_nan io off) by (intros x Hx; apply Hval, Hvo; auto).
  destruct (must_may _ _ _ (replace_must io p off Hne) H4) as (Hm & _ & _ & _); cbn [fst] in Hm.
  assert (Hlo : length off <= n).
  { rewrite Eo, app_length, El; unfold appended; destruct (_ =? 1) eqn:E1; lia. }
  pose proof Hm as (M1 & (M2 & M2') & M3 & M4 & M5 & M6).
  assert (Hl' : length (individuals p') <= n) by lia.
  split; [split; [auto|]; split; [eapply made_well_formed; eauto|]; split; [intros x Hx; apply Hvo; auto|unfold fits_usize in *; lia]|].
  split; auto; intros He Heq x Hx.
  assert (Htop : exists t, In t off /\ fle (fitness io x) (fitness io t) = true).
  { assert (Hfx : fle (fitness io x) (fitness io x) = true) by (apply fle_spec; pose proof (Hnn x Hx); unfold f_is_nan in *; repeat split; auto; lra).
    rewrite Ei in Hx; apply in_app_or in Hx as [Hx|Hx].
    - destruct top as [|t top]; [cbn in Et; destruct (individuals p); [congruence|cbn in Et; lia]|].
      exists t; split; [rewrite Eo; cbn; auto|]; eapply top_are_best; eauto; cbn; auto.
    - exists x; split; auto; rewrite Eo; apply in_or_app; auto. }
  destruct Htop as (t & Ht & Hle); pose proof (made_well_formed io off p' Hno Hm) as Hw'.
  destruct (fittest_max io p' Hw') as (y & Hy & _ & Hin & _); exists y; split; auto.
  pose proof (best_kept io off p' y Hno ltac:(intros; auto) Hm Hy t Ht) as Hb2.
  apply fle_spec in Hle as (A & B & C); apply fle_spec in Hb2 as (D & E & F); apply fle_spec; split; [auto|split; [auto|]]; eapply Rle_trans; eauto.
Qed.

Lemma init_inv s ms init p : J s -> fits_usize (length init) ->
  may (initialize_population io mdl ms init) p ->
  Inv s p /\ generation p = 0 /\
  exists evaluated, Forall2 (fun a b => may (m_evaluate mdl ms a) b) init evaluated /\
    (equal_means_equal_fitness io -> forall x, In x evaluated -> is_valid io x = true ->
      exists y, In y (individuals p) /\ fle (fitness io x) (fitness io y) = true).
Proof.
  intros HJ Hf H; unfold initialize_population in H; apply may_bind in H as (ev & Hev & H).
  assert (Hne : filter (is_valid io) ev <> []) by (intros E; rewrite E in H; eapply must_fail_no_may; [apply (new_empty io)|exact H]).
  assert (HF : Forall2 (fun a b => may (m_evaluate mdl ms a) b) init ev).
  { clear - Hev; revert ev Hev; induction init as [|a l IH]; intros ev Hev; cbn [mapM] in Hev; [cbn in Hev; subst; constructor|].
    apply may_bind in Hev as (b & Hb & Hev); apply may_bind in Hev as (bs & Hbs & Hev); cbn in Hev; subst; constructor; auto. }
  assert (Hlen : length ev = length init) by (symmetry; eapply Forall2_len; eauto).
  destruct (must_may _ _ _ (new_must io _ Hne) H) as (Hm & Hg & _).
  assert (Hvo : forall x, In x (filter (is_valid io) ev) -> is_valid io x = true) by (intros x Hx; apply filter_In in Hx; tauto).
  assert (Hno : no_nan io (filter (is_valid io) ev)) by (intros x Hx; apply Hval, Hvo; auto).
  pose proof (made_well_formed io _ p Hno Hm) as Hw; pose proof Hm as (M1 & (M2 & M2') & M3 & M4 & M5 & M6).
  split; [|split; auto].
  - repeat (split; auto); try apply Hw; [intros x Hx; apply Hvo; auto|].
    assert (length (filter (is_valid io) ev) <= length ev).
    { clear; induction ev as [|a l IH]; cbn; auto; destruct (is_valid io a); cbn; lia. }
    unfold fits_usize in *; lia.
  - exists ev; split; auto; intros Heq x Hx Vx.
    destruct (fittest_max io p Hw) as (y & Hy & _ & Hin & _); exists y; split; auto.
    eapply best_kept; eauto; apply filter_In; auto.
Qed.

End Elites.
