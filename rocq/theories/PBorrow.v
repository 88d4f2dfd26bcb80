(** * PBorrow: borrows of the algorithm (C104). *)
From Coq Require Import List Bool Arith NArith Lia.
From Verif Require Import Rnd LRnd F64 MStats MPopulation MSelection MModel MAlgorithms MUnwind MBorrow SpecF SpecA SpecW SpecV PWord.
Import ListNotations.

Section Code.
Context {S0 : Type}.

Lemma balanced_give {A} (a : A) : balanced (S0 := S0) (give a).
Proof. intros c c1 r H; cbn in H; injection H as Hc Hr; subst; auto. Qed.
Lemma balanced_next {A B} (m : code S0 A) (k : A -> code S0 B) : balanced m -> (forall a, balanced (k a)) -> balanced (next m k).
Proof.
  intros Hm Hk c c1 r H; unfold next in H; apply (proj1 (may_bind _ _ _)) in H as ([c' [a|e]] & H1 & H2).
  - rewrite <- (Hm _ _ _ H1); eapply Hk; eauto.
  - cbn in H2; injection H2 as H2 _; subst; eauto.
Qed.
Lemma balanced_pure {A} (m : M A) : balanced (S0 := S0) (pure m).
Proof. intros c c1 r H; unfold pure in H; apply (proj1 (may_bind _ _ _)) in H as (r' & _ & H); cbn in H; injection H as H _; subst; auto. Qed.
Lemma balanced_update m : balanced (S0 := S0) (update m).
Proof. intros c c1 r H; unfold update in H; apply (proj1 (may_bind _ _ _)) in H as ([s o] & _ & H); cbn in H; injection H as H _; subst; auto. Qed.
Lemma balanced_catching {A} (m : code S0 A) : balanced m -> balanced (catching m).
Proof. intros Hm c c1 r H; unfold catching in H; apply (proj1 (may_bind _ _ _)) in H as ([c' r'] & H1 & H); cbn in H; injection H as H _; subst; eauto. Qed.
Lemma balanced_reading {A} (body : S0 -> code S0 A) : (forall s, balanced (body s)) -> balanced (reading body).
Proof.
  intros Hb c c1 r H; unfold reading in H; destruct (flag c) as [|n|] eqn:E.
  - apply (proj1 (may_bind _ _ _)) in H as ([c' r'] & H1 & H); cbn in H; injection H as H _; subst c1; cbn [flag].
    rewrite (Hb _ _ _ _ H1); reflexivity.
  - apply (proj1 (may_bind _ _ _)) in H as ([c' r'] & H1 & H); cbn in H; injection H as H _; subst c1; cbn [flag].
    rewrite (Hb _ _ _ _ H1); reflexivity.
  - cbn in H; injection H as H _; subst; auto.
Qed.
Lemma balanced_writing {A} (body : code S0 A) : balanced (writing body).
Proof.
  intros c c1 r H; unfold writing in H; destruct (flag c) as [|n|] eqn:E; [|cbn in H; injection H as H _; subst; auto|cbn in H; injection H as H _; subst; auto].
  apply (proj1 (may_bind _ _ _)) in H as ([c' r'] & H1 & H); cbn in H; injection H as H _; subst c1; reflexivity.
Qed.

(** Two pieces of code that do the same on a free cell *)
Lemma next_same {A B} (m m' : code S0 A) (k k' : A -> code S0 B) c :
  same_execution (m c) (m' c) -> (forall a c1, may (m c) (c1, inl a) -> same_execution (k a c1) (k' a c1)) ->
  same_execution (next m k c) (next m' k' c).
Proof. intros Hm Hk; apply same_bind; auto; intros [c1 [a|e]] H; [auto|reflexivity]. Qed.
End Code.

(** [catch] and then failing again is the same as not catching. *)
Lemma catch_back {A B} (m : M A) (f : A -> M B) : same_execution (r <- catch m ;; match r with inl a => f a | inr e => Fail e end) (bind m f).
Proof. induction m as [a|e|n k IH|n k IH]; cbn; auto using same_refl. Qed.
Lemma may_catch_l {A} (m : M A) a : may (catch m) (inl a) <-> may m a.
Proof.
  induction m as [b|e|n k IH|n k IH]; cbn; [split; congruence|split; [discriminate|contradiction]| |];
    split; intros (i & Hi & H); exists i; split; auto; apply IH; auto.
Qed.

Section Run.
Context {I : Type} (io : individual_ops I) (fexp : f64 -> f64).
Context {MS : Type} (mdl : model I MS).
Context {P S0 : Type} (alg : algorithm I MS P S0).
Context (configure : S0 -> P -> M (S0 * option err)) (prepare_next : S0 -> population I -> M (S0 * option err)).
Context {PS : Type}.

(** ** No borrow is left. *)
Section Balanced.
Context (user : place -> code S0 unit) (progress : PS -> population I -> code S0 (bool * PS)).
Hypothesis Hu : forall pl, balanced (user pl).
Hypothesis Hp : forall ps p, balanced (progress ps p).

Lemma step_balanced p : balanced (cell_step io fexp mdl alg prepare_next user p).
Proof.
  unfold cell_step; apply balanced_next; [apply balanced_writing|intros _].
  apply balanced_next; [apply balanced_reading; intros s; apply balanced_next; auto; intros _; apply balanced_pure|intros el].
  apply balanced_next; [apply balanced_reading; intros s; apply balanced_next; auto; intros _; apply balanced_pure|intros off].
  apply balanced_reading; intros s; apply balanced_next; auto; intros _; apply balanced_pure.
Qed.
Lemma loop_balanced fuel : forall p ps tr, balanced (cell_loop io fexp mdl alg prepare_next user progress fuel p ps tr).
Proof.
  induction fuel as [|n IH]; intros p ps tr; cbn [cell_loop]; [apply balanced_pure|].
  apply balanced_next; auto; intros [[|] ps']; [|apply balanced_give]; apply balanced_next; [apply step_balanced|auto].
Qed.
Lemma evolve_balanced fuel init q ps : balanced (cell_evolve io fexp mdl alg configure prepare_next user progress fuel init q ps).
Proof.
  unfold cell_evolve; apply balanced_next; [apply balanced_writing|intros _].
  apply balanced_next; [apply balanced_reading; intros s; apply balanced_next; auto; intros _; apply balanced_pure|intros p; apply loop_balanced].
Qed.
Lemma run_balanced fuel nr q ps : balanced (cell_run io fexp mdl alg configure prepare_next user progress fuel nr q ps).
Proof.
  unfold cell_run; apply balanced_next; [apply balanced_reading; intros s; apply balanced_next; auto; intros _; apply balanced_pure|intros init].
  apply balanced_next; [apply evolve_balanced|intros r]; apply balanced_next; [apply balanced_pure|intros x; apply balanced_give].
Qed.
Lemma individual_balanced fuel seed q ps : balanced (cell_individual io fexp mdl alg configure prepare_next user progress fuel seed q ps).
Proof.
  unfold cell_individual; apply balanced_next; [apply balanced_reading; intros s; apply balanced_next; auto; intros _; apply balanced_pure|intros init].
  apply balanced_next; [apply evolve_balanced|intros r]; apply balanced_next; [apply balanced_pure|intros x; apply balanced_give].
Qed.
End Balanced.

(** ** Without re-entry from the model, a run on a free cell is the model's run. *)
Section Agrees.
Context (progress : PS -> population I -> code S0 (bool * PS)).
Hypothesis Hp : forall ps p, balanced (progress ps p).
Hypothesis Hconf : forall s q, completes (configure s q) (alg_configure alg s q).
Hypothesis Hprep : forall s p, completes (prepare_next s p) (alg_prepare alg s p).

Lemma observe_next {A B C} (make : B -> S0 -> C) (m : code S0 A) (k : A -> code S0 B) s (m' : M (A * S0)) (k' : A -> S0 -> M C) :
  balanced m -> same_execution (observe pair m s) m' ->
  (forall a s1, may m' (a, s1) -> same_execution (observe make (k a) s1) (k' a s1)) ->
  same_execution (observe make (next m k) s) ('(a, s1) <- m' ;; k' a s1).
Proof.
  intros Hm H Hk; unfold observe, next.
  eapply same_trans; [apply same_assoc|].
  eapply same_trans; [|apply same_bind with (m := observe pair m s) (f := fun x => let '(a, s1) := x in k' a s1); [exact H|intros; apply same_refl]].
  unfold observe; eapply same_trans; [|apply same_sym, same_assoc].
  apply same_bind; [apply same_refl|]; intros [c1 [a|e]] Hc; cbn [outcome bind]; [|apply same_refl].
  pose proof (Hm _ _ _ Hc) as Hf; cbn [flag] in Hf.
  assert (Hx : may m' (a, value c1)).
  { apply (same_may _ _ _ H); unfold observe; apply may_bind; exists (c1, inl a); split; auto; reflexivity. }
  specialize (Hk _ _ Hx); unfold observe in Hk; destruct c1 as [b v]; cbn [flag value] in *; subst b; exact Hk.
Qed.

Lemma observe_reading {A} (body : S0 -> M A) s : same_execution (observe pair (reading (fun s => next (no_reentry In_elites) (fun _ => pure (body s)))) s) (a <- body s ;; Ret (a, s)).
Proof.
  unfold observe, reading; cbn [flag value]; unfold next, no_reentry, give; cbn [bind]; unfold pure.
  eapply same_trans; [apply same_assoc|]; eapply same_trans; [apply same_assoc|].
  eapply same_trans; [|apply catch_back]; apply same_bind; [apply same_refl|]; intros [a|e] _; apply same_refl.
Qed.
Lemma observe_writing (m : S0 -> M (S0 * option err)) m' s : completes (m s) m' ->
  same_execution (observe pair (writing (next (no_reentry In_elites) (fun _ => update m))) s) (s1 <- m' ;; Ret (tt, s1)).
Proof.
  intros H; unfold observe, writing; cbn [flag value]; unfold next, no_reentry, give; cbn [bind]; unfold update; cbn [value flag].
  eapply same_trans; [apply same_assoc|]; eapply same_trans; [apply same_assoc|].
  eapply same_trans; [|apply same_bind; [exact H|intros; apply same_refl]].
  eapply same_trans; [|apply same_sym, same_assoc]; apply same_bind; [apply same_refl|]; intros [s1 [e|]] _; apply same_refl.
Qed.
Lemma observe_pure {A B} (make : A -> S0 -> B) (m : M A) s : same_execution (observe make (pure m) s) (a <- m ;; Ret (make a s)).
Proof.
  unfold observe, pure; eapply same_trans; [apply same_assoc|]; eapply same_trans; [|apply catch_back].
  apply same_bind; [apply same_refl|]; intros [a|e] _; apply same_refl.
Qed.
Lemma balanced_none (pl : place) : balanced (S0 := S0) (no_reentry pl).
Proof. apply balanced_give. Qed.
Lemma balanced_read {A} pl (body : S0 -> M A) : balanced (reading (fun s => next (no_reentry pl) (fun _ => pure (body s)))).
Proof. apply balanced_reading; intros s; apply balanced_next; [apply balanced_none|intros; apply balanced_pure]. Qed.

Lemma step_agrees s p : same_execution (observe (fun p' s' => (s', p')) (cell_step io fexp mdl alg prepare_next no_reentry p) s) (evolve_step io fexp mdl alg s p).
Proof.
  unfold cell_step, evolve_step.
  eapply same_trans; [eapply observe_next with (k' := fun _ s' => elites <- alg_select_elites alg s' p [] ;;
    offspring <- generate_new_population io fexp mdl (alg_model alg s') (alg_reproduction_parameters alg s') p elites ;;
    '(p', _) <- population_replace io p offspring ;; Ret (s', p')); [apply balanced_writing|apply observe_writing, Hprep|]|].
  2: { eapply same_trans; [apply same_assoc|]; apply same_bind; [apply same_refl|]; intros; apply same_refl. }
  intros [] s1 _; eapply same_trans; [eapply observe_next with (k' := fun elites s' =>
    offspring <- generate_new_population io fexp mdl (alg_model alg s') (alg_reproduction_parameters alg s') p elites ;;
    '(p', _) <- population_replace io p offspring ;; Ret (s', p')); [apply balanced_read|apply observe_reading|]|].
  2: { eapply same_trans; [apply same_assoc|]; apply same_bind; [apply same_refl|]; intros; apply same_refl. }
  intros el s2 _; eapply same_trans; [eapply observe_next with (k' := fun offspring s' =>
    '(p', _) <- population_replace io p offspring ;; Ret (s', p')); [apply balanced_read| |]|].
  { apply (observe_reading (fun s => generate_new_population io fexp mdl (alg_model alg s) (alg_reproduction_parameters alg s) p el)). }
  2: { eapply same_trans; [apply same_assoc|]; apply same_bind; [apply same_refl|]; intros; apply same_refl. }
  intros off s3 _.
  assert (H : forall A (m : code S0 A), same_execution (observe (fun (p' : A) s' => (s', p')) m s3) (x <- observe pair m s3 ;; Ret (snd x, fst x))).
  { intros A m; unfold observe; eapply same_trans; [|apply same_sym, same_assoc]; apply same_bind; [apply same_refl|]; intros [c [a|e]] _; apply same_refl. }
  eapply same_trans; [apply H|]; eapply same_trans; [apply same_bind; [apply (observe_reading (fun _ => '(p', _) <- population_replace io p off ;; Ret p'))|intros; apply same_refl]|].
  eapply same_trans; [apply same_assoc|]; eapply same_trans; [apply same_assoc|]; apply same_bind; [apply same_refl|]; intros [p' old] _; apply same_refl.
Qed.

Lemma observe_pair {A B} (make : A -> S0 -> B) (m : code S0 A) s : same_execution (observe make m s) ('(a, s1) <- observe pair m s ;; Ret (make a s1)).
Proof. unfold observe; eapply same_trans; [|apply same_sym, same_assoc]; apply same_bind; [apply same_refl|]; intros [c [a|e]] _; apply same_refl. Qed.

Lemma loop_agrees fuel : forall s p ps tr,
  same_execution (observe as_run (cell_loop io fexp mdl alg prepare_next no_reentry progress fuel p ps tr) s)
                 (evolve_loop io fexp mdl alg (as_closure progress) fuel s p ps tr).
Proof.
  induction fuel as [|n IH]; intros s p ps tr; cbn [cell_loop evolve_loop]; [reflexivity|].
  eapply same_trans; [eapply observe_next with (m' := as_closure progress ps s p) (k' := fun a s1 => let '(c, ps') := a in
      if (c : bool) then '(s', p') <- evolve_step io fexp mdl alg s1 p ;; evolve_loop io fexp mdl alg (as_closure progress) n s' p' ps' (tr ++ [p])
      else Ret (mkRun p s1 ps' (tr ++ [p]))); [auto|apply same_refl|]|].
  2: { apply same_bind; [apply same_refl|]; intros [[c ps'] s1] _; apply same_refl. }
  intros [[|] ps'] s1 _; [|reflexivity].
  eapply same_trans; [eapply observe_next with (m' := '(s', p') <- evolve_step io fexp mdl alg s1 p ;; Ret (p', s'))
    (k' := fun p' s' => evolve_loop io fexp mdl alg (as_closure progress) n s' p' ps' (tr ++ [p])); [apply step_balanced; intros; apply balanced_none| |]|].
  - eapply same_trans; [|apply same_bind; [apply step_agrees|intros; apply same_refl]].
    unfold observe; eapply same_trans; [|apply same_sym, same_assoc]; apply same_bind; [apply same_refl|]; intros [c [a|e]] _; apply same_refl.
  - intros p' s' _; apply IH.
  - eapply same_trans; [apply same_assoc|]; apply same_bind; [apply same_refl|]; intros [s' p'] _; apply same_refl.
Qed.

Lemma evolve_agrees fuel s init q ps :
  same_execution (observe as_run (cell_evolve io fexp mdl alg configure prepare_next no_reentry progress fuel init q ps) s)
                 (evolve_population io fexp mdl alg (as_closure progress) fuel s init q ps).
Proof.
  unfold cell_evolve, evolve_population.
  eapply same_trans; [eapply observe_next with (k' := fun _ s1 => p <- initialize_population io mdl (alg_model alg s1) init ;;
    evolve_loop io fexp mdl alg (as_closure progress) fuel s1 p ps []);
    [apply balanced_writing|apply (observe_writing (fun s => configure s q)), Hconf|]|].
  2: { eapply same_trans; [apply same_assoc|]; apply same_bind; [apply same_refl|]; intros; apply same_refl. }
  intros [] s1 _; eapply same_trans; [eapply observe_next with (k' := fun p s1 => evolve_loop io fexp mdl alg (as_closure progress) fuel s1 p ps []);
    [apply balanced_read|apply (observe_reading (fun s => initialize_population io mdl (alg_model alg s) init))|]|].
  2: { eapply same_trans; [apply same_assoc|]; apply same_bind; [apply same_refl|]; intros; apply same_refl. }
  intros p s2 _; apply loop_agrees.
Qed.

Lemma rest_agrees fuel s init q ps :
  same_execution (observe as_run_with (next (cell_evolve io fexp mdl alg configure prepare_next no_reentry progress fuel init q ps) (fun r =>
                    next (pure (take_fittest (fst (fst r)))) (fun x => give (x, r)))) s)
                 (r <- evolve_population io fexp mdl alg (as_closure progress) fuel s init q ps ;; x <- take_fittest (r_population r) ;; Ret (x, r)).
Proof.
  eapply same_trans; [eapply observe_next with (m' := observe pair (cell_evolve io fexp mdl alg configure prepare_next no_reentry progress fuel init q ps) s)
    (k' := fun a s1 => x <- take_fittest (r_population (as_run a s1)) ;; Ret (x, as_run a s1)); [apply evolve_balanced; auto; intros; apply balanced_none|apply same_refl|]|].
  - intros [[p ps'] tr] s1 _; cbn [fst as_run r_population].
    eapply same_trans; [eapply observe_next with (k' := fun x s1 => Ret (x, mkRun p s1 ps' tr)); [apply balanced_pure|apply observe_pure|]|].
    + intros x s2 _; reflexivity.
    + eapply same_trans; [apply same_assoc|]; apply same_bind; [apply same_refl|]; intros; apply same_refl.
  - eapply same_trans; [|apply same_bind; [apply evolve_agrees|intros; apply same_refl]].
    eapply same_trans; [|apply same_bind; [apply same_sym, observe_pair|intros; apply same_refl]].
    eapply same_trans; [|apply same_sym, same_assoc]; apply same_bind; [apply same_refl|]; intros [a s1] _; apply same_refl.
Qed.

Lemma run_agrees fuel s nr q ps :
  same_execution (observe as_run_with (cell_run io fexp mdl alg configure prepare_next no_reentry progress fuel nr q ps) s)
                 (evolution_run io fexp mdl alg (as_closure progress) fuel s nr q ps).
Proof.
  unfold cell_run, evolution_run.
  eapply same_trans; [eapply observe_next with (k' := fun init s1 => r <- evolve_population io fexp mdl alg (as_closure progress) fuel s1 init q ps ;;
    x <- take_fittest (r_population r) ;; Ret (x, r));
    [apply balanced_read|apply (observe_reading (fun _ => extend_population nr [] (alg_initial_population_size alg q)))|]|].
  2: { eapply same_trans; [apply same_assoc|]; apply same_bind; [apply same_refl|]; intros; apply same_refl. }
  intros init s1 _; apply rest_agrees.
Qed.
Lemma individual_agrees fuel s seed q ps :
  same_execution (observe as_run_with (cell_individual io fexp mdl alg configure prepare_next no_reentry progress fuel seed q ps) s)
                 (evolve_individual io fexp mdl alg (as_closure progress) fuel s seed q ps).
Proof.
  unfold cell_individual, evolve_individual.
  eapply same_trans; [eapply observe_next with (k' := fun init s1 => r <- evolve_population io fexp mdl alg (as_closure progress) fuel s1 init q ps ;;
    x <- take_fittest (r_population r) ;; Ret (x, r));
    [apply balanced_read|apply (observe_reading (fun s => extend_population_with mdl (alg_model alg s) [] (alg_initial_population_size alg q) seed))|]|].
  2: { eapply same_trans; [apply same_assoc|]; apply same_bind; [apply same_refl|]; intros; apply same_refl. }
  intros init s1 _; apply rest_agrees.
Qed.
End Agrees.
End Run.
