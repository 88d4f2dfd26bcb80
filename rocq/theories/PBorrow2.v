(** * PBorrow2: re-entering a run (C104). *)
From Coq Require Import List Bool Arith NArith ZArith Lia.
From Verif Require Import Rnd LRnd F64 MStats MPopulation MSelection MModel MAlgorithms MUnwind MBorrow SpecF SpecA SpecW SpecV ExF ExM ExR PWord PNested PUnwind PBorrow.
Import ListNotations.

Section Run.
Context {I : Type} (io : individual_ops I) (fexp : f64 -> f64).
Context {MS : Type} (mdl : model I MS).
Context {P S0 : Type} (alg : algorithm I MS P S0).
Context (configure : S0 -> P -> M (S0 * option err)) (prepare_next : S0 -> population I -> M (S0 * option err)).
Context {PS : Type}.

Lemma evolve_busy user (progress : PS -> population I -> code S0 (bool * PS)) fuel init q ps c : flag c <> Free ->
  cell_evolve io fexp mdl alg configure prepare_next user progress fuel init q ps c = Ret (c, inr Panic).
Proof. intros H; unfold cell_evolve, next at 1, writing; destruct (flag c); [contradiction|reflexivity|reflexivity]. Qed.

Lemma then_busy {A} (m : code S0 (list I)) user (progress : PS -> population I -> code S0 (bool * PS)) fuel q ps (k : _ -> code S0 A) c c1 r :
  balanced m -> flag c <> Free ->
  may (next m (fun init => next (cell_evolve io fexp mdl alg configure prepare_next user progress fuel init q ps) k) c) (c1, r) -> exists e, r = inr e.
Proof.
  intros Hm H Hr; unfold next at 1 in Hr; apply (proj1 (may_bind _ _ _)) in Hr as ([c' [init|e]] & H1 & Hr).
  - pose proof (Hm _ _ _ H1) as Hf; unfold next in Hr; rewrite evolve_busy in Hr by (rewrite Hf; auto); cbn in Hr; injection Hr as _ Hr; eauto.
  - cbn in Hr; injection Hr as _ Hr; eauto.
Qed.
Lemma run_busy user (progress : PS -> population I -> code S0 (bool * PS)) fuel nr seed q ps c :
  (forall pl, balanced (user pl)) -> flag c <> Free -> forall c1 r,
  may (cell_run io fexp mdl alg configure prepare_next user progress fuel nr q ps c) (c1, r) \/
  may (cell_individual io fexp mdl alg configure prepare_next user progress fuel seed q ps c) (c1, r) -> exists e, r = inr e.
Proof.
  intros Hu H c1 r [Hr|Hr]; eapply then_busy; try exact Hr; auto;
    apply balanced_reading; intros s; apply balanced_next; auto; intros; apply balanced_pure.
Qed.

Section Same.
Context (user user' : place -> code S0 unit) (progress progress' : PS -> population I -> code S0 (bool * PS)).
Hypothesis Hu : forall pl, balanced (user pl).
Hypothesis Hp : forall ps p, balanced (progress ps p).
Hypothesis Eu : forall pl c, flag c <> Free -> same_execution (user pl c) (user' pl c).
Hypothesis Ep : forall ps p c, flag c = Free -> same_execution (progress ps p c) (progress' ps p c).

Lemma reading_same {A} pl (k : S0 -> code S0 A) c :
  same_execution (reading (fun s => next (user pl) (fun _ => k s)) c) (reading (fun s => next (user' pl) (fun _ => k s)) c).
Proof.
  unfold reading; destruct (flag c); try apply same_refl; (apply same_bind; [|intros; apply same_refl]);
    (apply next_same; [apply Eu; discriminate|intros; apply same_refl]).
Qed.
Lemma writing_same {A} pl (k : code S0 A) c :
  same_execution (writing (next (user pl) (fun _ => k)) c) (writing (next (user' pl) (fun _ => k)) c).
Proof.
  unfold writing; destruct (flag c); try apply same_refl; (apply same_bind; [|intros; apply same_refl]);
    (apply next_same; [apply Eu; discriminate|intros; apply same_refl]).
Qed.

Lemma step_same p c : same_execution (cell_step io fexp mdl alg prepare_next user p c) (cell_step io fexp mdl alg prepare_next user' p c).
Proof.
  unfold cell_step; apply next_same; [apply (writing_same In_prepare)|intros _ c1 _].
  apply next_same; [apply (reading_same In_elites (fun s => pure (alg_select_elites alg s p [])))|intros el c2 _].
  apply next_same; [apply (reading_same In_breed (fun s => pure (generate_new_population io fexp mdl (alg_model alg s) (alg_reproduction_parameters alg s) p el)))|intros off c3 _].
  apply (reading_same In_replace (fun _ => pure ('(p', _) <- population_replace io p off ;; Ret p'))).
Qed.
Lemma loop_same fuel : forall p ps tr c, flag c = Free ->
  same_execution (cell_loop io fexp mdl alg prepare_next user progress fuel p ps tr c) (cell_loop io fexp mdl alg prepare_next user' progress' fuel p ps tr c).
Proof.
  induction fuel as [|n IH]; intros p ps tr c Hc; cbn [cell_loop]; [apply same_refl|].
  apply next_same; [auto|]; intros [[|] ps'] c1 H1; [|apply same_refl].
  apply next_same; [apply step_same|]; intros p' c2 H2; apply IH.
  rewrite (step_balanced io fexp mdl alg prepare_next user Hu p _ _ _ H2), (Hp _ _ _ _ _ H1); auto.
Qed.
Lemma evolve_same fuel init q ps c :
  same_execution (cell_evolve io fexp mdl alg configure prepare_next user progress fuel init q ps c)
                 (cell_evolve io fexp mdl alg configure prepare_next user' progress' fuel init q ps c).
Proof.
  destruct (flag c) eqn:E; [|rewrite !evolve_busy by congruence; apply same_refl|rewrite !evolve_busy by congruence; apply same_refl].
  unfold cell_evolve; apply next_same; [apply (writing_same In_configure)|intros [] c1 H1].
  apply next_same; [apply (reading_same In_evaluate (fun s => pure (initialize_population io mdl (alg_model alg s) init)))|intros p c2 H2].
  apply loop_same; rewrite (balanced_reading _ (fun s => balanced_next _ _ (Hu In_evaluate) (fun _ => balanced_pure _)) _ _ _ H2).
  rewrite (balanced_writing _ _ _ _ H1); auto.
Qed.
Lemma run_same fuel nr q ps c :
  same_execution (cell_run io fexp mdl alg configure prepare_next user progress fuel nr q ps c)
                 (cell_run io fexp mdl alg configure prepare_next user' progress' fuel nr q ps c).
Proof.
  unfold cell_run; apply next_same; [apply (reading_same In_new_random (fun _ => pure (extend_population nr [] (alg_initial_population_size alg q))))|intros init c1 _].
  apply next_same; [apply evolve_same|intros; apply same_refl].
Qed.
Lemma individual_same fuel seed q ps c :
  same_execution (cell_individual io fexp mdl alg configure prepare_next user progress fuel seed q ps c)
                 (cell_individual io fexp mdl alg configure prepare_next user' progress' fuel seed q ps c).
Proof.
  unfold cell_individual; apply next_same; [apply (reading_same In_mutate (fun s => pure (extend_population_with mdl (alg_model alg s) [] (alg_initial_population_size alg q) seed)))|intros init c1 _].
  apply next_same; [apply evolve_same|intros; apply same_refl].
Qed.
End Same.

(** A call that always panics under a borrow, made by user code at [pl0] *)
Lemma reentry pl0 (attempt : code S0 unit) user (progress : PS -> population I -> code S0 (bool * PS)) :
  (forall c, flag c <> Free -> same_execution (attempt c) (panics c)) ->
  balanced attempt -> (forall pl, balanced (user pl)) -> (forall ps p, balanced (progress ps p)) ->
  forall fuel init q ps c,
  same_execution (cell_evolve io fexp mdl alg configure prepare_next (at_place pl0 attempt user) progress fuel init q ps c)
                 (cell_evolve io fexp mdl alg configure prepare_next (at_place pl0 panics user) progress fuel init q ps c).
Proof.
  intros Ha Hb Hu Hp fuel init q ps c; apply evolve_same; auto.
  - intros pl; unfold at_place; destruct (place_eqb pl pl0); auto.
  - intros pl c0 H0; unfold at_place; destruct (place_eqb pl pl0); [auto|apply same_refl].
  - intros; apply same_refl.
Qed.

Lemma in_evaluate (attempt : code S0 unit) user (progress : PS -> population I -> code S0 (bool * PS)) fuel init q ps c c1 r :
  (forall c c1 r, flag c <> Free -> may (attempt c) (c1, r) -> exists e, r = inr e) ->
  may (cell_evolve io fexp mdl alg configure prepare_next (at_place In_evaluate attempt user) progress fuel init q ps c) (c1, r) -> exists e, r = inr e.
Proof.
  intros Ha H; unfold cell_evolve, next at 1 in H; apply (proj1 (may_bind _ _ _)) in H as ([c2 [[]|e]] & _ & H); [|cbn in H; injection H as _ H; eauto].
  unfold next at 1 in H; apply (proj1 (may_bind _ _ _)) in H as ([c3 [p|e]] & Hr & H); [|cbn in H; injection H as _ H; eauto].
  exfalso; unfold reading, at_place in Hr; cbn [place_eqb] in Hr; destruct (flag c2) as [|n|].
  - apply (proj1 (may_bind _ _ _)) in Hr as ([c4 r4] & Hr & E); cbn in E; injection E as _ E; subst r4.
    unfold next in Hr; apply (proj1 (may_bind _ _ _)) in Hr as ([c5 r5] & Hr & E).
    destruct (Ha _ _ _ (fun H : flag (mkCell (Reading 0) (value c2)) = Free => ltac:(discriminate H)) Hr) as [e ->]; discriminate.
  - apply (proj1 (may_bind _ _ _)) in Hr as ([c4 r4] & Hr & E); cbn in E; injection E as _ E; subst r4.
    unfold next in Hr; apply (proj1 (may_bind _ _ _)) in Hr as ([c5 r5] & Hr & E).
    destruct (Ha _ _ _ (fun H : flag (mkCell (Reading (S n)) (value c2)) = Free => ltac:(discriminate H)) Hr) as [e ->]; discriminate.
  - discriminate.
Qed.

Lemma in_prepare (attempt : code S0 unit) user (progress : PS -> population I -> code S0 (bool * PS)) fuel init q ps c c1 p ps' tr :
  (forall c c1 r, flag c <> Free -> may (attempt c) (c1, r) -> exists e, r = inr e) ->
  may (cell_evolve io fexp mdl alg configure prepare_next (at_place In_prepare attempt user) progress fuel init q ps c) (c1, inl (p, ps', tr)) -> tr = [p].
Proof.
  intros Ha H; unfold cell_evolve, next at 1 in H; apply (proj1 (may_bind _ _ _)) in H as ([c2 [[]|e]] & _ & H); [|discriminate].
  unfold next at 1 in H; apply (proj1 (may_bind _ _ _)) in H as ([c3 [p0|e]] & _ & H); [|discriminate].
  destruct fuel as [|n]; cbn [cell_loop] in H; [discriminate|].
  unfold next at 1 in H; apply (proj1 (may_bind _ _ _)) in H as ([c4 [[[|] ps1]|e]] & _ & H); [| |discriminate].
  - exfalso; unfold next at 1 in H; apply (proj1 (may_bind _ _ _)) in H as ([c5 [p1|e]] & Hs & H); [|discriminate].
    unfold cell_step, next at 1 in Hs; apply (proj1 (may_bind _ _ _)) in Hs as ([c6 [[]|e]] & Hw & Hs); [|discriminate].
    unfold writing, at_place in Hw; cbn [place_eqb] in Hw; destruct (flag c4); [|discriminate|discriminate].
    apply (proj1 (may_bind _ _ _)) in Hw as ([c7 r7] & Hw & E); cbn in E; injection E as _ E; subst r7.
    unfold next in Hw; apply (proj1 (may_bind _ _ _)) in Hw as ([c8 r8] & Hw & E).
    destruct (Ha _ _ _ (fun H : flag (mkCell Writing (value c4)) = Free => ltac:(discriminate H)) Hw) as [e ->]; discriminate.
  - cbn in H; injection H as E1 E2 E3 E4; subst; reflexivity.
Qed.
End Run.

Lemma attempt_panics {I MS P S0 PS} io fexp (mdl : model I MS) (alg : algorithm I MS P S0) configure prepare_next user
    (progress : PS -> population I -> code S0 (bool * PS)) fuel init q ps c : flag c <> Free ->
  same_execution (ignoring (cell_evolve io fexp mdl alg configure prepare_next user progress fuel init q ps) c) (panics c).
Proof. intros H; unfold ignoring, next; rewrite evolve_busy by auto; reflexivity. Qed.

Lemma attempt_always {I MS P S0 PS} io fexp (mdl : model I MS) (alg : algorithm I MS P S0) configure prepare_next user
    (progress : PS -> population I -> code S0 (bool * PS)) fuel init nr seed q ps :
  (forall pl, balanced (user pl)) -> forall attempt : code S0 unit,
  attempt = ignoring (cell_evolve io fexp mdl alg configure prepare_next user progress fuel init q ps) \/
  attempt = ignoring (cell_run io fexp mdl alg configure prepare_next user progress fuel nr q ps) \/
  attempt = ignoring (cell_individual io fexp mdl alg configure prepare_next user progress fuel seed q ps) ->
  forall c c1 r, flag c <> Free -> may (attempt c) (c1, r) -> exists e, r = inr e.
Proof.
  intros Hu attempt [->|[->| ->]] c c1 r Hc H; unfold ignoring, next at 1 in H.
  - rewrite evolve_busy in H by auto; cbn in H; injection H as _ H; eauto.
  - apply (proj1 (may_bind _ _ _)) in H as ([c2 r2] & H1 & H).
    destruct (run_busy io fexp mdl alg configure prepare_next user progress fuel nr seed q ps c Hu Hc c2 r2 (or_introl H1)) as [e ->]; cbn in H; injection H as _ H; eauto.
  - apply (proj1 (may_bind _ _ _)) in H as ([c2 r2] & H1 & H).
    destruct (run_busy io fexp mdl alg configure prepare_next user progress fuel nr seed q ps c Hu Hc c2 r2 (or_intror H1)) as [e ->]; cbn in H; injection H as _ H; eauto.
Qed.

Lemma methods_complete {I MS} (io : individual_ops I) (fexp : f64 -> f64) (mdl : model I MS) :
  (forall (s : ga_state I MS) q, completes (unwinding (ga_configure_steps q) s) (ga_configure s q)) /\
  (forall (s : aga_state I MS) q, completes (unwinding (aga_configure_steps q) s) (aga_configure s q)) /\
  (forall S0 (m : M S0) s, completes (or_unchanged m s) m).
Proof.
  split; [|split].
  - intros s q; unfold completes; destruct (ga_steps s q) as [(s' & -> & ->)|(l & -> & ->)]; reflexivity.
  - intros s q; unfold completes; destruct (aga_steps s q) as [(s' & -> & ->)|(l & -> & ->)]; reflexivity.
  - intros S0 m s; unfold completes, or_unchanged; induction m as [a|e|n k IH|n k IH]; cbn; auto.
Qed.

(** After any run, whatever its outcome, the next one is the model's. *)
Lemma still_usable {I MS P S0 PS PS'} io fexp (mdl : model I MS) (alg : algorithm I MS P S0) configure prepare_next user
    (progress : PS -> population I -> code S0 (bool * PS)) (progress' : PS' -> population I -> code S0 (bool * PS')) :
  (forall pl, balanced (user pl)) -> (forall ps p, balanced (progress ps p)) -> (forall ps p, balanced (progress' ps p)) ->
  (forall s q, completes (configure s q) (alg_configure alg s q)) -> (forall s p, completes (prepare_next s p) (alg_prepare alg s p)) ->
  forall s fuel init q ps c1 r fuel' nr q' ps',
  may (cell_evolve io fexp mdl alg configure prepare_next user progress fuel init q ps (mkCell Free s)) (c1, r) ->
  same_execution (o <- cell_run io fexp mdl alg configure prepare_next no_reentry progress' fuel' nr q' ps' c1 ;; outcome as_run_with o)
                 (evolution_run io fexp mdl alg (as_closure progress') fuel' (value c1) nr q' ps').
Proof.
  intros Hu Hp Hp' Hc Hq s fuel init q ps c1 r fuel' nr q' ps' H.
  pose proof (evolve_balanced io fexp mdl alg configure prepare_next user progress Hu Hp fuel init q ps _ _ _ H) as Hf; cbn [flag] in Hf.
  destruct c1 as [b v]; cbn [flag value] in *; subst b.
  exact (run_agrees io fexp mdl alg configure prepare_next progress' Hp' Hc Hq fuel' v nr q' ps').
Qed.

(** ** Examples *)
Definition ex_conf (s : ga_state nat unit) (q : ga_params) := unwinding (ga_configure_steps q) s.
Definition ex_prep (s : ga_state nat unit) (p : population nat) := or_unchanged (ga_prepare ex_io ex_exp ex_model s p) s.
Definition ex_cell {PS} user (progress : PS -> population nat -> code (ga_state nat unit) (bool * PS)) :=
  cell_evolve ex_io ex_exp ex_model (ga_algorithm ex_io ex_exp ex_model) ex_conf ex_prep user progress.
(** closures that stop at once; that start a run of which they are the closure; ... *)
Definition ex_stop (ps : unit) (p : population nat) : code (ga_state nat unit) (bool * unit) := give (generation p <? 1, tt).
Definition ex_deep (ps : unit) (p : population nat) : code (ga_state nat unit) (bool * unit) :=
  next (ex_cell no_reentry ex_stop 2 [1; 2] (ex_ga 2) tt) (fun _ => give (false, tt)).
Definition ex_deeper (ps : unit) (p : population nat) : code (ga_state nat unit) (bool * unit) :=
  next (ex_cell no_reentry ex_deep 1 [3] (ex_ga 2) tt) (fun _ => give (false, tt)).

Lemma stop_balanced ps p : balanced (ex_stop ps p).
Proof. apply balanced_give. Qed.
Lemma deep_balanced ps p : balanced (ex_deep ps p).
Proof. apply balanced_next; [apply evolve_balanced; [intros; apply balanced_give|apply stop_balanced]|intros; apply balanced_give]. Qed.
Lemma deeper_balanced ps p : balanced (ex_deeper ps p).
Proof. apply balanced_next; [apply evolve_balanced; [intros; apply balanced_give|apply deep_balanced]|intros; apply balanced_give]. Qed.

Lemma strict_result {A B} (m : M (A * (B + err))) :
  match run_strict m [] with Some (_, inl _) => true | _ => false end = true -> exists c1 r, may m (c1, inl r).
Proof. destruct (run_strict m []) as [[c1 [r|e]]|] eqn:E; try discriminate; intros _; exists c1, r; exact (run_strict_may _ _ _ E). Qed.
Lemma strict_panic {A B} (m : M (A * (B + err))) :
  match run_strict m [] with Some (_, inr Panic) => true | _ => false end = true -> exists c1, may m (c1, inr Panic).
Proof. destruct (run_strict m []) as [[c1 [r|[|]]]|] eqn:E; try discriminate; intros _; exists c1; exact (run_strict_may _ _ _ E). Qed.

Lemma deep_runs : exists c1 r, may (ex_cell no_reentry ex_deeper 1 [4; 5] (ex_ga 2) tt (mkCell Free (ga_from tt))) (c1, inl r) /\ flag c1 = Free.
Proof.
  destruct (strict_result (ex_cell no_reentry ex_deeper 1 [4; 5] (ex_ga 2) tt (mkCell Free (ga_from tt)))) as (c1 & r & E); [vm_compute; reflexivity|].
  exists c1, r; split; [exact E|].
  exact (evolve_balanced ex_io ex_exp ex_model (ga_algorithm ex_io ex_exp ex_model) ex_conf ex_prep no_reentry ex_deeper (fun pl => balanced_give tt) deeper_balanced
    _ _ _ _ _ _ _ E).
Qed.
Lemma busy_panics : exists c1, may (ex_cell (at_place In_prepare (ignoring (ex_cell no_reentry ex_stop 2 [1; 2] (ex_ga 2) tt)) no_reentry) ex_stop 2 [4; 5] (ex_ga 2) tt
  (mkCell Free (ga_from tt))) (c1, inr Panic) /\ flag c1 = Free.
Proof.
  set (u := at_place _ _ _).
  destruct (strict_panic (ex_cell u ex_stop 2 [4; 5] (ex_ga 2) tt (mkCell Free (ga_from tt)))) as (c1 & E); [vm_compute; reflexivity|].
  exists c1; split; [exact E|].
  assert (Hu : forall pl, balanced (u pl)).
  { intros pl; unfold u, at_place; destruct (place_eqb _ _); [|apply balanced_give].
    apply balanced_next; [apply evolve_balanced; [intros; apply balanced_give|apply stop_balanced]|intros; apply balanced_give]. }
  exact (evolve_balanced ex_io ex_exp ex_model (ga_algorithm ex_io ex_exp ex_model) ex_conf ex_prep u ex_stop Hu stop_balanced _ _ _ _ _ _ _ E).
Qed.
Lemma c104_example :
  (forall ps p, balanced (ex_deeper ps p)) /\
  (forall s q, completes (ex_conf s q) (alg_configure (ga_algorithm ex_io ex_exp ex_model) s q)) /\
  (forall s p, completes (ex_prep s p) (alg_prepare (ga_algorithm ex_io ex_exp ex_model) s p)) /\
  (exists c1 r, may (ex_cell no_reentry ex_deeper 1 [4; 5] (ex_ga 2) tt (mkCell Free (ga_from tt))) (c1, inl r) /\ flag c1 = Free) /\
  (exists c1, may (ex_cell (at_place In_prepare (ignoring (ex_cell no_reentry ex_stop 2 [1; 2] (ex_ga 2) tt)) no_reentry) ex_stop 2 [4; 5] (ex_ga 2) tt
     (mkCell Free (ga_from tt))) (c1, inr Panic) /\ flag c1 = Free).
Proof.
  destruct (methods_complete ex_io ex_exp ex_model) as (A & _ & B).
  split; [apply deeper_balanced|]; split; [intros s q; apply A|]; split; [intros s p; apply B|]; split; [apply deep_runs|apply busy_panics].
Qed.

Lemma all_balanced {I MS P S0 PS} io fexp (mdl : model I MS) (alg : algorithm I MS P S0) configure prepare_next user
    (progress : PS -> population I -> code S0 (bool * PS)) :
  (forall pl, balanced (user pl)) -> (forall ps p, balanced (progress ps p)) ->
  forall fuel init nr seed q ps,
  balanced (cell_evolve io fexp mdl alg configure prepare_next user progress fuel init q ps) /\
  balanced (cell_run io fexp mdl alg configure prepare_next user progress fuel nr q ps) /\
  balanced (cell_individual io fexp mdl alg configure prepare_next user progress fuel seed q ps).
Proof. intros Hu Hp fuel init nr seed q ps; split; [apply evolve_balanced; auto|]; split; [apply run_balanced; auto|apply individual_balanced; auto]. Qed.

Lemma all_agree {I MS P S0 PS} io fexp (mdl : model I MS) (alg : algorithm I MS P S0) configure prepare_next
    (progress : PS -> population I -> code S0 (bool * PS)) :
  (forall ps p, balanced (progress ps p)) ->
  (forall s q, completes (configure s q) (alg_configure alg s q)) -> (forall s p, completes (prepare_next s p) (alg_prepare alg s p)) ->
  forall fuel s init nr seed q ps,
  same_execution (observe as_run (cell_evolve io fexp mdl alg configure prepare_next no_reentry progress fuel init q ps) s)
                 (evolve_population io fexp mdl alg (as_closure progress) fuel s init q ps) /\
  same_execution (observe as_run_with (cell_run io fexp mdl alg configure prepare_next no_reentry progress fuel nr q ps) s)
                 (evolution_run io fexp mdl alg (as_closure progress) fuel s nr q ps) /\
  same_execution (observe as_run_with (cell_individual io fexp mdl alg configure prepare_next no_reentry progress fuel seed q ps) s)
                 (evolve_individual io fexp mdl alg (as_closure progress) fuel s seed q ps).
Proof.
  intros Hp Hc Hq fuel s init nr seed q ps; split; [apply evolve_agrees; auto|]; split; [apply run_agrees; auto|apply individual_agrees; auto].
Qed.

Lemma all_same {I MS P S0 PS} io fexp (mdl : model I MS) (alg : algorithm I MS P S0) configure prepare_next user user'
    (progress progress' : PS -> population I -> code S0 (bool * PS)) :
  (forall pl, balanced (user pl)) -> (forall ps p, balanced (progress ps p)) ->
  (forall pl c, flag c <> Free -> same_execution (user pl c) (user' pl c)) ->
  (forall ps p c, flag c = Free -> same_execution (progress ps p c) (progress' ps p c)) ->
  forall fuel init nr seed q ps c,
  same_execution (cell_evolve io fexp mdl alg configure prepare_next user progress fuel init q ps c)
                 (cell_evolve io fexp mdl alg configure prepare_next user' progress' fuel init q ps c) /\
  same_execution (cell_run io fexp mdl alg configure prepare_next user progress fuel nr q ps c)
                 (cell_run io fexp mdl alg configure prepare_next user' progress' fuel nr q ps c) /\
  same_execution (cell_individual io fexp mdl alg configure prepare_next user progress fuel seed q ps c)
                 (cell_individual io fexp mdl alg configure prepare_next user' progress' fuel seed q ps c).
Proof.
  intros Hu Hp Eu Ep fuel init nr seed q ps c; split; [apply evolve_same; auto|]; split; [apply run_same; auto|apply individual_same; auto].
Qed.

Lemma reentry_panics {I MS P S0 PS PS'} io fexp (mdl : model I MS) (alg : algorithm I MS P S0) configure prepare_next user user0
    (progress : PS -> population I -> code S0 (bool * PS)) (progress0 : PS' -> population I -> code S0 (bool * PS')) pl0 fuel0 init0 q0 ps0 :
  (forall pl, balanced (user pl)) -> (forall ps p, balanced (progress ps p)) ->
  (forall pl, balanced (user0 pl)) -> (forall ps p, balanced (progress0 ps p)) ->
  forall fuel init q ps c,
  same_execution
    (cell_evolve io fexp mdl alg configure prepare_next
      (at_place pl0 (ignoring (cell_evolve io fexp mdl alg configure prepare_next user0 progress0 fuel0 init0 q0 ps0)) user) progress fuel init q ps c)
    (cell_evolve io fexp mdl alg configure prepare_next (at_place pl0 panics user) progress fuel init q ps c).
Proof.
  intros Hu Hp Hu0 Hp0; apply reentry; auto.
  - intros c H; apply attempt_panics; auto.
  - apply balanced_next; [apply evolve_balanced; auto|intros; apply balanced_give].
Qed.

Lemma reentry_stops {I MS P S0 PS PS'} io fexp (mdl : model I MS) (alg : algorithm I MS P S0) configure prepare_next user user0
    (progress : PS -> population I -> code S0 (bool * PS)) (progress0 : PS' -> population I -> code S0 (bool * PS')) fuel0 init0 nr0 seed0 q0 ps0 :
  (forall pl, balanced (user0 pl)) -> forall attempt : code S0 unit,
  attempt = ignoring (cell_evolve io fexp mdl alg configure prepare_next user0 progress0 fuel0 init0 q0 ps0) \/
  attempt = ignoring (cell_run io fexp mdl alg configure prepare_next user0 progress0 fuel0 nr0 q0 ps0) \/
  attempt = ignoring (cell_individual io fexp mdl alg configure prepare_next user0 progress0 fuel0 seed0 q0 ps0) ->
  forall fuel init q ps c c1 r,
  (may (cell_evolve io fexp mdl alg configure prepare_next (at_place In_evaluate attempt user) progress fuel init q ps c) (c1, r) -> exists e, r = inr e) /\
  (may (cell_evolve io fexp mdl alg configure prepare_next (at_place In_prepare attempt user) progress fuel init q ps c) (c1, r) ->
   (exists e, r = inr e) \/ exists p ps', r = inl (p, ps', [p])).
Proof.
  intros Hu attempt Ha fuel init q ps c c1 r.
  pose proof (attempt_always io fexp mdl alg configure prepare_next user0 progress0 fuel0 init0 nr0 seed0 q0 ps0 Hu attempt Ha) as Hx; split; intros H.
  - eapply in_evaluate; eauto.
  - destruct r as [[[p ps'] tr]|e]; [right|left; eauto]; exists p, ps'; rewrite (in_prepare io fexp mdl alg configure prepare_next attempt user progress fuel init q ps c c1 p ps' tr Hx H); reflexivity.
Qed.

Lemma user_code {S0 A B} (a : A) (m : code S0 A) (k : A -> code S0 B) (m0 : M A) :
  balanced (S0 := S0) (give a) /\ balanced (S0 := S0) (A := A) panics /\ balanced (S0 := S0) (pure m0) /\
  (balanced m -> (forall x, balanced (k x)) -> balanced (next m k)) /\ (balanced m -> balanced (catching m)) /\
  (forall c c1 r, may (catching m c) (c1, r) <-> exists r', r = inl r' /\ may (m c) (c1, r')).
Proof.
  split; [apply balanced_give|]; split; [intros c c1 r H; cbn in H; injection H as H _; subst; reflexivity|]; split; [apply balanced_pure|].
  split; [apply balanced_next|]; split; [apply balanced_catching|]; intros c c1 r; unfold catching; split.
  - intros H; apply (proj1 (may_bind _ _ _)) in H as ([c' r'] & H & E); cbn in E; injection E as E1 E2; subst; exists r'; split; [reflexivity|exact H].
  - intros (r' & -> & H); apply (proj2 (may_bind _ _ _)); exists (c1, r'); split; [exact H|reflexivity].
Qed.

Section Left.
Context {I : Type} (io : individual_ops I) (fexp : f64 -> f64) {MS : Type} (mdl : model I MS) {P S0 : Type} (alg : algorithm I MS P S0).
Context (configure : S0 -> P -> M (S0 * option err)) (prepare_next : S0 -> population I -> M (S0 * option err)) {PS : Type}.
Context (progress : PS -> population I -> code S0 (bool * PS)).

Lemma runs_writer user fuel nr seed q ps (c : cell S0) : flag c = Writing ->
  cell_run io fexp mdl alg configure prepare_next user progress fuel nr q ps c = Ret (c, inr Panic) /\
  cell_individual io fexp mdl alg configure prepare_next user progress fuel seed q ps c = Ret (c, inr Panic).
Proof. intros H; split; [unfold cell_run|unfold cell_individual]; unfold next at 1, reading; rewrite H; reflexivity. Qed.

Lemma rejected_left fuel init q ps s s1 e : may (configure s q) (s1, Some e) ->
  may (cell_evolve io fexp mdl alg configure prepare_next no_reentry progress fuel init q ps (mkCell Free s)) (mkCell Free s1, inr e).
Proof.
  intros H; unfold cell_evolve, next at 1; apply (proj2 (may_bind _ _ _)); exists (mkCell Free s1, inr e); split; [|reflexivity].
  cbn [writing flag]; apply (proj2 (may_bind _ _ _)); exists (mkCell Writing s1, inr e); split; [|reflexivity].
  unfold next, no_reentry, give; cbn [bind]; unfold update; apply (proj2 (may_bind _ _ _)); exists (s1, Some e); split; [exact H|reflexivity].
Qed.
End Left.
