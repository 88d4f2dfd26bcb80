(** * PSchedule2: whole runs on worker threads. *)
From Coq Require Import List Bool Arith NArith Lia.
From Verif Require Import Rnd LRnd F64 MStats MPopulation MSelection MModel MAlgorithms MSchedule SpecS PSchedule.
Import ListNotations.

Section Cover.
Context {G : Type} (next : G -> N -> N * G) (fresh : G -> Prop).
Context (Hnext : in_range next).
Context {I : Type} (io : individual_ops I) (fexp : f64 -> f64).
Context {MS : Type} (mdl : model I MS).
Context {P S0 : Type} (alg : algorithm I MS P S0).
Context {PS : Type} (progress : PS -> S0 -> population I -> M (bool * PS * S0)).


Lemma extends_may (nr : M I) l size r : extends next fresh nr l size r -> may (extend_population nr l size) r.
Proof.
  intros H; destruct H as [->|jobs pool' news Hs H]; [reflexivity|]; unfold extend_population.
  destruct (Nat.eqb_spec size 0); [lia|]; apply (proj2 (may_bind _ _ _)); exists news; split; [|reflexivity].
  eapply parallel_may; eauto.
Qed.

Lemma extends_with_may ms l size seed r : extends_with next fresh mdl ms l size seed r -> may (extend_population_with mdl ms l size seed) r.
Proof.
  intros H; destruct H as [-> | -> | jobs pool' news Hs H]; try reflexivity; unfold extend_population_with.
  destruct (Nat.eqb_spec size 0); [lia|]; destruct (Nat.eqb_spec size 1); [lia|].
  apply (proj2 (may_bind _ _ _)); exists news; split; [|reflexivity]; eapply parallel_may; eauto.
Qed.

Lemma generates_may ms params p o pool pool' r : generates next fresh io fexp mdl ms params p o pool pool' r ->
  may (generate_new_population io fexp mdl ms params p o) r.
Proof.
  destruct params as [b size]; cbn [fst snd]; intros H; unfold generate_new_population;
    destruct H as [E|g rest x g' E Hp Hx|jobs pool' news Hs H]; cbn [fst snd] in *.
  - rewrite E; reflexivity.
  - rewrite E; apply (proj2 (may_bind _ _ _)); exists x; split; [eapply executes_may; eauto|reflexivity].
  - remember (size - length o) as k eqn:Ek; destruct k as [|[|k]]; [lia|lia|].
    apply (proj2 (may_bind _ _ _)); exists news; split; [eapply parallel_may; eauto|reflexivity].
Qed.

Lemma generates_fail_may ms params p o pool e : generates_fail next fresh io fexp mdl ms params p o pool e ->
  may_fail (generate_new_population io fexp mdl ms params p o) e.
Proof.
  destruct params as [b size]; unfold generates_fail, generate_new_population; cbn [fst snd].
  intros [[E (g & rest & _ & H)]|[Hs H]].
  - rewrite E; apply (proj2 (may_fail_bind _ _ _)); left; eapply fails_may; eauto.
  - remember (size - length o) as k eqn:Ek; destruct k as [|[|k]]; [lia|lia|].
    apply (proj2 (may_fail_bind _ _ _)); left; eapply parallel_fails_may; eauto; lia.
Qed.

Lemma steps_may s p pool s' p' pool' : steps_to next fresh io fexp mdl alg s p pool s' p' pool' ->
  may (evolve_step io fexp mdl alg s p) (s', p').
Proof.
  intros (el & o & old & H1 & H2 & H3 & H4); unfold evolve_step.
  apply (proj2 (may_bind _ _ _)); exists s'; split; auto; apply (proj2 (may_bind _ _ _)); exists el; split; auto.
  apply (proj2 (may_bind _ _ _)); exists o; split; [eapply generates_may; eauto|].
  apply (proj2 (may_bind _ _ _)); exists (p', old); split; auto; reflexivity.
Qed.

Lemma steps_fail_may s p pool e : steps_fail next fresh io fexp mdl alg s p pool e -> may_fail (evolve_step io fexp mdl alg s p) e.
Proof.
  unfold evolve_step; intros [H|(s' & H1 & [H|(el & H2 & [H|(pool' & o & H3 & H)])])]; apply (proj2 (may_fail_bind _ _ _)); [left; auto|right..].
  - exists s'; split; auto; apply (proj2 (may_fail_bind _ _ _)); left; auto.
  - exists s'; split; auto; apply (proj2 (may_fail_bind _ _ _)); right; exists el; split; auto.
    apply (proj2 (may_fail_bind _ _ _)); left; eapply generates_fail_may; eauto.
  - exists s'; split; auto; apply (proj2 (may_fail_bind _ _ _)); right; exists el; split; auto.
    apply (proj2 (may_fail_bind _ _ _)); right; exists o; split; [eapply generates_may; eauto|].
    apply (proj2 (may_fail_bind _ _ _)); left; auto.
Qed.

Lemma loops_may s p ps tr pool r : loops next fresh io fexp mdl alg progress s p ps tr pool r ->
  exists f0, forall fuel, f0 <= fuel -> may (evolve_loop io fexp mdl alg progress fuel s p ps tr) r.
Proof.
  induction 1 as [s p ps tr pool ps' s' H|s p ps tr pool ps' s1 s2 p2 pool2 r H Hs Hl [f0 IH]].
  - exists 1; intros [|fuel] Hf; [lia|]; cbn [evolve_loop]; apply (proj2 (may_bind _ _ _)); exists (false, ps', s'); split; auto; reflexivity.
  - exists (S f0); intros [|fuel] Hf; [lia|]; cbn [evolve_loop]; apply (proj2 (may_bind _ _ _)); exists (true, ps', s1); split; auto.
    apply (proj2 (may_bind _ _ _)); exists (s2, p2); split; [eapply steps_may; eauto|apply IH; lia].
Qed.

Lemma loops_fail_may e s p ps pool : loops_fail next fresh io fexp mdl alg progress e s p ps pool ->
  exists f0, forall fuel, f0 <= fuel -> forall tr, may_fail (evolve_loop io fexp mdl alg progress fuel s p ps tr) e.
Proof.
  induction 1 as [s p ps pool H|s p ps pool ps' s1 H Hs|s p ps pool ps' s1 s2 p2 pool2 H Hs Hl [f0 IH]].
  - exists 1; intros [|fuel] Hf tr; [lia|]; cbn [evolve_loop]; apply (proj2 (may_fail_bind _ _ _)); left; auto.
  - exists 1; intros [|fuel] Hf tr; [lia|]; cbn [evolve_loop]; apply (proj2 (may_fail_bind _ _ _)); right; exists (true, ps', s1); split; auto.
    apply (proj2 (may_fail_bind _ _ _)); left; eapply steps_fail_may; eauto.
  - exists (S f0); intros [|fuel] Hf tr; [lia|]; cbn [evolve_loop]; apply (proj2 (may_fail_bind _ _ _)); right; exists (true, ps', s1); split; auto.
    apply (proj2 (may_fail_bind _ _ _)); right; exists (s2, p2); split; [eapply steps_may; eauto|apply IH; lia].
Qed.

Lemma evolves_may threads s init q ps r : evolves next fresh io fexp mdl alg progress threads s init q ps r ->
  exists f0, forall fuel, f0 <= fuel -> may (evolve_population io fexp mdl alg progress fuel s init q ps) r.
Proof.
  intros (s1 & p & pool & H1 & H2 & _ & _ & H); destruct (loops_may _ _ _ _ _ _ H) as [f0 Hf].
  exists f0; intros fuel Hle; unfold evolve_population; apply (proj2 (may_bind _ _ _)); exists s1; split; auto.
  apply (proj2 (may_bind _ _ _)); exists p; split; auto.
Qed.

Lemma evolves_fail_may threads s init q ps e : evolves_fail next fresh io fexp mdl alg progress threads s init q ps e ->
  exists f0, forall fuel, f0 <= fuel -> may_fail (evolve_population io fexp mdl alg progress fuel s init q ps) e.
Proof.
  unfold evolve_population; intros [H|(s1 & H1 & [H|(p & pool & H2 & _ & _ & H)])].
  - exists 0; intros fuel _; apply (proj2 (may_fail_bind _ _ _)); left; auto.
  - exists 0; intros fuel _; apply (proj2 (may_fail_bind _ _ _)); right; exists s1; split; auto; apply (proj2 (may_fail_bind _ _ _)); left; auto.
  - destruct (loops_fail_may _ _ _ _ _ H) as [f0 Hf]; exists f0; intros fuel Hle.
    apply (proj2 (may_fail_bind _ _ _)); right; exists s1; split; auto; apply (proj2 (may_fail_bind _ _ _)); right; exists p; split; auto.
Qed.

Lemma runs_may threads s nr q ps x r : runs next fresh io fexp mdl alg progress threads s nr q ps x r ->
  exists f0, forall fuel, f0 <= fuel -> may (evolution_run io fexp mdl alg progress fuel s nr q ps) (x, r).
Proof.
  intros (init & H1 & H2 & H3); destruct (evolves_may _ _ _ _ _ _ H2) as [f0 Hf]; exists f0; intros fuel Hle; unfold evolution_run.
  apply (proj2 (may_bind _ _ _)); exists init; split; [apply extends_may; auto|].
  apply (proj2 (may_bind _ _ _)); exists r; split; [auto|].
  apply (proj2 (may_bind _ _ _)); exists x; split; [auto|reflexivity].
Qed.

Lemma runs_from_may threads s seed q ps x r : runs_from next fresh io fexp mdl alg progress threads s seed q ps x r ->
  exists f0, forall fuel, f0 <= fuel -> may (evolve_individual io fexp mdl alg progress fuel s seed q ps) (x, r).
Proof.
  intros (init & H1 & H2 & H3); destruct (evolves_may _ _ _ _ _ _ H2) as [f0 Hf]; exists f0; intros fuel Hle; unfold evolve_individual.
  apply (proj2 (may_bind _ _ _)); exists init; split; [apply extends_with_may; auto|].
  apply (proj2 (may_bind _ _ _)); exists r; split; [auto|].
  apply (proj2 (may_bind _ _ _)); exists x; split; [auto|reflexivity].
Qed.

Lemma tail_fail (init : M (list I)) threads s q ps e :
  (exists l, may init l /\ (evolves_fail next fresh io fexp mdl alg progress threads s l q ps e \/
     exists r, evolves next fresh io fexp mdl alg progress threads s l q ps r /\ may_fail (take_fittest (r_population r)) e)) ->
  exists f0, forall fuel, f0 <= fuel ->
    may_fail (l <- init ;; r <- evolve_population io fexp mdl alg progress fuel s l q ps ;; x <- take_fittest (r_population r) ;; Ret (x, r)) e.
Proof.
  intros (l & Hl & [H|(r & Hr & H)]).
  - destruct (evolves_fail_may _ _ _ _ _ _ H) as [f0 Hf]; exists f0; intros fuel Hle.
    apply (proj2 (may_fail_bind _ _ _)); right; exists l; split; auto; apply (proj2 (may_fail_bind _ _ _)); left; auto.
  - destruct (evolves_may _ _ _ _ _ _ Hr) as [f0 Hf]; exists f0; intros fuel Hle.
    apply (proj2 (may_fail_bind _ _ _)); right; exists l; split; auto; apply (proj2 (may_fail_bind _ _ _)); right; exists r; split; auto.
    apply (proj2 (may_fail_bind _ _ _)); left; auto.
Qed.

Lemma runs_fail_may threads s nr q ps e : runs_fail next fresh io fexp mdl alg progress threads s nr q ps e ->
  exists f0, forall fuel, f0 <= fuel -> may_fail (evolution_run io fexp mdl alg progress fuel s nr q ps) e.
Proof.
  intros [[Hs H]|(init & H1 & H)].
  - exists 0; intros fuel _; unfold evolution_run, extend_population.
    destruct (Nat.eqb_spec (alg_initial_population_size alg q) 0); [lia|].
    apply (proj2 (may_fail_bind _ _ _)); left; apply (proj2 (may_fail_bind _ _ _)); left; eapply parallel_fails_may; eauto.
  - apply (tail_fail _ threads); exists init; split; auto; apply extends_may; auto.
Qed.

Lemma runs_from_fail_may threads s seed q ps e : runs_from_fail next fresh io fexp mdl alg progress threads s seed q ps e ->
  exists f0, forall fuel, f0 <= fuel -> may_fail (evolve_individual io fexp mdl alg progress fuel s seed q ps) e.
Proof.
  intros [[Hs H]|(init & H1 & H)].
  - exists 0; intros fuel _; unfold evolve_individual, extend_population_with.
    destruct (Nat.eqb_spec (alg_initial_population_size alg q) 0); [lia|].
    destruct (Nat.eqb_spec (alg_initial_population_size alg q) 1); [lia|].
    apply (proj2 (may_fail_bind _ _ _)); left; apply (proj2 (may_fail_bind _ _ _)); left; eapply parallel_fails_may; eauto; lia.
  - apply (tail_fail _ threads); exists init; split; auto; apply extends_with_may; auto.
Qed.

(** Guarantees of the model hold on threads. *)
Lemma loop_must_more k Q : forall fuel s p ps tr, must (evolve_loop io fexp mdl alg progress fuel s p ps tr) Q ->
  must (evolve_loop io fexp mdl alg progress (fuel + k) s p ps tr) Q.
Proof.
  induction fuel as [|fuel IH]; intros s p ps tr H; [destruct H|]; cbn [evolve_loop Nat.add] in *.
  apply must_bind; apply (proj1 (must_bind _ _ _)) in H; eapply must_mono; [|exact H]; cbv beta.
  intros [[[|] ps'] s1] H1; [|exact H1]; cbv beta iota in *.
  apply must_bind; apply (proj1 (must_bind _ _ _)) in H1; eapply must_mono; [|exact H1]; cbv beta.
  intros [s' p'] H2; apply IH; exact H2.
Qed.

Lemma evolve_must_more k Q fuel s init q ps : must (evolve_population io fexp mdl alg progress fuel s init q ps) Q ->
  must (evolve_population io fexp mdl alg progress (fuel + k) s init q ps) Q.
Proof.
  unfold evolve_population; intros H.
  apply must_bind; apply (proj1 (must_bind _ _ _)) in H; eapply must_mono; [|exact H]; cbv beta; intros s1 H1.
  apply must_bind; apply (proj1 (must_bind _ _ _)) in H1; eapply must_mono; [|exact H1]; cbv beta; intros p H2.
  apply loop_must_more; exact H2.
Qed.

Lemma run_must_more k (init : M (list I)) (Q : I * run_result I S0 PS -> Prop) fuel s q ps :
  must (l <- init ;; r <- evolve_population io fexp mdl alg progress fuel s l q ps ;; x <- take_fittest (r_population r) ;; Ret (x, r)) Q ->
  must (l <- init ;; r <- evolve_population io fexp mdl alg progress (fuel + k) s l q ps ;; x <- take_fittest (r_population r) ;; Ret (x, r)) Q.
Proof.
  intros H; apply must_bind; apply (proj1 (must_bind _ _ _)) in H; eapply must_mono; [|exact H]; cbv beta; intros l H1.
  apply must_bind; apply (proj1 (must_bind _ _ _)) in H1; apply evolve_must_more; exact H1.
Qed.

Lemma runs_guarantee fuel Q threads s nr q ps : must (evolution_run io fexp mdl alg progress fuel s nr q ps) Q ->
  (forall x r, runs next fresh io fexp mdl alg progress threads s nr q ps x r -> Q (x, r)) /\
  (forall e, ~ runs_fail next fresh io fexp mdl alg progress threads s nr q ps e).
Proof.
  intros H; split.
  - intros x r Hr; destruct (runs_may _ _ _ _ _ _ _ Hr) as [f0 Hf].
    apply (must_may _ _ _ (run_must_more f0 _ _ _ _ _ _ H)); apply Hf; lia.
  - intros e He; destruct (runs_fail_may _ _ _ _ _ _ He) as [f0 Hf].
    apply (must_no_fail _ _ e (run_must_more f0 _ _ _ _ _ _ H)); apply Hf; lia.
Qed.

Lemma runs_from_guarantee fuel Q threads s seed q ps : must (evolve_individual io fexp mdl alg progress fuel s seed q ps) Q ->
  (forall x r, runs_from next fresh io fexp mdl alg progress threads s seed q ps x r -> Q (x, r)) /\
  (forall e, ~ runs_from_fail next fresh io fexp mdl alg progress threads s seed q ps e).
Proof.
  intros H; split.
  - intros x r Hr; destruct (runs_from_may _ _ _ _ _ _ _ Hr) as [f0 Hf].
    apply (must_may _ _ _ (run_must_more f0 _ _ _ _ _ _ H)); apply Hf; lia.
  - intros e He; destruct (runs_from_fail_may _ _ _ _ _ _ He) as [f0 Hf].
    apply (must_no_fail _ _ e (run_must_more f0 _ _ _ _ _ _ H)); apply Hf; lia.
Qed.
End Cover.

(** ** Every outcome of the model is that of some generator *)
Section Tape.
Lemma tape_in_range : in_range tape_next.
Proof. intros [|i t] n Hn; cbn; auto; destruct (N.ltb_spec i n); cbn; auto. Qed.

Lemma may_executes {A} (m : M A) a : may m a -> exists t, forall rest, executes tape_next m (t ++ rest) a rest.
Proof.
  induction m as [b|e|n k IH|n k IH]; cbn [may executes].
  - intros ->; exists []; auto.
  - intros [].
  - intros (i & Hi & H); destruct (IH i H) as [t Ht]; exists (i :: t); intros rest; split; [lia|].
    cbn [tape_next app]; rewrite (proj2 (N.ltb_lt i n) Hi); cbn [fst snd]; apply Ht.
  - intros (i & Hi & H); destruct (IH i H) as [t Ht]; exists t; intros rest; exists i; split; auto.
Qed.

Context {A : Type} (pooled : bool) (work : M A).
Notation any := (fun _ : list N => True).

Lemma steps_trans w1 w2 w3 : worker_steps tape_next any pooled work w1 w2 -> worker_steps tape_next any pooled work w2 w3 ->
  worker_steps tape_next any pooled work w1 w3.
Proof. induction 1; auto; intros H'; econstructor; eauto. Qed.

Lemma upd_app {B} (l r : list B) x v : upd (l ++ x :: r) (length l) v = l ++ v :: r.
Proof. induction l; cbn; congruence. Qed.

Lemma one_job pool out : Forall (may work) out -> forall done, exists t, forall rest,
  worker_steps tape_next any pooled work
    (mkWorkers pool [] [(seq (length done) (length out), t ++ rest)] (map Some done ++ repeat None (length out)))
    (mkWorkers pool [] [([], rest)] (map Some (done ++ out))).
Proof.
  induction 1 as [|x out Hx Ho IH]; intros done.
  - exists []; intros rest; cbn; rewrite !app_nil_r; constructor.
  - destruct (may_executes work x Hx) as [t1 Ht1]; destruct (IH (done ++ [x])) as [t2 Ht2].
    exists (t1 ++ t2); intros rest; eapply steps_more.
    + cbn [length seq]; rewrite <- app_assoc; apply (step_item tape_next any pooled work pool [] [] _ _ _ x (t2 ++ rest) []); apply Ht1.
    + cbn [app length repeat]; replace (length done) with (length (map (@Some A) done)) at 2 by apply map_length; rewrite upd_app.
      specialize (Ht2 rest); rewrite app_length, map_app, <- !app_assoc in Ht2; cbn [length app map] in Ht2.
      replace (length done + 1) with (S (length done)) in Ht2 by lia; exact Ht2.
Qed.

(** One thread, one job *)
Lemma realise n out : 0 < n -> may (repeatM n work) out -> exists t, forall rest,
  parallel tape_next any pooled work n [seq 0 n] (if pooled then [t ++ rest] else []) (if pooled then [rest] else []) out.
Proof.
  intros Hn H; apply may_repeatM_iff in H as [Hl Ho]; destruct (one_job [] out Ho []) as [t Ht]; cbn in Ht.
  exists t; intros rest; split.
  - split; [cbn; apply app_nil_r|]; intros [E|[]]; destruct n; [lia|discriminate].
  - rewrite <- Hl in *; eapply steps_more with (w' := mkWorkers [] [] [(seq 0 (length out), t ++ rest)] (repeat None (length out))).
    + unfold loop_start; destruct pooled.
      * apply (step_pull tape_next any true work (t ++ rest) [] [] _ []); auto.
      * apply (step_new tape_next any false work (t ++ rest) [] [] _ []); auto; discriminate.
    + eapply steps_trans; [apply Ht|]; eapply steps_more; [apply (step_end tape_next any pooled work [] [] [] rest [])|].
      cbn [app]; unfold loop_end; constructor.
Qed.
End Tape.

Section Realise.
Context {I : Type} (io : individual_ops I) (fexp : f64 -> f64).
Context {MS : Type} (mdl : model I MS).
Context {P S0 : Type} (alg : algorithm I MS P S0).
Context {PS : Type} (progress : PS -> S0 -> population I -> M (bool * PS * S0)).
Notation any := (fun _ : list N => True).

Lemma realise_generate ms params p o r : may (generate_new_population io fexp mdl ms params p o) r ->
  exists t, forall rest, generates tape_next any io fexp mdl ms params p o [t ++ rest] [rest] r.
Proof.
  destruct params as [b size]; unfold generate_new_population; intros H.
  remember (size - length o) as k eqn:Ek; destruct k as [|[|k]].
  - cbn in H; subst r; exists []; intros rest; apply gen_none; cbn [snd]; auto.
  - apply (proj1 (may_bind _ _ _)) in H as (x & Hx & H); cbn in H; subst r; destruct (may_executes _ x Hx) as [t Ht].
    exists t; intros rest; eapply (gen_one _ _ _ _ _ _ _ _ _ _ (t ++ rest) [] x rest); cbn [fst snd]; auto; left; auto.
  - apply (proj1 (may_bind _ _ _)) in H as (news & Hx & H); cbn in H; subst r.
    destruct (realise true (breed io fexp mdl ms p b) (S (S k)) news ltac:(lia) Hx) as [t Ht].
    exists t; intros rest; specialize (Ht rest); rewrite Ek in Ht; eapply gen_more; cbn [fst snd]; [lia|exact Ht].
Qed.

Lemma realise_loop fuel : forall s p ps tr r, may (evolve_loop io fexp mdl alg progress fuel s p ps tr) r ->
  exists t, forall rest, loops tape_next any io fexp mdl alg progress s p ps tr [t ++ rest] r.
Proof.
  induction fuel as [|fuel IH]; intros s p ps tr r H; [destruct H|]; cbn [evolve_loop] in H.
  apply (proj1 (may_bind _ _ _)) in H as ([[[|] ps'] s1] & Hp & H).
  - apply (proj1 (may_bind _ _ _)) in H as ([s2 p2] & Hs & H); unfold evolve_step in Hs.
    apply (proj1 (may_bind _ _ _)) in Hs as (s' & H1 & Hs); apply (proj1 (may_bind _ _ _)) in Hs as (el & H2 & Hs).
    apply (proj1 (may_bind _ _ _)) in Hs as (o & H3 & Hs); apply (proj1 (may_bind _ _ _)) in Hs as ([p' old] & H4 & Hs).
    cbn in Hs; injection Hs as -> ->.
    destruct (realise_generate _ _ _ _ _ H3) as [t1 Ht1]; destruct (IH _ _ _ _ _ H) as [t2 Ht2].
    exists (t1 ++ t2); intros rest; rewrite <- app_assoc.
    apply (loops_on _ _ _ _ _ _ _ s p ps tr _ ps' s1 s2 p2 [t2 ++ rest]); auto.
    exists el, o, old; auto.
  - cbn in H; subst r; exists []; intros rest; apply loops_stop; auto.
Qed.

Lemma realise_evolve fuel s init q ps r : may (evolve_population io fexp mdl alg progress fuel s init q ps) r ->
  evolves tape_next any io fexp mdl alg progress 1 s init q ps r.
Proof.
  unfold evolve_population; intros H; apply (proj1 (may_bind _ _ _)) in H as (s1 & H1 & H).
  apply (proj1 (may_bind _ _ _)) in H as (p & H2 & H); destruct (realise_loop _ _ _ _ _ _ H) as [t Ht].
  exists s1, p, [t ++ []]; repeat split; auto.
Qed.

Lemma realise_run fuel s nr q ps x r : may (evolution_run io fexp mdl alg progress fuel s nr q ps) (x, r) ->
  runs tape_next any io fexp mdl alg progress 1 s nr q ps x r.
Proof.
  unfold evolution_run; intros H; apply (proj1 (may_bind _ _ _)) in H as (init & H1 & H).
  apply (proj1 (may_bind _ _ _)) in H as (r' & H2 & H); apply (proj1 (may_bind _ _ _)) in H as (x' & H3 & H).
  cbn in H; injection H as -> ->; exists init; split; [|split; [eapply realise_evolve; eauto|auto]].
  unfold extend_population in H1; destruct (Nat.eqb_spec (alg_initial_population_size alg q) 0) as [E|E].
  - cbn in H1; subst init; apply extends_none; auto.
  - apply (proj1 (may_bind _ _ _)) in H1 as (news & Hn & H1); cbn in H1; subst init.
    destruct (realise false nr (alg_initial_population_size alg q) news ltac:(lia) Hn) as [t Ht]; eapply (extends_some _ _ nr []); [lia|exact (Ht [])].
Qed.

Lemma realise_run_from fuel s seed q ps x r : may (evolve_individual io fexp mdl alg progress fuel s seed q ps) (x, r) ->
  runs_from tape_next any io fexp mdl alg progress 1 s seed q ps x r.
Proof.
  unfold evolve_individual; intros H; apply (proj1 (may_bind _ _ _)) in H as (init & H1 & H).
  apply (proj1 (may_bind _ _ _)) in H as (r' & H2 & H); apply (proj1 (may_bind _ _ _)) in H as (x' & H3 & H).
  cbn in H; injection H as -> ->; exists init; split; [|split; [eapply realise_evolve; eauto|auto]].
  unfold extend_population_with in H1; destruct (Nat.eqb_spec (alg_initial_population_size alg q) 0) as [E|E].
  - cbn in H1; subst init; apply with_none; auto.
  - destruct (Nat.eqb_spec (alg_initial_population_size alg q) 1) as [E1|E1].
    + cbn in H1; subst init; apply with_one; auto.
    + apply (proj1 (may_bind _ _ _)) in H1 as (news & Hn & H1); cbn in H1; subst init.
      destruct (realise false (m_mutate mdl (alg_model alg s) seed) (alg_initial_population_size alg q - 1) news ltac:(lia) Hn) as [t Ht].
      change (seed :: news) with (([] ++ [seed]) ++ news); eapply with_more; [lia|exact (Ht [])].
Qed.
End Realise.
