(** * PSchedule6: every panic of the model is that of some generator. *)
From Coq Require Import List Bool Arith NArith Lia.
From Verif Require Import Rnd LRnd F64 MStats MPopulation MSelection MModel MAlgorithms MSchedule SpecS PSchedule PSchedule2.
Import ListNotations.

Lemma may_fails {A} (m : M A) e : may_fail m e -> exists t, forall rest, fails tape_next m (t ++ rest) e.
Proof.
  induction m as [b|e'|n k IH|n k IH]; cbn [may_fail fails].
  - intros [].
  - intros <-; exists []; auto.
  - intros (i & Hi & H); destruct (IH i H) as [t Ht]; exists (i :: t); intros rest; split; [lia|].
    cbn [tape_next app]; rewrite (proj2 (N.ltb_lt i n) Hi); cbn [fst snd]; apply Ht.
  - intros (i & Hi & H); destruct (IH i H) as [t Ht]; exists t; intros rest; exists i; split; auto.
Qed.

Lemma repeat_fail {A} (work : M A) n e : may_fail (repeatM n work) e -> may_fail work e.
Proof.
  induction n as [|n IH]; cbn [repeatM]; intros H; [destruct H|].
  apply (proj1 (may_fail_bind _ _ _)) in H as [H|(x & _ & H)]; auto.
  apply (proj1 (may_fail_bind _ _ _)) in H as [H|(y & _ & H)]; [auto|destruct H].
Qed.

Notation any := (fun _ : list N => True).
Lemma realise_fail {A} (pooled : bool) (work : M A) n e : 0 < n -> may_fail (repeatM n work) e -> exists t, forall rest,
  parallel_fails tape_next any pooled work n (if pooled then [t ++ rest] else []) e.
Proof.
  intros Hn H; destruct (may_fails _ _ (repeat_fail _ _ _ H)) as [t Ht]; exists t; intros rest; destruct n as [|n]; [lia|].
  exists [seq 0 (S n)], (mkWorkers [] [] [(seq 0 (S n), t ++ rest)] (repeat None (S n))), [], 0, (seq 1 n), (t ++ rest), [].
  split; [split; [cbn; f_equal; apply app_nil_r|]; intros [E|[]]; discriminate|]; split; [|split; [reflexivity|auto]].
  eapply steps_more; [|constructor]; unfold loop_start; destruct pooled.
  - apply (step_pull tape_next any true work (t ++ rest) [] [] _ []); auto.
  - apply (step_new tape_next any false work (t ++ rest) [] [] _ []); auto; discriminate.
Qed.

Section Realise.
Context {I : Type} (io : individual_ops I) (fexp : f64 -> f64).
Context {MS : Type} (mdl : model I MS).
Context {P S0 : Type} (alg : algorithm I MS P S0).
Context {PS : Type} (progress : PS -> S0 -> population I -> M (bool * PS * S0)).

Lemma realise_generate_fail ms params p o e : may_fail (generate_new_population io fexp mdl ms params p o) e ->
  exists t, forall rest, generates_fail tape_next any io fexp mdl ms params p o [t ++ rest] e.
Proof.
  destruct params as [b size]; unfold generate_new_population, generates_fail; cbn [fst snd]; intros H.
  remember (size - length o) as k eqn:Ek; destruct k as [|[|k]]; [destruct H|..].
  - apply (proj1 (may_fail_bind _ _ _)) in H as [H|(x & _ & H)]; [|destruct H].
    destruct (may_fails _ _ H) as [t Ht]; exists t; intros rest; left; split; auto; exists (t ++ rest), []; split; [left; auto|auto].
  - apply (proj1 (may_fail_bind _ _ _)) in H as [H|(x & _ & H)]; [|destruct H].
    destruct (realise_fail true _ _ _ (Nat.lt_0_succ _) H) as [t Ht]; exists t; intros rest; right; split; [lia|apply Ht].
Qed.

Lemma realise_loop_fail fuel e : e <> NoFuel -> forall s p ps tr, may_fail (evolve_loop io fexp mdl alg progress fuel s p ps tr) e ->
  exists t, forall rest, loops_fail tape_next any io fexp mdl alg progress e s p ps [t ++ rest].
Proof.
  intros He; induction fuel as [|fuel IH]; intros s p ps tr H; [cbn in H; congruence|]; cbn [evolve_loop] in H.
  apply (proj1 (may_fail_bind _ _ _)) in H as [H|([[[|] ps'] s1] & Hp & H)].
  - exists []; intros rest; apply fail_progress; auto.
  - apply (proj1 (may_fail_bind _ _ _)) in H as [H|([s2 p2] & Hs & H)].
    + unfold evolve_step in H; apply (proj1 (may_fail_bind _ _ _)) in H as [H|(s' & H1 & H)].
      { exists []; intros rest; eapply fail_step; eauto; left; auto. }
      apply (proj1 (may_fail_bind _ _ _)) in H as [H|(el & H2 & H)].
      { exists []; intros rest; eapply fail_step; eauto; right; exists s'; split; auto. }
      apply (proj1 (may_fail_bind _ _ _)) in H as [H|(o & H3 & H)].
      { destruct (realise_generate_fail _ _ _ _ _ H) as [t Ht]; exists t; intros rest; eapply fail_step; eauto; right; exists s'; split; auto.
        right; exists el; split; auto. }
      apply (proj1 (may_fail_bind _ _ _)) in H as [H|([p' old] & H4 & H)]; [|destruct H].
      destruct (realise_generate io fexp mdl _ _ _ _ _ H3) as [t Ht]; exists t; intros rest; eapply fail_step; eauto; right; exists s'; split; auto.
      right; exists el; split; auto; right; exists [rest], o; split; auto.
    + unfold evolve_step in Hs.
      apply (proj1 (may_bind _ _ _)) in Hs as (s' & H1 & Hs); apply (proj1 (may_bind _ _ _)) in Hs as (el & H2 & Hs).
      apply (proj1 (may_bind _ _ _)) in Hs as (o & H3 & Hs); apply (proj1 (may_bind _ _ _)) in Hs as ([p' old] & H4 & Hs).
      cbn in Hs; injection Hs as -> ->.
      destruct (realise_generate io fexp mdl _ _ _ _ _ H3) as [t1 Ht1]; destruct (IH _ _ _ _ H) as [t2 Ht2].
      exists (t1 ++ t2); intros rest; rewrite <- app_assoc; eapply fail_later; [exact Hp| |apply Ht2].
      exists el, o, old; eauto.
  - destruct H.
Qed.

Lemma realise_evolve_fail fuel s init q ps e : e <> NoFuel -> may_fail (evolve_population io fexp mdl alg progress fuel s init q ps) e ->
  evolves_fail tape_next any io fexp mdl alg progress 1 s init q ps e.
Proof.
  unfold evolve_population, evolves_fail; intros He H; apply (proj1 (may_fail_bind _ _ _)) in H as [H|(s1 & H1 & H)]; [auto|].
  right; exists s1; split; auto; apply (proj1 (may_fail_bind _ _ _)) in H as [H|(p & H2 & H)]; [auto|].
  destruct (realise_loop_fail _ _ He _ _ _ _ H) as [t Ht]; right; exists p, [t ++ []]; split; [auto|]; split; [reflexivity|]; split; auto.
Qed.

Lemma realise_run_fail fuel s nr q ps e : e <> NoFuel -> may_fail (evolution_run io fexp mdl alg progress fuel s nr q ps) e ->
  runs_fail tape_next any io fexp mdl alg progress 1 s nr q ps e.
Proof.
  unfold evolution_run; intros He H; apply (proj1 (may_fail_bind _ _ _)) in H as [H|(init & H1 & H)].
  - left; unfold extend_population in H; destruct (Nat.eqb_spec (alg_initial_population_size alg q) 0) as [E|E]; [destruct H|].
    apply (proj1 (may_fail_bind _ _ _)) in H as [H|(n & _ & H)]; [|destruct H].
    split; [lia|]; destruct (realise_fail false _ _ _ (proj1 (Nat.neq_0_lt_0 _) E) H) as [t Ht]; exact (Ht []).
  - right; exists init; split.
    + unfold extend_population in H1; destruct (Nat.eqb_spec (alg_initial_population_size alg q) 0) as [E|E].
      * cbn in H1; subst init; apply extends_none; auto.
      * apply (proj1 (may_bind _ _ _)) in H1 as (news & Hn & H1); cbn in H1; subst init.
        destruct (realise false nr (alg_initial_population_size alg q) news ltac:(lia) Hn) as [t Ht]; eapply (extends_some _ _ nr []); [lia|exact (Ht [])].
    + apply (proj1 (may_fail_bind _ _ _)) in H as [H|(r & H2 & H)]; [left; eapply realise_evolve_fail; eauto|].
      apply (proj1 (may_fail_bind _ _ _)) in H as [H|(x & _ & H)]; [|destruct H].
      right; exists r; split; auto; eapply realise_evolve; eauto.
Qed.

Lemma realise_run_from_fail fuel s seed q ps e : e <> NoFuel -> may_fail (evolve_individual io fexp mdl alg progress fuel s seed q ps) e ->
  runs_from_fail tape_next any io fexp mdl alg progress 1 s seed q ps e.
Proof.
  unfold evolve_individual; intros He H; apply (proj1 (may_fail_bind _ _ _)) in H as [H|(init & H1 & H)].
  - left; unfold extend_population_with in H; destruct (Nat.eqb_spec (alg_initial_population_size alg q) 0) as [E|E]; [destruct H|].
    destruct (Nat.eqb_spec (alg_initial_population_size alg q) 1) as [E1|E1]; [destruct H|].
    apply (proj1 (may_fail_bind _ _ _)) in H as [H|(n & _ & H)]; [|destruct H].
    split; [lia|]; destruct (realise_fail false (m_mutate mdl (alg_model alg s) seed) (alg_initial_population_size alg q - 1) e ltac:(lia) H) as [t Ht].
    exact (Ht []).
  - right; exists init; split.
    + unfold extend_population_with in H1; destruct (Nat.eqb_spec (alg_initial_population_size alg q) 0) as [E|E].
      * cbn in H1; subst init; apply with_none; auto.
      * destruct (Nat.eqb_spec (alg_initial_population_size alg q) 1) as [E1|E1].
        -- cbn in H1; subst init; apply with_one; auto.
        -- apply (proj1 (may_bind _ _ _)) in H1 as (news & Hn & H1); cbn in H1; subst init.
           destruct (realise false (m_mutate mdl (alg_model alg s) seed) (alg_initial_population_size alg q - 1) news ltac:(lia) Hn) as [t Ht].
           change (seed :: news) with (([] ++ [seed]) ++ news); eapply with_more; [lia|exact (Ht [])].
    + apply (proj1 (may_fail_bind _ _ _)) in H as [H|(r & H2 & H)]; [left; eapply realise_evolve_fail; eauto|].
      apply (proj1 (may_fail_bind _ _ _)) in H as [H|(x & _ & H)]; [|destruct H].
      right; exists r; split; auto; eapply realise_evolve; eauto.
Qed.

Lemma c100_realised fuel s new_random q ps :
  in_range tape_next /\
  (forall x r, may (evolution_run io fexp mdl alg progress fuel s new_random q ps) (x, r) ->
     runs tape_next any io fexp mdl alg progress 1 s new_random q ps x r) /\
  (may_fail (evolution_run io fexp mdl alg progress fuel s new_random q ps) Panic ->
     runs_fail tape_next any io fexp mdl alg progress 1 s new_random q ps Panic).
Proof.
  split; [apply tape_in_range|]; split; [intros x r; apply realise_run|]. intros H; eapply realise_run_fail; eauto; discriminate.
Qed.

Lemma c100_realised_from fuel s seed q ps :
  in_range tape_next /\
  (forall x r, may (evolve_individual io fexp mdl alg progress fuel s seed q ps) (x, r) ->
     runs_from tape_next any io fexp mdl alg progress 1 s seed q ps x r) /\
  (may_fail (evolve_individual io fexp mdl alg progress fuel s seed q ps) Panic ->
     runs_from_fail tape_next any io fexp mdl alg progress 1 s seed q ps Panic).
Proof.
  split; [apply tape_in_range|]; split; [intros x r; apply realise_run_from|]. intros H; eapply realise_run_from_fail; eauto; discriminate.
Qed.
End Realise.

Lemma c100_run_from (G : Type) (next : G -> N -> N * G) (fresh : G -> Prop) : in_range next ->
  forall (I : Type) (io : individual_ops I) (fexp : f64 -> f64) (MS : Type) (mdl : model I MS) (P S0 : Type) (alg : algorithm I MS P S0)
    (PS : Type) (progress : PS -> S0 -> population I -> M (bool * PS * S0)) (threads : nat) (s : S0) (seed : I) (q : P) (ps : PS),
  (forall x r, runs_from next fresh io fexp mdl alg progress threads s seed q ps x r ->
     exists fuel, may (evolve_individual io fexp mdl alg progress fuel s seed q ps) (x, r)) /\
  (runs_from_fail next fresh io fexp mdl alg progress threads s seed q ps Panic ->
     exists fuel, may_fail (evolve_individual io fexp mdl alg progress fuel s seed q ps) Panic).
Proof.
  intros Hn I io fexp MS mdl P S0 alg PS progress threads s seed q ps; split.
  - intros x r H; destruct (runs_from_may _ _ Hn _ _ _ _ _ _ _ _ _ _ _ _ H) as [f Hf]; exists f; apply Hf; auto.
  - intros H; destruct (runs_from_fail_may _ _ Hn _ _ _ _ _ _ _ _ _ _ _ H) as [f Hf]; exists f; apply Hf; auto.
Qed.
