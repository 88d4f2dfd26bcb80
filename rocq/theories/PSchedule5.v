(** * PSchedule5: the statements of C100. *)
From Coq Require Import List Bool Arith NArith ZArith.
From Verif Require Import Rnd LRnd F64 MStats MPopulation MSelection MModel MAlgorithms MOneMax MSchedule SpecF SpecA SpecS
  POneMax2 PSchedule PSchedule2.
Import ListNotations.

Lemma c100_loop (G : Type) (next : G -> N -> N * G) (fresh : G -> Prop) : in_range next ->
  forall (A : Type) (pooled : bool) (work : M A) (n : nat),
  (forall jobs pool pool' out, parallel next fresh pooled work n jobs pool pool' out -> may (repeatM n work) out) /\
  (forall pool e, 0 < n -> parallel_fails next fresh pooled work n pool e -> may_fail (repeatM n work) e).
Proof. intros Hn A pooled work n; split; intros; [eapply parallel_may; eauto|eapply parallel_fails_may; eauto]. Qed.

Lemma c100_run (G : Type) (next : G -> N -> N * G) (fresh : G -> Prop) : in_range next ->
  forall (I : Type) (io : individual_ops I) (fexp : f64 -> f64) (MS : Type) (mdl : model I MS) (P S0 : Type) (alg : algorithm I MS P S0)
    (PS : Type) (progress : PS -> S0 -> population I -> M (bool * PS * S0)) (threads : nat) (s : S0) (new_random : M I) (q : P) (ps : PS),
  (forall x r, runs next fresh io fexp mdl alg progress threads s new_random q ps x r ->
     exists fuel, may (evolution_run io fexp mdl alg progress fuel s new_random q ps) (x, r)) /\
  (runs_fail next fresh io fexp mdl alg progress threads s new_random q ps Panic ->
     exists fuel, may_fail (evolution_run io fexp mdl alg progress fuel s new_random q ps) Panic).
Proof.
  intros Hn I io fexp MS mdl P S0 alg PS progress threads s nr q ps; split.
  - intros x r H; destruct (runs_may _ _ Hn _ _ _ _ _ _ _ _ _ _ _ _ H) as [f Hf]; exists f; apply Hf; auto.
  - intros H; destruct (runs_fail_may _ _ Hn _ _ _ _ _ _ _ _ _ _ _ H) as [f Hf]; exists f; apply Hf; auto.
Qed.

Lemma onemax_on_threads (G : Type) (next : G -> N -> N * G) (fresh : G -> Prop) : in_range next ->
  forall (PS : Type) (fexp : f64 -> f64) (n threads k : nat) (f : PS -> population onemax -> M (bool * PS))
    (s : ga_state onemax unit) (q : ga_params) (ps : PS),
  1 <= n -> fits_usize n ->
  ga_accepted q -> 2 <= ga_population_size q -> fits_usize (ga_population_size q) -> robust_strategy (ga_selection_strategy q) ->
  (forall ps p, must (f ps p) (fun _ => True)) -> (forall ps' p, generation p = k -> must (f ps' p) (fun o => fst o = false)) ->
  forall e, ~ runs_fail next fresh onemax_ops fexp onemax_model (ga_algorithm onemax_ops fexp onemax_model) (quiet f) threads s
    (onemax_new_random n) q ps e.
Proof.
  intros Hn PS fexp n threads k f s q ps H1 H2 H3 H4 H5 H6 H7 H8 e.
  destruct (@ga_om_runs PS fexp n f s q ps H1 H2 H3 H4 H5 H6 H7) as [_ K].
  apply (proj2 (runs_guarantee next fresh Hn onemax_ops fexp onemax_model (ga_algorithm onemax_ops fexp onemax_model) (quiet f)
           (S k) (fun _ => True) threads s (onemax_new_random n) q ps (K k H8))).
Qed.
