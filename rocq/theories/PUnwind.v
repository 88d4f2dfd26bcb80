(** * PUnwind: what a panic in [configure] leaves behind (C103). *)
From Coq Require Import List Bool Arith NArith ZArith Lia.
From Verif Require Import Rnd LRnd F64 MStats MPopulation MSelection MModel MAlgorithms MUnwind SpecF SpecA SpecW SpecU ExF ExM ExR
  PSelection3 PPopulation PModel PInterp PAlgorithms PAlgorithms2 PRun PRun2 PRun3 PRun4 PRun5 PHist PHist3 PNested PWord.
Import ListNotations.

Section Unwind.
Context {I MS : Type}.

Lemma ga_validate_total q : ga_validate q = Ret tt \/ ga_validate q = Fail Panic.
Proof.
  unfold ga_validate, massert; destruct (negb _); cbn; auto; destruct (in_unit_halfopen _); cbn; auto.
  destruct (in_unit_closed _); cbn; auto; destruct (in_unit_closed _); auto.
Qed.
Lemma aga_validate_total q : aga_validate q = Ret tt \/ aga_validate q = Fail Panic.
Proof.
  unfold aga_validate, massert; destruct (negb _); cbn; auto; destruct (in_unit_halfopen _); cbn; auto.
  repeat (destruct (in_unit_closed _); cbn; auto).
Qed.
Lemma selector_total (st : selection_strategy) : create_selector (I := I) st = Fail Panic \/ exists sel, create_selector (I := I) st = Ret sel.
Proof. destruct (strategy_dec I st) as [[_ H]|[_ H]]; auto. Qed.

Lemma ga_validate_spec q : ga_validate q = Ret tt <-> ga_numbers q.
Proof.
  unfold ga_validate, ga_numbers, massert; destruct (Nat.eqb_spec (ga_population_size q) 0) as [E|E]; cbn [negb bind].
  { split; [discriminate|]; intros [H _]; contradiction. }
  destruct (in_unit_halfopen _) eqn:E2; cbn [bind].
  2: { split; [discriminate|]; intros (_ & H & _); apply ratio_spec in H; congruence. }
  destruct (in_unit_closed (ga_crossover_rate q)) eqn:E3; cbn [bind].
  2: { split; [discriminate|]; intros (_ & _ & H & _); apply rate_spec in H; congruence. }
  destruct (in_unit_closed (ga_mutation_rate q)) eqn:E4.
  2: { split; [discriminate|]; intros (_ & _ & _ & H); apply rate_spec in H; congruence. }
  split; auto; intros _; split; auto; split; [apply ratio_spec; auto|]; split; apply rate_spec; auto.
Qed.
Lemma aga_validate_spec q : aga_validate q = Ret tt <-> aga_numbers q.
Proof.
  unfold aga_validate, aga_numbers, massert; destruct (Nat.eqb_spec (aga_population_size q) 0) as [E|E]; cbn [negb bind].
  { split; [discriminate|]; intros [H _]; contradiction. }
  destruct (in_unit_halfopen _) eqn:E2; cbn [bind].
  2: { split; [discriminate|]; intros (_ & H & _); apply ratio_spec in H; congruence. }
  destruct (in_unit_closed (fst (aga_crossover_rate_range q))) eqn:E3; cbn [bind].
  2: { split; [discriminate|]; intros (_ & _ & H & _); apply rate_spec in H; congruence. }
  destruct (in_unit_closed (snd (aga_crossover_rate_range q))) eqn:E4; cbn [bind].
  2: { split; [discriminate|]; intros (_ & _ & _ & H & _); apply rate_spec in H; congruence. }
  destruct (in_unit_closed (fst (aga_mutation_rate_range q))) eqn:E5; cbn [bind].
  2: { split; [discriminate|]; intros (_ & _ & _ & _ & H & _); apply rate_spec in H; congruence. }
  destruct (in_unit_closed (snd (aga_mutation_rate_range q))) eqn:E6.
  2: { split; [discriminate|]; intros (_ & _ & _ & _ & _ & H); apply rate_spec in H; congruence. }
  split; auto; intros _; split; auto; split; [apply ratio_spec; auto|]; split; [|split; [|split]]; apply rate_spec; auto.
Qed.

Lemma ga_steps (s : ga_state I MS) q :
  (exists s', ga_configure s q = Ret s' /\ unwinding (ga_configure_steps q) s = Ret (s', None)) \/
  (exists left, ga_configure s q = Fail Panic /\ unwinding (ga_configure_steps q) s = Ret (left, Some Panic)).
Proof.
  unfold ga_configure; destruct (ga_validate_total q) as [V|V]; [|right; exists s; rewrite V; cbn [bind unwinding ga_configure_steps]; rewrite V; auto].
  rewrite V; destruct (interpolate_total 0 (ga_population_size q) (ga_elitism_rate q)) as [E|[e E]];
    [right|]; cbn [bind]; rewrite E; cbn [bind].
  - eexists; split; [reflexivity|]; cbn [unwinding ga_configure_steps]; rewrite V; cbn [bind catch]; rewrite E; reflexivity.
  - destruct (selector_total (ga_selection_strategy q)) as [H|[sel H]]; rewrite H; [right|left]; eexists; (split; [reflexivity|]);
      cbn [unwinding ga_configure_steps]; rewrite V; cbn [bind catch]; rewrite E; cbn [bind catch]; rewrite H; reflexivity.
Qed.
Lemma aga_steps (s : aga_state I MS) q :
  (exists s', aga_configure s q = Ret s' /\ unwinding (aga_configure_steps q) s = Ret (s', None)) \/
  (exists left, aga_configure s q = Fail Panic /\ unwinding (aga_configure_steps q) s = Ret (left, Some Panic)).
Proof.
  unfold aga_configure; destruct (aga_validate_total q) as [V|V]; [|right; exists s; rewrite V; cbn [bind unwinding aga_configure_steps]; rewrite V; auto].
  rewrite V; destruct (interpolate_total 0 (aga_population_size q) (aga_elitism_rate q)) as [E|[e E]];
    [right|]; cbn [bind]; rewrite E; cbn [bind].
  - eexists; split; [reflexivity|]; cbn [unwinding aga_configure_steps]; rewrite V; cbn [bind catch]; rewrite E; reflexivity.
  - destruct (selector_total (aga_selection_strategy q)) as [H|[sel H]]; rewrite H; [right|left]; eexists; (split; [reflexivity|]);
      cbn [unwinding aga_configure_steps]; rewrite V; cbn [bind catch]; rewrite E; cbn [bind catch]; rewrite H; reflexivity.
Qed.

Lemma ga_left (s : ga_state I MS) q : fits_usize (ga_population_size q) ->
  (~ ga_numbers q -> unwinding (ga_configure_steps q) s = Ret (s, Some Panic)) /\
  (ga_numbers q -> ~ strategy_accepted (ga_selection_strategy q) ->
   exists e, elite_count (ga_population_size q) (ga_elitism_rate q) e /\
     unwinding (ga_configure_steps q) s = Ret (mkGa (ga_model s) (ga_population_size q) e
       (mkBreeding (ga_crossover_rate q) (ga_mutation_rate q) (parent_selector (ga_breeding s))), Some Panic)).
Proof.
  intros Hf; split.
  - intros H; destruct (ga_validate_total q) as [V|V]; [apply ga_validate_spec in V; contradiction|].
    cbn [unwinding ga_configure_steps]; rewrite V; reflexivity.
  - intros H Hs; pose proof (proj2 (ga_validate_spec q) H) as V; destruct H as (H1 & H2 & _).
    exists (elitist_bound (ga_population_size q) (ga_elitism_rate q)); split; [apply elite_count_bound; auto|].
    cbn [unwinding ga_configure_steps]; rewrite V; cbn [bind catch]; rewrite interpolate_is_bound by (auto; apply ratio_spec; auto); cbn [bind catch].
    destruct (strategy_dec I (ga_selection_strategy q)) as [[A _]|[_ E]]; [contradiction|]; rewrite E; reflexivity.
Qed.
Lemma aga_left (s : aga_state I MS) q : fits_usize (aga_population_size q) ->
  (~ aga_numbers q -> unwinding (aga_configure_steps q) s = Ret (s, Some Panic)) /\
  (aga_numbers q -> ~ strategy_accepted (aga_selection_strategy q) ->
   exists e, elite_count (aga_population_size q) (aga_elitism_rate q) e /\
     unwinding (aga_configure_steps q) s = Ret (mkAga (aga_model s) (aga_population_size q) e (aga_parameter_adjustment_interval q)
       (aga_crossover_rate_range q) (aga_mutation_rate_range q) (aga_breeding s) (aga_reference_std s), Some Panic)).
Proof.
  intros Hf; split.
  - intros H; destruct (aga_validate_total q) as [V|V]; [apply aga_validate_spec in V; contradiction|].
    cbn [unwinding aga_configure_steps]; rewrite V; reflexivity.
  - intros H Hs; pose proof (proj2 (aga_validate_spec q) H) as V; destruct H as (H1 & H2 & _).
    exists (elitist_bound (aga_population_size q) (aga_elitism_rate q)); split; [apply elite_count_bound; auto|].
    cbn [unwinding aga_configure_steps]; rewrite V; cbn [bind catch]; rewrite interpolate_is_bound by (auto; apply ratio_spec; auto); cbn [bind catch].
    destruct (strategy_dec I (aga_selection_strategy q)) as [[A _]|[_ E]]; [contradiction|]; rewrite E; reflexivity.
Qed.

Context (io : individual_ops I) (fexp : f64 -> f64) (mdl : model I MS) {PS : Type}.

Lemma ga_keeps (s : ga_state I MS) q left : fits_usize (ga_population_size q) ->
  unwinding (ga_configure_steps q) s = Ret (left, Some Panic) -> ga_model left = ga_model s.
Proof.
  intros Hf H; destruct (ga_left s q Hf) as [A B]; destruct (ga_validate_total q) as [V|V].
  - apply ga_validate_spec in V; destruct (strategy_dec I (ga_selection_strategy q)) as [[D _]|[D _]].
    + assert (Ha : ga_accepted q) by (destruct V as (V1 & V2 & V3 & V4); split; auto; split; auto; split; auto).
      destruct (ga_configure_ok s q Hf Ha) as (e & sel & _ & _ & Eq).
      destruct (ga_steps s q) as [(s' & _ & E')|(l' & E' & _)]; [rewrite E' in H; discriminate|rewrite E' in Eq; discriminate].
    + destruct (B V D) as (e & _ & E); rewrite E in H; injection H as <-; reflexivity.
  - rewrite A in H; [injection H as <-; reflexivity|]; intros N; apply ga_validate_spec in N; congruence.
Qed.
Lemma aga_keeps (s : aga_state I MS) q left : fits_usize (aga_population_size q) ->
  unwinding (aga_configure_steps q) s = Ret (left, Some Panic) ->
  aga_model left = aga_model s /\ aga_breeding left = aga_breeding s /\ aga_reference_std left = aga_reference_std s.
Proof.
  intros Hf H; destruct (aga_left s q Hf) as [A B]; destruct (aga_validate_total q) as [V|V].
  - apply aga_validate_spec in V; destruct (strategy_dec I (aga_selection_strategy q)) as [[D _]|[D _]].
    + assert (Ha : aga_accepted q) by (destruct V as (V1 & V2 & V3 & V4 & V5 & V6); do 6 (split; auto)).
      destruct (aga_configure_ok s q Hf Ha) as (e & sel & _ & _ & Eq).
      destruct (aga_steps s q) as [(s' & _ & E')|(l' & E' & _)]; [rewrite E' in H; discriminate|rewrite E' in Eq; discriminate].
    + destruct (B V D) as (e & _ & E); rewrite E in H; injection H as <-; auto.
  - rewrite A in H; [injection H as <-; auto|]; intros N; apply aga_validate_spec in N; congruence.
Qed.

Lemma ga_next_run (progress : PS -> ga_state I MS -> population I -> M (bool * PS * ga_state I MS)) s left q fuel init q2 ps :
  fits_usize (ga_population_size q) -> unwinding (ga_configure_steps q) s = Ret (left, Some Panic) ->
  evolve_population io fexp mdl (ga_algorithm io fexp mdl) progress fuel left init q2 ps =
  evolve_population io fexp mdl (ga_algorithm io fexp mdl) progress fuel s init q2 ps.
Proof.
  intros Hf H; apply (ga_keeps s q left Hf) in H; unfold evolve_population; cbn [alg_configure ga_algorithm]; unfold ga_configure; rewrite H; reflexivity.
Qed.
Lemma aga_next_run (progress : PS -> aga_state I MS -> population I -> M (bool * PS * aga_state I MS)) s left q fuel init q2 ps :
  fits_usize (aga_population_size q) -> unwinding (aga_configure_steps q) s = Ret (left, Some Panic) ->
  evolve_population io fexp mdl (aga_algorithm io fexp mdl) progress fuel left init q2 ps =
  evolve_population io fexp mdl (aga_algorithm io fexp mdl) progress fuel s init q2 ps.
Proof.
  intros Hf H; apply (aga_keeps s q left Hf) in H as (H1 & H2 & H3); unfold evolve_population; cbn [alg_configure aga_algorithm]; unfold aga_configure.
  rewrite H1, H2, H3; reflexivity.
Qed.

(** ** A rejected run inside a run *)
Section Sizes.
Context {P S0 : Type} (alg : algorithm I MS P S0) (J : nat -> S0 -> Prop).
Hypothesis Jprep : forall n s p s', J n s -> may (alg_prepare alg s p) s' -> J n s'.
Hypothesis Jel : forall n s, J n s -> exists e, e < n /\ alg_select_elites alg s = select_top e.
Hypothesis Jrep : forall n s, J n s -> snd (alg_reproduction_parameters alg s) = n.
Context (progress : PS -> S0 -> population I -> M (bool * PS * S0)) (sz : nat -> nat).
Hypothesis Jprog : forall ps s p c ps' s', J (sz (generation p)) s -> may (progress ps s p) (c, ps', s') -> J (sz (S (generation p))) s'.

Lemma sized_loop fuel : forall s p ps tr (r : run_result I S0 PS), J (sz (generation p)) s ->
  may (evolve_loop io fexp mdl alg progress fuel s p ps tr) r ->
  exists t, r_trace r = tr ++ p :: t /\ forall k p', nth_error t k = Some p' -> length (individuals p') <= sz (generation p + S k).
Proof.
  induction fuel as [|n IH]; intros s p ps tr r HJ H; [destruct H|]; cbn [evolve_loop] in H.
  apply (proj1 (may_bind _ _ _)) in H as ([[c ps1] s1] & Hp & H); pose proof (Jprog _ _ _ _ _ _ HJ Hp) as HJ1.
  destruct c.
  - apply (proj1 (may_bind _ _ _)) in H as ([s' p'] & Hs & H); destruct (step_size io fexp mdl alg J Jprep Jel Jrep _ _ _ _ _ HJ1 Hs) as (HJ' & Hg & Hl).
    rewrite <- Hg in HJ'; destruct (IH _ _ _ _ _ HJ' H) as (t & E & A).
    exists (p' :: t); rewrite E, <- app_assoc; split; [reflexivity|].
    intros [|k] p''; cbn [nth_error]; [intros [= <-]; rewrite Nat.add_1_r; auto|].
    intros Hk; specialize (A k p'' Hk); rewrite Hg in A; replace (generation p + S (S k)) with (S (generation p) + S k) by lia; auto.
  - cbn in H; subst r; exists []; split; auto; intros [|k] p'; discriminate.
Qed.
End Sizes.

Lemma ga_caught (g : nat) q q' (f : PS -> population I -> M (bool * PS)) fuel s init ps (r : run_result I (ga_state I MS) PS) :
  fits_usize (ga_population_size q) -> fits_usize (ga_population_size q') ->
  ga_numbers q' -> ~ strategy_accepted (ga_selection_strategy q') ->
  may (evolve_population io fexp mdl (ga_algorithm io fexp mdl) (rejected_at ga_configure_steps g q' f) fuel s init q ps) r ->
  forall k p, nth_error (r_trace r) k = Some p -> 0 < k ->
  length (individuals p) <= (if k <=? g then ga_population_size q else ga_population_size q').
Proof.
  intros Hf Hf' Hn Hs H k p Hk Hk0; unfold evolve_population in H.
  apply (proj1 (may_bind _ _ _)) in H as (s1 & Hc & H); apply (proj1 (may_bind _ _ _)) in H as (p0 & Hp & H).
  assert (Hg : generation p0 = 0) by exact (proj2 (init_begins io mdl _ _ _ Hp)).
  destruct (sized_loop (ga_algorithm io fexp mdl) ga_sized) with (progress := rejected_at (MUnwind.ga_configure_steps (I := I) (MS := MS)) g q' f)
    (sz := fun k => if k <=? g then ga_population_size q else ga_population_size q') (fuel := fuel) (s := s1) (p := p0) (ps := ps)
    (tr := @nil (population I)) (r := r) as (t & Et & A); auto.
  - intros n s0 p1 s' [H1 H2] Hq; cbn in Hq; unfold ga_prepare in Hq; apply (proj1 (may_bind _ _ _)) in Hq as ([ms b] & _ & Hq).
    apply (proj1 (may_bind _ _ _)) in Hq as (sel & _ & Hq); cbn in Hq; subst s'; split; auto.
  - intros n s0 [_ Hq]; exists (ga_elite_size s0); split; auto.
  - intros n s0 [Hq _]; exact Hq.
  - intros ps0 s0 p1 c ps' s' HJ Hq; unfold rejected_at in Hq; destruct (Nat.eqb_spec (generation p1) g) as [E|E].
    + apply (proj1 (may_bind _ _ _)) in Hq as ([l o] & Hl & Hq); apply (proj1 (may_bind _ _ _)) in Hq as ([c' ps''] & _ & Hq).
      cbn in Hq; injection Hq as Hq1 Hq2 Hq3; subst c ps' s'.
      destruct (proj2 (ga_left s0 q' Hf') Hn Hs) as (e & [He _] & El); rewrite El in Hl; cbn in Hl; injection Hl as Hl1 Hl2; subst l o.
      destruct (Nat.leb_spec (S (generation p1)) g); [lia|]; split; auto.
    + apply quiet_may in Hq as [_ ->]; destruct (Nat.leb_spec (S (generation p1)) g); destruct (Nat.leb_spec (generation p1) g); auto; lia.
  - rewrite Hg; cbn; cbn in Hc; destruct (ga_configured s q s1 Hf Hc) as (_ & e & [He _] & (H1 & H2 & _) & _); split; [auto|rewrite H2; auto].
  - cbn [app] in Et; rewrite Et in Hk; destruct k as [|k]; [lia|]; cbn [nth_error] in Hk; specialize (A k p Hk); rewrite Hg in A; exact A.
Qed.

Lemma aga_caught (g : nat) q q' (f : PS -> population I -> M (bool * PS)) fuel s init ps (r : run_result I (aga_state I MS) PS) :
  fits_usize (aga_population_size q) -> fits_usize (aga_population_size q') ->
  aga_numbers q' -> ~ strategy_accepted (aga_selection_strategy q') ->
  may (evolve_population io fexp mdl (aga_algorithm io fexp mdl) (rejected_at aga_configure_steps g q' f) fuel s init q ps) r ->
  forall k p, nth_error (r_trace r) k = Some p -> 0 < k ->
  length (individuals p) <= (if k <=? g then aga_population_size q else aga_population_size q').
Proof.
  intros Hf Hf' Hn Hs H k p Hk Hk0; unfold evolve_population in H.
  apply (proj1 (may_bind _ _ _)) in H as (s1 & Hc & H); apply (proj1 (may_bind _ _ _)) in H as (p0 & Hp & H).
  assert (Hg : generation p0 = 0) by exact (proj2 (init_begins io mdl _ _ _ Hp)).
  destruct (sized_loop (aga_algorithm io fexp mdl) aga_sized) with (progress := rejected_at (MUnwind.aga_configure_steps (I := I) (MS := MS)) g q' f)
    (sz := fun k => if k <=? g then aga_population_size q else aga_population_size q') (fuel := fuel) (s := s1) (p := p0) (ps := ps)
    (tr := @nil (population I)) (r := r) as (t & Et & A); auto.
  - intros n s0 p1 s' [H1 H2] Hq; destruct (aga_adjust s0 p1) as [[ref cr] mr] eqn:E.
    destruct (aga_prepare_may io fexp mdl s0 p1 s' Hq _ _ _ E) as (ms & b & sel & _ & _ & ->); split; auto.
  - intros n s0 [_ Hq]; exists (aga_elite_size s0); split; auto.
  - intros n s0 [Hq _]; exact Hq.
  - intros ps0 s0 p1 c ps' s' HJ Hq; unfold rejected_at in Hq; destruct (Nat.eqb_spec (generation p1) g) as [E|E].
    + apply (proj1 (may_bind _ _ _)) in Hq as ([l o] & Hl & Hq); apply (proj1 (may_bind _ _ _)) in Hq as ([c' ps''] & _ & Hq).
      cbn in Hq; injection Hq as Hq1 Hq2 Hq3; subst c ps' s'.
      destruct (proj2 (aga_left s0 q' Hf') Hn Hs) as (e & [He _] & El); rewrite El in Hl; cbn in Hl; injection Hl as Hl1 Hl2; subst l o.
      destruct (Nat.leb_spec (S (generation p1)) g); [lia|]; split; auto.
    + apply quiet_may in Hq as [_ ->]; destruct (Nat.leb_spec (S (generation p1)) g); destruct (Nat.leb_spec (generation p1) g); auto; lia.
  - rewrite Hg; cbn; cbn in Hc; destruct (aga_configured s q s1 Hf Hc) as (_ & e & [He _] & (H1 & H2 & _) & _); split; [auto|rewrite H2; auto].
  - cbn [app] in Et; rewrite Et in Hk; destruct k as [|k]; [lia|]; cbn [nth_error] in Hk; specialize (A k p Hk); rewrite Hg in A; exact A.
Qed.

(** Rejected numbers change nothing. *)
Section Unchanged.
Context {P S0 : Type} (alg : algorithm I MS P S0) (steps : P -> list (S0 -> M S0)).
Lemma unchanged_loop g q' (f : PS -> population I -> M (bool * PS)) (Hu : forall s, unwinding (steps q') s = Ret (s, Some Panic)) fuel :
  forall s p ps tr, same_execution (evolve_loop io fexp mdl alg (rejected_at steps g q' f) fuel s p ps tr)
                                   (evolve_loop io fexp mdl alg (quiet f) fuel s p ps tr).
Proof.
  induction fuel as [|n IH]; intros s p ps tr; cbn [evolve_loop]; [reflexivity|]; apply same_bind.
  - unfold rejected_at; destruct (_ =? _); [|apply same_refl]; rewrite Hu; apply same_refl.
  - intros [[[|] ps'] s1] _; [|apply same_refl]; apply same_bind; [apply same_refl|]; intros [s' p'] _; apply IH.
Qed.
Lemma unchanged_run g q' (f : PS -> population I -> M (bool * PS)) (Hu : forall s, unwinding (steps q') s = Ret (s, Some Panic)) fuel s init q ps :
  same_execution (evolve_population io fexp mdl alg (rejected_at steps g q' f) fuel s init q ps)
                 (evolve_population io fexp mdl alg (quiet f) fuel s init q ps).
Proof.
  unfold evolve_population; apply same_bind; [apply same_refl|]; intros s1 _; apply same_bind; [apply same_refl|]; intros p _; apply unchanged_loop; auto.
Qed.
End Unchanged.
Lemma ga_unchanged g q' (f : PS -> population I -> M (bool * PS)) fuel s init q ps : fits_usize (ga_population_size q') -> ~ ga_numbers q' ->
  same_execution (evolve_population io fexp mdl (ga_algorithm io fexp mdl) (rejected_at ga_configure_steps g q' f) fuel s init q ps)
                 (evolve_population io fexp mdl (ga_algorithm io fexp mdl) (quiet f) fuel s init q ps).
Proof. intros Hf H; apply unchanged_run; intros s0; apply ga_left; auto. Qed.
Lemma aga_unchanged g q' (f : PS -> population I -> M (bool * PS)) fuel s init q ps : fits_usize (aga_population_size q') -> ~ aga_numbers q' ->
  same_execution (evolve_population io fexp mdl (aga_algorithm io fexp mdl) (rejected_at aga_configure_steps g q' f) fuel s init q ps)
                 (evolve_population io fexp mdl (aga_algorithm io fexp mdl) (quiet f) fuel s init q ps).
Proof. intros Hf H; apply unchanged_run; intros s0; apply aga_left; auto. Qed.
End Unwind.

(** ** Examples *)
(** Parameters whose strategy is rejected *)
Definition ex_bad (n : nat) : ga_params := mkGaParams n (f_lit 1%Z 100%Z) (f_lit 8%Z 10%Z) (f_lit 1%Z 10%Z) (StTournament 0).
Definition ex_abad (n : nat) : aga_params := mkAgaParams n (f_lit 1%Z 100%Z) (f_lit 3%Z 10%Z, f1) (f_lit 1%Z 10%Z, f1) (StTournament 0) 1.

Lemma bad_numbers n : n <> 0 -> ga_numbers (ex_bad n) /\ ~ strategy_accepted (ga_selection_strategy (ex_bad n)).
Proof.
  intros H; split; [|cbn; auto]; apply ga_validate_spec; unfold ga_validate, ex_bad; cbn [ga_population_size ga_elitism_rate ga_crossover_rate ga_mutation_rate].
  rewrite (proj2 (Nat.eqb_neq _ _) H); vm_compute; reflexivity.
Qed.
Lemma abad_numbers n : n <> 0 -> aga_numbers (ex_abad n) /\ ~ strategy_accepted (aga_selection_strategy (ex_abad n)).
Proof.
  intros H; split; [|cbn; auto]; apply aga_validate_spec; unfold aga_validate, ex_abad; cbn [aga_population_size aga_elitism_rate aga_crossover_rate_range aga_mutation_rate_range fst snd].
  rewrite (proj2 (Nat.eqb_neq _ _) H); vm_compute; reflexivity.
Qed.

Definition ex_caught : M (run_result nat (ga_state nat unit) unit) :=
  evolve_population ex_io ex_exp ex_model (ga_algorithm ex_io ex_exp ex_model)
    (rejected_at ga_configure_steps 0 (ex_bad 6) (stop_at 1)) 2 (ga_from tt) [1; 2] (ex_ga 2) tt.

Lemma caught_refuted : exists (r : run_result nat (ga_state nat unit) unit) p,
  may ex_caught r /\ nth_error (r_trace r) 1 = Some p /\ ga_population_size (ex_ga 2) < length (individuals p).
Proof.
  assert (C : match run_strict ex_caught ex_nested_tape with
    | Some r => match nth_error (r_trace r) 1 with Some p => 2 <? length (individuals p) | None => false end
    | None => false end = true) by (vm_compute; reflexivity).
  destruct (run_strict ex_caught ex_nested_tape) as [r|] eqn:E; [|discriminate].
  destruct (nth_error (r_trace r) 1) as [p|] eqn:Ep; [|discriminate].
  exists r, p; split; [eapply run_strict_may; exact E|]; split; auto; apply Nat.ltb_lt in C; exact C.
Qed.

Lemma c103_example : ga_numbers (ex_bad 6) /\ ~ strategy_accepted (ga_selection_strategy (ex_bad 6)) /\
  ~ ga_numbers (ex_bad 0) /\
  aga_numbers (ex_abad 6) /\ ~ strategy_accepted (aga_selection_strategy (ex_abad 6)) /\ ~ aga_numbers (ex_abad 0) /\
  fits_usize 6 /\
  (exists e, unwinding (ga_configure_steps (I := nat) (ex_bad 6)) (ga_from tt) =
    Ret (mkGa tt 6 e (mkBreeding (f_lit 8%Z 10%Z) (f_lit 1%Z 10%Z) roulette_new), Some Panic)).
Proof.
  destruct (bad_numbers 6) as [A B]; [lia|]; destruct (abad_numbers 6) as [C D]; [lia|].
  assert (F : fits_usize 6) by (unfold fits_usize, usize_max; lia).
  split; auto; split; auto; split; [intros [H _]; apply H; reflexivity|]; split; auto; split; auto; split; [intros [H _]; apply H; reflexivity|]; split; auto.
  destruct (proj2 (ga_left (I := nat) (ga_from tt) (ex_bad 6) F) A B) as (e & _ & E); exists e; exact E.
Qed.
