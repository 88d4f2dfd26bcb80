(** * PCalls2: calls of user code in runs of the two algorithms (C115). *)
From Coq Require Import List Bool Arith NArith Lia ZArith Reals.
From Flocq Require Import IEEE754.Binary IEEE754.BinarySingleNaN.
From Verif Require Import Rnd LRnd F64 Spec SpecA SpecF SpecP MStats MPopulation MSelection MModel MAlgorithms PAlgorithms PAlgorithms3 PCalls PRun PRun3 PHist PHist3 PRun5.
Import ListNotations.

Section Calls2.
Context {I : Type} (io : individual_ops I) (fexp : f64 -> f64) {MS : Type} (mdl : model I MS) (w : method).
Hypothesis Hmdl : unmarked_model mdl.
Notation mdw := (watch w mdl).

Lemma created_unmarked st (sel : selector I) : create_selector st = Ret sel -> unmarked_selector sel.
Proof.
  destruct st; cbn; unfold tournament_new, elitist_new, boltzmann_new, roulette_new, linear_new; try (intros [= <-]; exact Logic.I);
    destruct (massert _); cbn; try discriminate; intros [= <-]; exact Logic.I.
Qed.

Context {PS : Type} (f : PS -> population I -> M (bool * PS)).
Hypothesis Hf : forall ps p, unmarked (f ps p).
Notation GA := (ga_algorithm io fexp mdl).
Notation GAw := (ga_algorithm io fexp mdw).
Notation AGA := (aga_algorithm io fexp mdl).
Notation AGAw := (aga_algorithm io fexp mdw).

Lemma calls_top e (p : population I) :
  tallies (select_top e p []) (select_top e p []) (fun l n => length l = Nat.min e (length (individuals p)) /\ n = 0).
Proof.
  destruct (select_top_spec e p []) as (rest & t & _ & Hl & ->). apply tallies_ret. auto.
Qed.

Lemma calls_pre ms p b : unmarked_selector (parent_selector b) ->
  tallies (m_pre_generation mdw ms p b) (m_pre_generation mdl ms p b)
    (fun r n => unmarked_selector (parent_selector (snd r)) /\ n = one (method_eqb w PreGeneration)).
Proof.
  intros U. destruct Hmdl as (_ & _ & _ & _ & _ & Hp). destruct (Hp ms p b) as (H1 & H2).
  eapply tallies_mono; [apply tallies_mark_if, H1|]. cbn beta. intros (ms', b') n Hm Hn. split; [|exact Hn]. exact (H2 U ms' b' Hm).
Qed.

Definition ga_good (n e : nat) (s : ga_state I MS) : Prop :=
  ga_size s = n /\ ga_elite_size s = e /\ unmarked_selector (parent_selector (ga_breeding s)).
Definition aga_good (n e : nat) (s : aga_state I MS) : Prop :=
  aga_size s = n /\ aga_elite_size s = e /\ unmarked_selector (parent_selector (aga_breeding s)).

Lemma ga_calls_prepare n e s p : ga_good n e s ->
  tallies (alg_prepare GAw s p) (alg_prepare GA s p) (fun s' k => ga_good n e s' /\ k = one (method_eqb w PreGeneration)).
Proof.
  intros (H1 & H2 & H3). cbn [alg_prepare ga_algorithm]. unfold ga_prepare.
  eapply tallies_bind with (C2 := fun _ s' k => ga_good n e s' /\ k = 0); [apply calls_pre, H3| |].
  - intros (ms, b) Hb. assert (Ub : unmarked_selector (parent_selector b)).
    { destruct Hmdl as (_ & _ & _ & _ & _ & Hp). eapply Hp; [exact H3|exact Hb]. }
    eapply tallies_bind with (C1 := fun _ k => k = 0) (C2 := fun _ s' k => ga_good n e s' /\ k = 0);
      [apply tallies_unmarked; [apply um_prepare, Ub|reflexivity]| |].
    + intros sel Hs. apply tallies_ret. split; [|reflexivity]. repeat split; auto. cbn. eapply prepare_selector; eauto.
    + intros sel s' n1 n2 _ _ -> H. exact H.
  - intros r s' n1 n2 _ _ (_ & ->) (H & ->). split; [exact H|lia].
Qed.
Lemma aga_calls_prepare n e s p : aga_good n e s ->
  tallies (alg_prepare AGAw s p) (alg_prepare AGA s p) (fun s' k => aga_good n e s' /\ k = one (method_eqb w PreGeneration)).
Proof.
  intros (H1 & H2 & H3). cbn [alg_prepare aga_algorithm]. unfold aga_prepare. destruct (aga_adjust s p) as ((rs, cr), mr).
  eapply tallies_bind with (C2 := fun _ s' k => aga_good n e s' /\ k = 0); [apply calls_pre, H3| |].
  - intros (ms, b) Hb. assert (Ub : unmarked_selector (parent_selector b)).
    { destruct Hmdl as (_ & _ & _ & _ & _ & Hp). eapply Hp; [|exact Hb]. exact H3. }
    eapply tallies_bind with (C1 := fun _ k => k = 0) (C2 := fun _ s' k => aga_good n e s' /\ k = 0);
      [apply tallies_unmarked; [apply um_prepare, Ub|reflexivity]| |].
    + intros sel Hs. apply tallies_ret. split; [|reflexivity]. repeat split; auto. cbn. eapply prepare_selector; eauto.
    + intros sel s' n1 n2 _ _ -> H. exact H.
  - intros r s' n1 n2 _ _ (_ & ->) (H & ->). split; [exact H|lia].
Qed.

Definition within {A} (tr : A -> list (population I)) (size e start : nat) (r : A) (n : nat) : Prop :=
  start + least_calls w size e (removelast (tr r)) <= n <= start + most_calls w size e (removelast (tr r)).

Lemma ga_calls_population fuel s init q ps : fits_usize (ga_population_size q) ->
  tallies (evolve_population io fexp mdw GAw (quiet f) fuel s init q ps) (evolve_population io fexp mdl GA (quiet f) fuel s init q ps)
    (fun r n => exists e, elite_count (ga_population_size q) (ga_elitism_rate q) e /\
       within (@r_trace I _ PS) (ga_population_size q) e (at_start w (length init)) r n).
Proof.
  intros Hs. unfold evolve_population. cbn [alg_configure ga_algorithm].
  destruct (ga_configure_total s q) as [E|(s1 & E & _)].
  { rewrite E. cbn [bind]. split; [intros n a []|intros a []]. }
  assert (Hm : may (ga_configure s q) s1) by (rewrite E; reflexivity).
  pose proof (ga_configured_accepted (MS := MS) (I := I) s q s1 Hs Hm) as D.
  destruct (ga_configure_ok s q Hs D) as (e & sel & He & Hsel & Hc). rewrite Hc. cbn [bind].
  set (s2 := mkGa _ _ _ _).
  assert (G : ga_good (ga_population_size q) e s2).
  { repeat split. cbn. eapply created_unmarked; exact Hsel. }
  eapply tallies_bind; [apply (calls_initialize io mdl w Hmdl)| |].
  - intros p _. apply (calls_loop io fexp mdl w Hmdl GA GAw f (ga_population_size q) e (ga_good (ga_population_size q) e) Hf).
    + reflexivity.
    + intros s0 (G1 & G2 & G3). exists (ga_breeding s0). cbn. rewrite G1. auto.
    + intros s0 p0 G0. apply ga_calls_prepare. exact G0.
    + intros s0 p0 (G1 & G2 & G3). cbn [alg_select_elites ga_algorithm]. rewrite G2. apply calls_top.
    + exact G.
  - cbn beta. intros p r n1 n2 _ _ -> (t & Et & Hn & _). exists e. split; [exact He|]. unfold within. cbn [app] in Et. rewrite Et. lia.
Qed.
Lemma aga_calls_population fuel s init q ps : fits_usize (aga_population_size q) ->
  tallies (evolve_population io fexp mdw AGAw (quiet f) fuel s init q ps) (evolve_population io fexp mdl AGA (quiet f) fuel s init q ps)
    (fun r n => exists e, elite_count (aga_population_size q) (aga_elitism_rate q) e /\
       within (@r_trace I _ PS) (aga_population_size q) e (at_start w (length init)) r n).
Proof.
  intros Hs. unfold evolve_population. cbn [alg_configure aga_algorithm].
  destruct (aga_configure_total s q) as [E|(s1 & E & _)].
  { rewrite E. cbn [bind]. split; [intros n a []|intros a []]. }
  assert (Hm : may (aga_configure s q) s1) by (rewrite E; reflexivity).
  pose proof (aga_configured_accepted (MS := MS) (I := I) s q s1 Hs Hm) as D.
  destruct (aga_configure_ok s q Hs D) as (e & sel & He & Hsel & Hc). rewrite Hc. cbn [bind].
  set (s2 := mkAga _ _ _ _ _ _ _ _).
  assert (G : aga_good (aga_population_size q) e s2).
  { repeat split. cbn. eapply created_unmarked; exact Hsel. }
  eapply tallies_bind; [apply (calls_initialize io mdl w Hmdl)| |].
  - intros p _. apply (calls_loop io fexp mdl w Hmdl AGA AGAw f (aga_population_size q) e (aga_good (aga_population_size q) e) Hf).
    + reflexivity.
    + intros s0 (G1 & G2 & G3). exists (aga_breeding s0). cbn. rewrite G1. auto.
    + intros s0 p0 G0. apply aga_calls_prepare. exact G0.
    + intros s0 p0 (G1 & G2 & G3). cbn [alg_select_elites aga_algorithm]. rewrite G2. apply calls_top.
    + exact G.
  - cbn beta. intros p r n1 n2 _ _ -> (t & Et & Hn & _). exists e. split; [exact He|]. unfold within. cbn [app] in Et. rewrite Et. lia.
Qed.

(** ** The three ways to start a run *)
Lemma calls_take (p : population I) : unmarked (take_fittest p).
Proof. unfold take_fittest, swap_remove. apply unmarked_bind; [|intros (x, l) _; exact Logic.I]. um. Qed.

Lemma calls_run {P S0} (alg algw : algorithm I MS P S0) fuel s nr q ps size rate :
  unmarked nr -> alg_initial_population_size alg q = size -> alg_initial_population_size algw q = size ->
  (forall init, tallies (evolve_population io fexp mdw algw (quiet f) fuel s init q ps) (evolve_population io fexp mdl alg (quiet f) fuel s init q ps)
    (fun r n => exists e, elite_count size rate e /\ within (@r_trace I S0 PS) size e (at_start w (length init)) r n)) ->
  tallies (evolution_run io fexp mdw algw (quiet f) fuel s (watch_random w nr) q ps) (evolution_run io fexp mdl alg (quiet f) fuel s nr q ps)
    (fun r n => exists e, elite_count size rate e /\ within (fun r => r_trace (snd r)) size e (at_random_start w size) r n).
Proof.
  intros U E1 E2 H. unfold evolution_run. rewrite E1, E2.
  eapply tallies_bind with (C1 := fun l n => length l = size /\ n = size * one (method_eqb w NewRandom))
    (C2 := fun init y n => exists e, elite_count size rate e /\ within (fun r => r_trace (snd r)) size e (at_start w (length init)) y n).
  { unfold extend_population. destruct (Nat.eqb_spec size 0) as [E|_]; [apply tallies_ret; rewrite E; cbn; auto|].
    eapply tallies_bind.
    - apply (tallies_repeatM _ _ (one (method_eqb w NewRandom)) (one (method_eqb w NewRandom)) size).
      eapply tallies_mono; [apply tallies_mark_if; exact U|]. cbn beta. intros _ n _ ->. unfold one. lia.
    - intros l _. apply (tallies_ret ([] ++ l) (fun r n => r = [] ++ l /\ n = 0)). auto.
    - cbn beta. intros l r n1 n2 _ _ (Hl & Hn) (-> & ->). split; [exact Hl|lia]. }
  { intros init _. eapply tallies_bind; [apply H| |].
    - intros r _. eapply tallies_bind with (C1 := fun _ n => n = 0) (C2 := fun _ x n => snd x = r /\ n = 0).
      + apply tallies_unmarked; [apply calls_take|reflexivity].
      + intros x _. apply tallies_ret. auto.
      + intros x y n1 n2 _ _ -> H2. instantiate (1 := fun r x n => snd x = r /\ n = 0). exact H2.
    - cbn beta. intros r y n1 n2 _ _ (e & He & Hw) (<- & ->).
      exists e. split; [exact He|]. unfold within in *. lia. }
  { cbn beta. intros init y n1 n2 _ _ (Hl & ->) (e & He & H2). exists e. split; [exact He|]. unfold within in *. rewrite Hl in H2.
    unfold at_start, at_random_start in *. destruct w; cbn [one method_eqb] in *; lia. }
Qed.

(** [extend_population_with] mutates the seed *)
Lemma calls_individual {P S0} (alg algw : algorithm I MS P S0) fuel s seed q ps size rate :
  alg_initial_population_size alg q = size -> alg_initial_population_size algw q = size -> alg_model algw s = alg_model alg s ->
  (forall init, tallies (evolve_population io fexp mdw algw (quiet f) fuel s init q ps) (evolve_population io fexp mdl alg (quiet f) fuel s init q ps)
    (fun r n => exists e, elite_count size rate e /\ within (@r_trace I S0 PS) size e (at_start w (length init)) r n)) ->
  tallies (evolve_individual io fexp mdw algw (quiet f) fuel s seed q ps) (evolve_individual io fexp mdl alg (quiet f) fuel s seed q ps)
    (fun r n => exists e, elite_count size rate e /\ within (fun r => r_trace (snd r)) size e (at_seeded_start w size) r n).
Proof.
  intros E1 E2 E3 H. unfold evolve_individual. rewrite E1, E2, E3.
  eapply tallies_bind with (C1 := fun l n => length l = size /\ n = (size - 1) * one (method_eqb w Mutate))
    (C2 := fun init y n => exists e, elite_count size rate e /\ within (fun r => r_trace (snd r)) size e (at_start w (length init)) y n).
  { unfold extend_population_with. destruct (Nat.eqb_spec size 0) as [E|E0]; [apply tallies_ret; rewrite E; cbn; auto|].
    destruct (Nat.eqb_spec size 1) as [E|E4]; [apply tallies_ret; rewrite E; cbn; auto|].
    eapply tallies_bind.
    - apply (tallies_repeatM _ _ (one (method_eqb w Mutate)) (one (method_eqb w Mutate)) (size - 1)).
      eapply tallies_mono; [apply tallies_mark_if; apply Hmdl|]. cbn beta. intros _ n _ ->. unfold one. lia.
    - intros l _. apply (tallies_ret ((([] ++ [seed]) ++ l)) (fun r n => r = ([] ++ [seed]) ++ l /\ n = 0)). auto.
    - cbn beta. intros l r n1 n2 _ _ (Hl & Hn) (-> & ->). split; [cbn; lia|lia]. }
  { intros init _. eapply tallies_bind; [apply H| |].
    - intros r _. eapply tallies_bind with (C1 := fun _ n => n = 0) (C2 := fun _ x n => snd x = r /\ n = 0).
      + apply tallies_unmarked; [apply calls_take|reflexivity].
      + intros x _. apply tallies_ret. auto.
      + intros x y n1 n2 _ _ -> H2. instantiate (1 := fun r x n => snd x = r /\ n = 0). exact H2.
    - cbn beta. intros r y n1 n2 _ _ (e & He & Hw) (<- & ->).
      exists e. split; [exact He|]. unfold within in *. lia. }
  { cbn beta. intros init y n1 n2 _ _ (Hl & ->) (e & He & H2). exists e. split; [exact He|]. unfold within in *. rewrite Hl in H2.
    unfold at_start, at_seeded_start in *. destruct w; cbn [one method_eqb] in *; lia. }
Qed.

Lemma exact_calls size e (ps : list (population I)) : w = Evaluate \/ w = Improve ->
  least_calls w size e ps = list_sum (map (bred size e) ps) /\ most_calls w size e ps = list_sum (map (bred size e) ps).
Proof.
  intros H. induction ps as [|p t (IH1 & IH2)]; [split; reflexivity|].
  change (list_sum (map (bred size e) (p :: t))) with (bred size e p + list_sum (map (bred size e) t)).
  rewrite <- IH1 at 1. rewrite <- IH2. destruct H as [-> | ->]; cbn; lia.
Qed.
End Calls2.

(** ** The theorems *)
Section Theorems.
Context {I : Type} (io : individual_ops I) (fexp : f64 -> f64) {MS : Type} (mdl : model I MS) {PS : Type} (f : PS -> population I -> M (bool * PS)).
Hypothesis Hmdl : unmarked_model mdl.
Hypothesis Hf : forall ps p, unmarked (f ps p).

Lemma watched_iff {A} (m m' : M A) C : tallies m m' C -> forall a, (exists n, may_calls m n a) <-> may m' a.
Proof. intros (H1 & H2) a. split; [intros (n & Hn); apply (H1 n a Hn)|apply H2]. Qed.

Lemma c115_breed w ms p b : unmarked_selector (parent_selector b) ->
  (forall x, (exists n, may_calls (breed io fexp (watch w mdl) ms p b) n x) <-> may (breed io fexp mdl ms p b) x) /\
  (forall n x, may_calls (breed io fexp (watch w mdl) ms p b) n x -> least_breed w <= n <= most_breed w (length (individuals p))).
Proof.
  intros U. pose proof (calls_breed io fexp mdl w Hmdl ms p b U) as T. split; [exact (watched_iff _ _ _ T)|].
  intros n x H. apply (proj1 T n x H).
Qed.

Lemma c115_ga w fuel s init nr seed q ps : fits_usize (ga_population_size q) -> unmarked nr ->
  let size := ga_population_size q in
  let bounds start tr n := exists e, elite_count size (ga_elitism_rate q) e /\
    start + least_calls w size e (removelast tr) <= n <= start + most_calls w size e (removelast tr) in
  (forall n r, may_calls (evolve_population io fexp (watch w mdl) (ga_algorithm io fexp (watch w mdl)) (quiet f) fuel s init q ps) n r ->
     bounds (at_start w (length init)) (r_trace r) n) /\
  (forall n x r, may_calls (evolution_run io fexp (watch w mdl) (ga_algorithm io fexp (watch w mdl)) (quiet f) fuel s (watch_random w nr) q ps) n (x, r) ->
     bounds (at_random_start w size) (r_trace r) n) /\
  (forall n x r, may_calls (evolve_individual io fexp (watch w mdl) (ga_algorithm io fexp (watch w mdl)) (quiet f) fuel s seed q ps) n (x, r) ->
     bounds (at_seeded_start w size) (r_trace r) n).
Proof.
  intros Hs U size bounds.
  assert (T : forall init, _) by (intros init0; exact (ga_calls_population io fexp mdl w Hmdl f Hf fuel s init0 q ps Hs)).
  split; [|split].
  - intros n r H. apply (proj1 (T init) n r H).
  - intros n x r H.
    apply (proj1 (calls_run io fexp mdl w f (ga_algorithm io fexp mdl) (ga_algorithm io fexp (watch w mdl)) fuel s nr q ps size (ga_elitism_rate q) U eq_refl eq_refl T) n (x, r) H).
  - intros n x r H.
    apply (proj1 (calls_individual io fexp mdl w Hmdl f (ga_algorithm io fexp mdl) (ga_algorithm io fexp (watch w mdl)) fuel s seed q ps size (ga_elitism_rate q) eq_refl eq_refl eq_refl T) n (x, r) H).
Qed.
Lemma c115_aga w fuel s init nr seed q ps : fits_usize (aga_population_size q) -> unmarked nr ->
  let size := aga_population_size q in
  let bounds start tr n := exists e, elite_count size (aga_elitism_rate q) e /\
    start + least_calls w size e (removelast tr) <= n <= start + most_calls w size e (removelast tr) in
  (forall n r, may_calls (evolve_population io fexp (watch w mdl) (aga_algorithm io fexp (watch w mdl)) (quiet f) fuel s init q ps) n r ->
     bounds (at_start w (length init)) (r_trace r) n) /\
  (forall n x r, may_calls (evolution_run io fexp (watch w mdl) (aga_algorithm io fexp (watch w mdl)) (quiet f) fuel s (watch_random w nr) q ps) n (x, r) ->
     bounds (at_random_start w size) (r_trace r) n) /\
  (forall n x r, may_calls (evolve_individual io fexp (watch w mdl) (aga_algorithm io fexp (watch w mdl)) (quiet f) fuel s seed q ps) n (x, r) ->
     bounds (at_seeded_start w size) (r_trace r) n).
Proof.
  intros Hs U size bounds.
  assert (T : forall init, _) by (intros init0; exact (aga_calls_population io fexp mdl w Hmdl f Hf fuel s init0 q ps Hs)).
  split; [|split].
  - intros n r H. apply (proj1 (T init) n r H).
  - intros n x r H.
    apply (proj1 (calls_run io fexp mdl w f (aga_algorithm io fexp mdl) (aga_algorithm io fexp (watch w mdl)) fuel s nr q ps size (aga_elitism_rate q) U eq_refl eq_refl T) n (x, r) H).
  - intros n x r H.
    apply (proj1 (calls_individual io fexp mdl w Hmdl f (aga_algorithm io fexp mdl) (aga_algorithm io fexp (watch w mdl)) fuel s seed q ps size (aga_elitism_rate q) eq_refl eq_refl eq_refl T) n (x, r) H).
Qed.

Lemma c115_same_runs w fuel nr seed init ps :
  (forall s q r, fits_usize (ga_population_size q) ->
    (exists n, may_calls (evolve_population io fexp (watch w mdl) (ga_algorithm io fexp (watch w mdl)) (quiet f) fuel s init q ps) n r) <->
    may (evolve_population io fexp mdl (ga_algorithm io fexp mdl) (quiet f) fuel s init q ps) r) /\
  (forall s q r, fits_usize (ga_population_size q) -> unmarked nr ->
    (exists n, may_calls (evolution_run io fexp (watch w mdl) (ga_algorithm io fexp (watch w mdl)) (quiet f) fuel s (watch_random w nr) q ps) n r) <->
    may (evolution_run io fexp mdl (ga_algorithm io fexp mdl) (quiet f) fuel s nr q ps) r) /\
  (forall s q r, fits_usize (ga_population_size q) ->
    (exists n, may_calls (evolve_individual io fexp (watch w mdl) (ga_algorithm io fexp (watch w mdl)) (quiet f) fuel s seed q ps) n r) <->
    may (evolve_individual io fexp mdl (ga_algorithm io fexp mdl) (quiet f) fuel s seed q ps) r) /\
  (forall s q r, fits_usize (aga_population_size q) ->
    (exists n, may_calls (evolve_population io fexp (watch w mdl) (aga_algorithm io fexp (watch w mdl)) (quiet f) fuel s init q ps) n r) <->
    may (evolve_population io fexp mdl (aga_algorithm io fexp mdl) (quiet f) fuel s init q ps) r) /\
  (forall s q r, fits_usize (aga_population_size q) -> unmarked nr ->
    (exists n, may_calls (evolution_run io fexp (watch w mdl) (aga_algorithm io fexp (watch w mdl)) (quiet f) fuel s (watch_random w nr) q ps) n r) <->
    may (evolution_run io fexp mdl (aga_algorithm io fexp mdl) (quiet f) fuel s nr q ps) r) /\
  (forall s q r, fits_usize (aga_population_size q) ->
    (exists n, may_calls (evolve_individual io fexp (watch w mdl) (aga_algorithm io fexp (watch w mdl)) (quiet f) fuel s seed q ps) n r) <->
    may (evolve_individual io fexp mdl (aga_algorithm io fexp mdl) (quiet f) fuel s seed q ps) r).
Proof.
  split; [|split; [|split; [|split; [|split]]]].
  - intros s q r Hs. exact (watched_iff _ _ _ (ga_calls_population io fexp mdl w Hmdl f Hf fuel s init q ps Hs) r).
  - intros s q r Hs U. exact (watched_iff _ _ _ (calls_run io fexp mdl w f (ga_algorithm io fexp mdl) (ga_algorithm io fexp (watch w mdl)) fuel s nr q ps _ (ga_elitism_rate q) U eq_refl eq_refl
      (fun init => ga_calls_population io fexp mdl w Hmdl f Hf fuel s init q ps Hs)) r).
  - intros s q r Hs. exact (watched_iff _ _ _ (calls_individual io fexp mdl w Hmdl f (ga_algorithm io fexp mdl) (ga_algorithm io fexp (watch w mdl)) fuel s seed q ps _ (ga_elitism_rate q) eq_refl eq_refl eq_refl
      (fun init => ga_calls_population io fexp mdl w Hmdl f Hf fuel s init q ps Hs)) r).
  - intros s q r Hs. exact (watched_iff _ _ _ (aga_calls_population io fexp mdl w Hmdl f Hf fuel s init q ps Hs) r).
  - intros s q r Hs U. exact (watched_iff _ _ _ (calls_run io fexp mdl w f (aga_algorithm io fexp mdl) (aga_algorithm io fexp (watch w mdl)) fuel s nr q ps _ (aga_elitism_rate q) U eq_refl eq_refl
      (fun init => aga_calls_population io fexp mdl w Hmdl f Hf fuel s init q ps Hs)) r).
  - intros s q r Hs. exact (watched_iff _ _ _ (calls_individual io fexp mdl w Hmdl f (aga_algorithm io fexp mdl) (aga_algorithm io fexp (watch w mdl)) fuel s seed q ps _ (aga_elitism_rate q) eq_refl eq_refl eq_refl
      (fun init => aga_calls_population io fexp mdl w Hmdl f Hf fuel s init q ps Hs)) r).
Qed.

(** Evaluations, exactly *)
Lemma c115_evaluations fuel s nr q ps n x r : fits_usize (ga_population_size q) -> unmarked nr ->
  may_calls (evolution_run io fexp (watch Evaluate mdl) (ga_algorithm io fexp (watch Evaluate mdl)) (quiet f) fuel s nr q ps) n (x, r) ->
  exists e, elite_count (ga_population_size q) (ga_elitism_rate q) e /\
    n = ga_population_size q + list_sum (map (fun p => ga_population_size q - Nat.min e (length (individuals p))) (removelast (r_trace r))).
Proof.
  intros Hs U H. destruct (c115_ga Evaluate fuel s [] nr x q ps Hs U) as (_ & A & _).
  destruct (A n x r H) as (e & He & Hn). exists e. split; [exact He|].
  destruct (exact_calls Evaluate (ga_population_size q) e (removelast (r_trace r)) (or_introl eq_refl)) as (E1 & E2).
  rewrite E1, E2 in Hn. unfold bred in *. cbn [at_random_start] in Hn. lia.
Qed.

Lemma removelast_length {A} (l : list A) : length (removelast l) = length l - 1.
Proof. induction l as [|a [|b t] IH]; cbn in *; [reflexivity|reflexivity|]. rewrite IH. lia. Qed.

(** ... and by the number of generations *)
Lemma c115_budget fuel s nr q ps n x r : fits_usize (ga_population_size q) -> unmarked nr ->
  may_calls (evolution_run io fexp (watch Evaluate mdl) (ga_algorithm io fexp (watch Evaluate mdl)) (quiet f) fuel s nr q ps) n (x, r) ->
  exists e, elite_count (ga_population_size q) (ga_elitism_rate q) e /\
    ga_population_size q + generation (r_population r) * (ga_population_size q - e) <= n <= ga_population_size q * S (generation (r_population r)).
Proof.
  intros Hs U H. destruct (c115_evaluations fuel s nr q ps n x r Hs U H) as (e & He & En). exists e. split; [exact He|].
  destruct (c115_same_runs Evaluate fuel nr x [] ps) as (_ & A & _).
  assert (Hm : may (evolution_run io fexp mdl (ga_algorithm io fexp mdl) (quiet f) fuel s nr q ps) (x, r)).
  { apply (A s q (x, r) Hs U). exists n. exact H. }
  unfold evolution_run in Hm. apply may_bind in Hm. destruct Hm as (init & _ & Hm). apply may_bind in Hm. destruct Hm as (r0 & Hr & Hm).
  apply may_bind in Hm. destruct Hm as (x0 & _ & Hm). cbn in Hm. injection Hm as -> ->.
  destruct (c63_generations _ _ _ _ _ io fexp mdl (ga_algorithm io fexp mdl) (quiet f) fuel s init q ps r Hr) as (G & Hne & Hl).
  pose proof (G _ _ Hl) as Eg. rewrite Eg. rewrite <- removelast_length. subst n. clear.
  induction (removelast (r_trace r)) as [|p t IH]; cbn [map length]; [cbn; lia|].
  unfold list_sum in *. cbn [fold_right]. lia.
Qed.
End Theorems.
