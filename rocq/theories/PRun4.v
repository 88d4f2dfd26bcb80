(** * PRun4: the claims about runs of the two genetic algorithms (C59, C62, C64-C67). *)
From Coq Require Import List Bool Arith NArith ZArith Reals Lia Lra Permutation.
From Flocq Require Import Core BinarySingleNaN.
From Verif Require Import Rnd LRnd F64 LF64 MStats MPopulation MSelection MModel MAlgorithms SpecF SpecA ExF ExM
  PSelection PSelection3 PPopulation PModel PInterp PAlgorithms PAlgorithms2 PRun PRun2 PRun3.
Import ListNotations.
Local Open Scope nat_scope.

(** ** C67 for any algorithm with elites *)
Section Total.
Context {I : Type} (io : individual_ops I) (fexp : f64 -> f64) {MS : Type} (mdl : model I MS).
Context {P S0 : Type} (alg : algorithm I MS P S0) (n e : nat) (J : S0 -> Prop) (G : I -> Prop) {PS : Type}.
Hypothesis Jprep : forall s p, J s -> must (alg_prepare alg s p) J.
Hypothesis Jel : forall s, J s -> alg_select_elites alg s = select_top e.
Hypothesis Jrep : forall s, J s -> snd (alg_reproduction_parameters alg s) = n.
Hypothesis Jsel : forall s, J s -> steady io fexp (parent_selector (fst (alg_reproduction_parameters alg s))).
Hypothesis Hen : e < n.
Hypothesis Hn : fits_usize n.
Hypothesis Hn2 : 2 <= n.
Hypothesis Htot : total_model mdl G.
Variables (f : PS -> population I -> M (bool * PS)) (s s1 : S0) (q : P).
Hypothesis Hf : forall ps p, must (f ps p) (fun _ => True).
Hypothesis Hc : alg_configure alg s q = Ret s1.
Hypothesis HJ : J s1.
Hypothesis Hsz : alg_initial_population_size alg q = n.

Definition fit_result (r : run_result I S0 PS) : Prop := exists x, take_fittest (r_population r) = Ret x.

Lemma inv2_fit r : Inv2 io J G (r_algorithm r) (r_population r) -> fit_result r.
Proof. intros (_ & Hne & _ & _ & Hst); destruct (fittest_any io _ Hne Hst) as (x & _ & Hx & _); exists x; exact Hx. Qed.

Lemma total_safe fuel init ps : fits_usize (length init) -> startable io mdl G (alg_model alg s1) init ->
  safe (evolve_population io fexp mdl alg (quiet f) fuel s init q ps) fit_result.
Proof.
  intros Hl [HG Hv]; unfold evolve_population; rewrite Hc; cbn [bind].
  eapply safe_bind; [apply must_safe, (init_must io mdl n e J G Hen Htot s1); auto|]; intros p [Hi _].
  eapply safe_mono; [apply inv2_fit|]; apply loop_safe; auto.
  intros s0 p0; apply (step_must io fexp mdl alg n e J G); auto.
Qed.

Lemma total_must m init ps : fits_usize (length init) -> startable io mdl G (alg_model alg s1) init ->
  (forall ps' p, generation p = m -> must (f ps' p) (fun o => fst o = false)) ->
  must (evolve_population io fexp mdl alg (quiet f) (S m) s init q ps) fit_result.
Proof.
  intros Hl [HG Hv] Hm; unfold evolve_population; rewrite Hc; cbn [bind].
  eapply must_bind_intro; [apply (init_must io mdl n e J G Hen Htot s1); auto|]; intros p [Hi Hg].
  eapply must_mono; [apply inv2_fit|]; apply (loop_must io fexp mdl alg f _ m); auto; [|lia].
  intros s0 p0; apply (step_must io fexp mdl alg n e J G); auto.
Qed.

(** new_random makes good individuals that are valid once evaluated *)
Variable nr : M I.
Hypothesis Hnr : must nr (fun x => G x /\ must (m_evaluate mdl (alg_model alg s1) x) (fun y => is_valid io y = true)).

Lemma random_startable : must (extend_population nr [] n) (fun init => fits_usize (length init) /\ startable io mdl G (alg_model alg s1) init).
Proof.
  unfold extend_population; rewrite (proj2 (Nat.eqb_neq n 0)) by lia.
  eapply must_bind_intro; [apply must_repeatM; exact Hnr|]; intros news [Hl HF]; cbn [must app].
  split; [rewrite Hl; auto|]; split; [eapply Forall_impl; [|exact HF]; intros a [Ha _]; exact Ha|].
  destruct news as [|x news]; [cbn in Hl; lia|]; exists x; split; [left; auto|]; inversion HF as [|? ? [_ Hx] _]; exact Hx.
Qed.

Lemma run_safe fuel ps : safe (evolution_run io fexp mdl alg (quiet f) fuel s nr q ps) (fun _ => True).
Proof.
  unfold evolution_run; rewrite Hsz; eapply safe_bind; [apply must_safe, random_startable|]; intros init [Hl Hs].
  eapply safe_bind; [apply total_safe; auto|]; intros r [x Hx]; rewrite Hx; cbn; auto.
Qed.
Lemma run_must m ps : (forall ps' p, generation p = m -> must (f ps' p) (fun o => fst o = false)) ->
  must (evolution_run io fexp mdl alg (quiet f) (S m) s nr q ps) (fun _ => True).
Proof.
  intros Hm; unfold evolution_run; rewrite Hsz; eapply must_bind_intro; [apply random_startable|]; intros init [Hl Hs].
  eapply must_bind_intro; [apply total_must; auto|]; intros r [x Hx]; rewrite Hx; cbn; auto.
Qed.

(** A good seed that is valid once evaluated *)
Variable seed : I.
Hypothesis Hmodel : alg_model alg s1 = alg_model alg s.
Hypothesis Hseed : G seed /\ must (m_evaluate mdl (alg_model alg s1) seed) (fun y => is_valid io y = true).

Lemma seed_startable : must (extend_population_with mdl (alg_model alg s) [] n seed)
  (fun init => fits_usize (length init) /\ startable io mdl G (alg_model alg s1) init).
Proof.
  destruct Htot as (_ & Tm & _); unfold extend_population_with; rewrite (proj2 (Nat.eqb_neq n 0)), (proj2 (Nat.eqb_neq n 1)) by lia.
  eapply must_bind_intro; [apply must_repeatM, Tm, Hseed|]; intros news [Hl HF]; cbn [must app].
  split; [cbn [length]; rewrite Hl; replace (S (n - 1)) with n by lia; auto|]; split; [constructor; [apply Hseed|exact HF]|].
  exists seed; split; [left; auto|apply Hseed].
Qed.
Lemma individual_safe fuel ps : safe (evolve_individual io fexp mdl alg (quiet f) fuel s seed q ps) (fun _ => True).
Proof.
  unfold evolve_individual; rewrite Hsz; eapply safe_bind; [apply must_safe, seed_startable|]; intros init [Hl Hs].
  eapply safe_bind; [apply total_safe; auto|]; intros r [x Hx]; rewrite Hx; cbn; auto.
Qed.
Lemma individual_must m ps : (forall ps' p, generation p = m -> must (f ps' p) (fun o => fst o = false)) ->
  must (evolve_individual io fexp mdl alg (quiet f) (S m) s seed q ps) (fun _ => True).
Proof.
  intros Hm; unfold evolve_individual; rewrite Hsz; eapply must_bind_intro; [apply seed_startable|]; intros init [Hl Hs].
  eapply must_bind_intro; [apply total_must; auto|]; intros r [x Hx]; rewrite Hx; cbn; auto.
Qed.
End Total.

(** ** C59: no step with population size 1 *)
Section One.
Context {I : Type} (io : individual_ops I) (fexp : f64 -> f64) {MS : Type} (mdl : model I MS).
Context {P S0 : Type} (alg : algorithm I MS P S0) (J : S0 -> Prop) {PS : Type}.
Hypothesis Jprep : forall s p s', J s -> may (alg_prepare alg s p) s' -> J s'.
Hypothesis Jel : forall s, J s -> alg_select_elites alg s = select_top 0.
Hypothesis Jrep : forall s, J s -> snd (alg_reproduction_parameters alg s) = 1.

Lemma no_step s p o : J s -> ~ may (evolve_step io fexp mdl alg s p) o.
Proof.
  destruct o as [s' p']; intros HJ H; apply step_may in H as (el & off & H1 & H2 & H3 & H4 & Hne).
  pose proof (Jprep _ _ _ HJ H1) as HJ'; rewrite (Jel s' HJ') in H2; cbn in H2; subst el.
  destruct (alg_reproduction_parameters alg s') as [b n'] eqn:Er; pose proof (Jrep s' HJ') as En; rewrite Er in En; cbn [snd] in En; subst n'.
  cbn in H3; apply may_bind in H3 as (x & _ & H3); cbn in H3; congruence.
Qed.

Lemma no_run (f : PS -> population I -> M (bool * PS)) fuel s q s1 init ps r :
  alg_configure alg s q = Ret s1 -> J s1 ->
  (forall ps' p, generation p = 0 -> ~ may (f ps p) (false, ps')) ->
  ~ may (evolve_population io fexp mdl alg (quiet f) fuel s init q ps) r.
Proof.
  intros Hc HJ Hf H; unfold evolve_population in H; rewrite Hc in H; cbn [bind] in H; apply may_bind in H as (p & Hp & H).
  apply init_generation in Hp; destruct fuel as [|fuel]; [destruct H|]; cbn [evolve_loop] in H.
  apply may_bind in H as ([[c ps'] s2] & Hq & H); apply quiet_may in Hq as [Hq ->]; destruct c; [|eapply Hf; eauto].
  apply may_bind in H as (o & Ho & _); eapply no_step; eauto.
Qed.
End One.

Lemma one_fits : fits_usize 1.
Proof. unfold fits_usize, usize_max; lia. Qed.

Section OnePanics.
Context {I : Type} (io : individual_ops I) (fexp : f64 -> f64) {MS : Type} (mdl : model I MS).
Context {P S0 : Type} (alg : algorithm I MS P S0) (J : S0 -> Prop) (G : I -> Prop) {PS : Type}.
Hypothesis Jprep : forall s p, J s -> must (alg_prepare alg s p) J.
Hypothesis Jel : forall s, J s -> alg_select_elites alg s = select_top 0.
Hypothesis Jrep : forall s, J s -> snd (alg_reproduction_parameters alg s) = 1.
Hypothesis Jsel : forall s, J s -> steady io fexp (parent_selector (fst (alg_reproduction_parameters alg s))).
Hypothesis Htot : total_model mdl G.

Lemma one_panics (f : PS -> population I -> M (bool * PS)) fuel s q s1 init ps :
  alg_configure alg s q = Ret s1 -> J s1 ->
  fits_usize (length init) -> startable io mdl G (alg_model alg s1) init ->
  (forall p, generation p = 0 -> must (f ps p) (fun o => fst o = true)) ->
  must_fail (evolve_population io fexp mdl alg (quiet f) (S fuel) s init q ps) Panic.
Proof.
  intros Hc HJ Hl [HG Hv] Hf; unfold evolve_population; rewrite Hc; cbn [bind].
  eapply must_fail_bind_r; [apply (init_must io mdl 1 0 J G (le_n 1) Htot s1); auto|]; intros p [Hi Hg]; cbn [evolve_loop].
  eapply must_fail_bind_r; [apply (quiet_must f ps s1 p (fun c => c = true)); auto|].
  intros [[c ps'] s2] [Ec E]; cbn in Ec, E; subst.
  apply must_fail_bind_l; apply (step_panics io fexp mdl alg 1 0 J G); auto; apply one_fits.
Qed.
End OnePanics.

Section Ga.
Context {I : Type} (io : individual_ops I) (fexp : f64 -> f64) {MS : Type} (mdl : model I MS) {PS : Type}.
Notation GA := (ga_algorithm io fexp mdl).
Notation AGA := (aga_algorithm io fexp mdl).

(** ** C64 *)
Lemma ga_good (f : PS -> population I -> M (bool * PS)) fuel s init q ps r :
  selector_left_alone mdl -> valid_is_number io -> fits_usize (ga_population_size q) -> fits_usize (length init) ->
  may (evolve_population io fexp mdl GA (quiet f) fuel s init q ps) r ->
  good_trace io (ga_population_size q) (r_trace r).
Proof.
  intros Hl Hv Hf Hi H; pose proof H as H'; unfold evolve_population in H'; apply may_bind in H' as (s1 & Hc & _).
  destruct (ga_configured s q s1 Hf Hc) as (Hc' & e & He & HJ & _).
  destruct (@run_good _ io fexp _ mdl _ _ GA (ga_population_size q) e (ga_inv (ga_population_size q) e known) PS) with (f := f) (fuel := fuel) (s := s) (q := q) (s1 := s1) (init := init) (ps := ps) (r := r) as [R _]; auto.
  - intros s0 p s' H0 H1; exact (ga_prep io fexp mdl _ _ _ _ _ Hl H0 H1).
  - intros s0 (_ & <- & _); reflexivity.
  - intros s0 (<- & _); reflexivity.
  - intros s0 p (_ & _ & Hk) Hp Hfp; apply known_members; auto.
  - apply He.
Qed.
Lemma aga_good (f : PS -> population I -> M (bool * PS)) fuel s init q ps r :
  selector_left_alone mdl -> valid_is_number io -> fits_usize (aga_population_size q) -> fits_usize (length init) ->
  may (evolve_population io fexp mdl AGA (quiet f) fuel s init q ps) r ->
  good_trace io (aga_population_size q) (r_trace r).
Proof.
  intros Hl Hv Hf Hi H; pose proof H as H'; unfold evolve_population in H'; apply may_bind in H' as (s1 & Hc & _).
  destruct (aga_configured s q s1 Hf Hc) as (Hc' & e & He & HJ & _).
  destruct (@run_good _ io fexp _ mdl _ _ AGA (aga_population_size q) e (aga_inv (aga_population_size q) e known) PS) with (f := f) (fuel := fuel) (s := s) (q := q) (s1 := s1) (init := init) (ps := ps) (r := r) as [R _]; auto.
  - intros s0 p s' H0 H1; exact (aga_prep io fexp mdl _ _ _ _ _ Hl H0 H1).
  - intros s0 (_ & <- & _); reflexivity.
  - intros s0 (<- & _); reflexivity.
  - intros s0 p (_ & _ & Hk) Hp Hfp; apply known_members; auto.
  - apply He.
Qed.

(** ** C65 and C66 *)
Lemma ga_run_best (f : PS -> population I -> M (bool * PS)) fuel s nr q ps x r :
  selector_left_alone mdl -> valid_is_number io -> equal_means_equal_fitness io ->
  (Z.of_nat (ga_population_size q) <= 2 ^ 53)%Z -> (1 <= INR (ga_population_size q) * B2R (ga_elitism_rate q))%R ->
  may (evolution_run io fexp mdl GA (quiet f) fuel s nr q ps) (x, r) ->
  In x (individuals (r_population r)) /\
  forall p y, In p (r_trace r) -> In y (individuals p) -> fle (fitness io y) (fitness io x) = true.
Proof.
  intros Hl Hv Heq H53 H1 H; assert (Hf : fits_usize (ga_population_size q)) by (unfold fits_usize, usize_max; lia).
  pose proof H as H'; unfold evolution_run in H'; apply may_bind in H' as (init & _ & H'); apply may_bind in H' as (r' & H' & _).
  unfold evolve_population in H'; apply may_bind in H' as (s1 & Hc & _).
  destruct (ga_configured s q s1 Hf Hc) as (Hc' & e & He & HJ & _); pose proof (one_elite _ _ _ He H53 H1) as He1.
  destruct (@run_best _ io fexp _ mdl _ _ GA (ga_population_size q) e (ga_inv (ga_population_size q) e known) PS) with (f := f) (fuel := fuel) (s := s) (q := q) (s1 := s1) (nr := nr) (ps := ps) (x := x) (r := r) as [A B]; auto.
  - intros s0 p s' H2 H3; exact (ga_prep io fexp mdl _ _ _ _ _ Hl H2 H3).
  - intros s0 (_ & <- & _); reflexivity.
  - intros s0 (<- & _); reflexivity.
  - intros s0 p (_ & _ & Hk) Hp Hfp; apply known_members; auto.
  - apply He.
  - split; [exact A|exact (B He1 Heq)].
Qed.
Lemma aga_run_best (f : PS -> population I -> M (bool * PS)) fuel s nr q ps x r :
  selector_left_alone mdl -> valid_is_number io -> equal_means_equal_fitness io ->
  (Z.of_nat (aga_population_size q) <= 2 ^ 53)%Z -> (1 <= INR (aga_population_size q) * B2R (aga_elitism_rate q))%R ->
  may (evolution_run io fexp mdl AGA (quiet f) fuel s nr q ps) (x, r) ->
  In x (individuals (r_population r)) /\
  forall p y, In p (r_trace r) -> In y (individuals p) -> fle (fitness io y) (fitness io x) = true.
Proof.
  intros Hl Hv Heq H53 H1 H; assert (Hf : fits_usize (aga_population_size q)) by (unfold fits_usize, usize_max; lia).
  pose proof H as H'; unfold evolution_run in H'; apply may_bind in H' as (init & _ & H'); apply may_bind in H' as (r' & H' & _).
  unfold evolve_population in H'; apply may_bind in H' as (s1 & Hc & _).
  destruct (aga_configured s q s1 Hf Hc) as (Hc' & e & He & HJ & _); pose proof (one_elite _ _ _ He H53 H1) as He1.
  destruct (@run_best _ io fexp _ mdl _ _ AGA (aga_population_size q) e (aga_inv (aga_population_size q) e known) PS) with (f := f) (fuel := fuel) (s := s) (q := q) (s1 := s1) (nr := nr) (ps := ps) (x := x) (r := r) as [A B]; auto.
  - intros s0 p s' H2 H3; exact (aga_prep io fexp mdl _ _ _ _ _ Hl H2 H3).
  - intros s0 (_ & <- & _); reflexivity.
  - intros s0 (<- & _); reflexivity.
  - intros s0 p (_ & _ & Hk) Hp Hfp; apply known_members; auto.
  - apply He.
  - split; [exact A|exact (B He1 Heq)].
Qed.

Lemma ga_individual_best (f : PS -> population I -> M (bool * PS)) fuel s seed q ps x r :
  selector_left_alone mdl -> valid_is_number io -> equal_means_equal_fitness io ->
  (Z.of_nat (ga_population_size q) <= 2 ^ 53)%Z -> (1 <= INR (ga_population_size q) * B2R (ga_elitism_rate q))%R ->
  may (evolve_individual io fexp mdl GA (quiet f) fuel s seed q ps) (x, r) ->
  (forall p y, In p (r_trace r) -> In y (individuals p) -> fle (fitness io y) (fitness io x) = true) /\
  exists seed', may (m_evaluate mdl (ga_model s) seed) seed' /\
    (is_valid io seed' = true -> fle (fitness io seed') (fitness io x) = true).
Proof.
  intros Hl Hv Heq H53 H1 H; assert (Hf : fits_usize (ga_population_size q)) by (unfold fits_usize, usize_max; lia).
  pose proof H as H'; unfold evolve_individual in H'; apply may_bind in H' as (init & _ & H'); apply may_bind in H' as (r' & H' & _).
  unfold evolve_population in H'; apply may_bind in H' as (s1 & Hc & _).
  destruct (ga_configured s q s1 Hf Hc) as (Hc' & e & He & HJ & Hm & _); pose proof (one_elite _ _ _ He H53 H1) as He1.
  rewrite <- Hm.
  destruct (@individual_best _ io fexp _ mdl _ _ GA (ga_population_size q) e (ga_inv (ga_population_size q) e known) PS) with (f := f) (fuel := fuel) (s := s) (q := q) (s1 := s1) (seed := seed) (ps := ps) (x := x) (r := r) as [A B]; auto.
  - intros s0 p s' H2 H3; exact (ga_prep io fexp mdl _ _ _ _ _ Hl H2 H3).
  - intros s0 (_ & <- & _); reflexivity.
  - intros s0 (<- & _); reflexivity.
  - intros s0 p (_ & _ & Hk) Hp Hfp; apply known_members; auto.
  - apply He.
Qed.
Lemma aga_individual_best (f : PS -> population I -> M (bool * PS)) fuel s seed q ps x r :
  selector_left_alone mdl -> valid_is_number io -> equal_means_equal_fitness io ->
  (Z.of_nat (aga_population_size q) <= 2 ^ 53)%Z -> (1 <= INR (aga_population_size q) * B2R (aga_elitism_rate q))%R ->
  may (evolve_individual io fexp mdl AGA (quiet f) fuel s seed q ps) (x, r) ->
  (forall p y, In p (r_trace r) -> In y (individuals p) -> fle (fitness io y) (fitness io x) = true) /\
  exists seed', may (m_evaluate mdl (aga_model s) seed) seed' /\
    (is_valid io seed' = true -> fle (fitness io seed') (fitness io x) = true).
Proof.
  intros Hl Hv Heq H53 H1 H; assert (Hf : fits_usize (aga_population_size q)) by (unfold fits_usize, usize_max; lia).
  pose proof H as H'; unfold evolve_individual in H'; apply may_bind in H' as (init & _ & H'); apply may_bind in H' as (r' & H' & _).
  unfold evolve_population in H'; apply may_bind in H' as (s1 & Hc & _).
  destruct (aga_configured s q s1 Hf Hc) as (Hc' & e & He & HJ & Hm & _); pose proof (one_elite _ _ _ He H53 H1) as He1.
  rewrite <- Hm.
  destruct (@individual_best _ io fexp _ mdl _ _ AGA (aga_population_size q) e (aga_inv (aga_population_size q) e known) PS) with (f := f) (fuel := fuel) (s := s) (q := q) (s1 := s1) (seed := seed) (ps := ps) (x := x) (r := r) as [A B]; auto.
  - intros s0 p s' H2 H3; exact (aga_prep io fexp mdl _ _ _ _ _ Hl H2 H3).
  - intros s0 (_ & <- & _); reflexivity.
  - intros s0 (<- & _); reflexivity.
  - intros s0 p (_ & _ & Hk) Hp Hfp; apply known_members; auto.
  - apply He.
Qed.

(** ** C67 *)
Lemma ga_start (s : ga_state I MS) q : fits_usize (ga_population_size q) -> ga_accepted q -> robust_strategy (ga_selection_strategy q) ->
  exists e s1, e < ga_population_size q /\ ga_configure s q = Ret s1 /\ ga_inv (ga_population_size q) e safe_selector s1 /\ ga_model s1 = ga_model s.
Proof.
  intros Hf Ha Hr; destruct (ga_configure_ok s q Hf Ha) as (e & sel & He & Hs & Hc).
  exists e; eexists; split; [apply He|]; split; [exact Hc|]; split; auto; repeat split; auto; cbn; eapply created_safe; eauto.
Qed.
Lemma aga_start (s : aga_state I MS) q : fits_usize (aga_population_size q) -> aga_accepted q -> robust_strategy (aga_selection_strategy q) ->
  exists e s1, e < aga_population_size q /\ aga_configure s q = Ret s1 /\ aga_inv (aga_population_size q) e safe_selector s1 /\ aga_model s1 = aga_model s.
Proof.
  intros Hf Ha Hr; destruct (aga_configure_ok s q Hf Ha) as (e & sel & He & Hs & Hc).
  exists e; eexists; split; [apply He|]; split; [exact Hc|]; split; auto; repeat split; auto; cbn; eapply created_safe; eauto.
Qed.

Ltac instance Ht :=
  match goal with
  | |- forall s p, ga_inv _ _ _ s -> must _ _ => intros; eapply ga_prep_must; eauto
  | |- forall s p, aga_inv _ _ _ s -> must _ _ => intros; eapply aga_prep_must; eauto
  | |- forall s, _ -> _ = select_top _ => intros ? (_ & <- & _); reflexivity
  | |- forall s, _ -> snd _ = _ => intros ? (<- & _); reflexivity
  | |- forall s, _ -> steady _ _ _ => intros ? (_ & _ & ?); apply safe_steady; auto
  | _ => idtac
  end; auto.

Lemma ga_total (G : I -> Prop) (f : PS -> population I -> M (bool * PS)) s init q ps :
  ga_accepted q -> 2 <= ga_population_size q -> fits_usize (ga_population_size q) -> fits_usize (length init) ->
  robust_strategy (ga_selection_strategy q) -> total_model mdl G -> startable io mdl G (ga_model s) init ->
  (forall ps p, must (f ps p) (fun _ => True)) ->
  (forall fuel, ~ may_fail (evolve_population io fexp mdl GA (quiet f) fuel s init q ps) Panic) /\
  (forall n, (forall ps' p, generation p = n -> must (f ps' p) (fun o => fst o = false)) ->
     must (evolve_population io fexp mdl GA (quiet f) (S n) s init q ps) (fun r =>
       exists x, take_fittest (r_population r) = Ret x)).
Proof.
  intros Ha H2 Hf Hi Hr Ht Hs Hp; destruct (ga_start s q Hf Ha Hr) as (e & s1 & He & Hc & HJ & Hm).
  rewrite <- Hm in Hs; split.
  - intros fuel; eapply safe_no_panic, (total_safe io fexp mdl GA (ga_population_size q) e (ga_inv (ga_population_size q) e safe_selector) G) with (s1 := s1); instance Ht.
  - intros n Hn; apply (total_must io fexp mdl GA (ga_population_size q) e (ga_inv (ga_population_size q) e safe_selector) G) with (s1 := s1); instance Ht.
Qed.
Lemma aga_total (G : I -> Prop) (f : PS -> population I -> M (bool * PS)) s init q ps :
  aga_accepted q -> 2 <= aga_population_size q -> fits_usize (aga_population_size q) -> fits_usize (length init) ->
  robust_strategy (aga_selection_strategy q) -> total_model mdl G -> startable io mdl G (aga_model s) init ->
  (forall ps p, must (f ps p) (fun _ => True)) ->
  (forall fuel, ~ may_fail (evolve_population io fexp mdl AGA (quiet f) fuel s init q ps) Panic) /\
  (forall n, (forall ps' p, generation p = n -> must (f ps' p) (fun o => fst o = false)) ->
     must (evolve_population io fexp mdl AGA (quiet f) (S n) s init q ps) (fun r =>
       exists x, take_fittest (r_population r) = Ret x)).
Proof.
  intros Ha H2 Hf Hi Hr Ht Hs Hp; destruct (aga_start s q Hf Ha Hr) as (e & s1 & He & Hc & HJ & Hm).
  rewrite <- Hm in Hs; split.
  - intros fuel; eapply safe_no_panic, (total_safe io fexp mdl AGA (aga_population_size q) e (aga_inv (aga_population_size q) e safe_selector) G) with (s1 := s1); instance Ht.
  - intros n Hn; apply (total_must io fexp mdl AGA (aga_population_size q) e (aga_inv (aga_population_size q) e safe_selector) G) with (s1 := s1); instance Ht.
Qed.

Lemma ga_total_runs (G : I -> Prop) (f : PS -> population I -> M (bool * PS)) s nr seed q ps :
  ga_accepted q -> 2 <= ga_population_size q -> fits_usize (ga_population_size q) ->
  robust_strategy (ga_selection_strategy q) -> total_model mdl G ->
  (forall ps p, must (f ps p) (fun _ => True)) ->
  must nr (fun x => G x /\ must (m_evaluate mdl (ga_model s) x) (fun y => is_valid io y = true)) ->
  G seed /\ must (m_evaluate mdl (ga_model s) seed) (fun y => is_valid io y = true) ->
  (forall fuel, ~ may_fail (evolution_run io fexp mdl GA (quiet f) fuel s nr q ps) Panic /\
                ~ may_fail (evolve_individual io fexp mdl GA (quiet f) fuel s seed q ps) Panic) /\
  (forall n, (forall ps' p, generation p = n -> must (f ps' p) (fun o => fst o = false)) ->
     must (evolution_run io fexp mdl GA (quiet f) (S n) s nr q ps) (fun _ => True) /\
     must (evolve_individual io fexp mdl GA (quiet f) (S n) s seed q ps) (fun _ => True)).
Proof.
  intros Ha H2 Hf Hr Ht Hp Hnr Hse; destruct (ga_start s q Hf Ha Hr) as (e & s1 & He & Hc & HJ & Hm).
  rewrite <- Hm in Hnr, Hse; split.
  - intros fuel; split; eapply safe_no_panic.
    + apply (run_safe io fexp mdl GA (ga_population_size q) e (ga_inv (ga_population_size q) e safe_selector) G) with (s1 := s1); instance Ht.
    + apply (individual_safe io fexp mdl GA (ga_population_size q) e (ga_inv (ga_population_size q) e safe_selector) G) with (s1 := s1); instance Ht.
  - intros n Hn; split.
    + apply (run_must io fexp mdl GA (ga_population_size q) e (ga_inv (ga_population_size q) e safe_selector) G) with (s1 := s1); instance Ht.
    + apply (individual_must io fexp mdl GA (ga_population_size q) e (ga_inv (ga_population_size q) e safe_selector) G) with (s1 := s1); instance Ht.
Qed.
Lemma aga_total_runs (G : I -> Prop) (f : PS -> population I -> M (bool * PS)) s nr seed q ps :
  aga_accepted q -> 2 <= aga_population_size q -> fits_usize (aga_population_size q) ->
  robust_strategy (aga_selection_strategy q) -> total_model mdl G ->
  (forall ps p, must (f ps p) (fun _ => True)) ->
  must nr (fun x => G x /\ must (m_evaluate mdl (aga_model s) x) (fun y => is_valid io y = true)) ->
  G seed /\ must (m_evaluate mdl (aga_model s) seed) (fun y => is_valid io y = true) ->
  (forall fuel, ~ may_fail (evolution_run io fexp mdl AGA (quiet f) fuel s nr q ps) Panic /\
                ~ may_fail (evolve_individual io fexp mdl AGA (quiet f) fuel s seed q ps) Panic) /\
  (forall n, (forall ps' p, generation p = n -> must (f ps' p) (fun o => fst o = false)) ->
     must (evolution_run io fexp mdl AGA (quiet f) (S n) s nr q ps) (fun _ => True) /\
     must (evolve_individual io fexp mdl AGA (quiet f) (S n) s seed q ps) (fun _ => True)).
Proof.
  intros Ha H2 Hf Hr Ht Hp Hnr Hse; destruct (aga_start s q Hf Ha Hr) as (e & s1 & He & Hc & HJ & Hm).
  rewrite <- Hm in Hnr, Hse; split.
  - intros fuel; split; eapply safe_no_panic.
    + apply (run_safe io fexp mdl AGA (aga_population_size q) e (aga_inv (aga_population_size q) e safe_selector) G) with (s1 := s1); instance Ht.
    + apply (individual_safe io fexp mdl AGA (aga_population_size q) e (aga_inv (aga_population_size q) e safe_selector) G) with (s1 := s1); instance Ht.
  - intros n Hn; split.
    + apply (run_must io fexp mdl AGA (aga_population_size q) e (aga_inv (aga_population_size q) e safe_selector) G) with (s1 := s1); instance Ht.
    + apply (individual_must io fexp mdl AGA (aga_population_size q) e (aga_inv (aga_population_size q) e safe_selector) G) with (s1 := s1); instance Ht.
Qed.

(** ** C59 *)
Lemma ga_one_none (f : PS -> population I -> M (bool * PS)) fuel s init q ps r :
  ga_population_size q = 1 ->
  (forall ps' p, generation p = 0 -> ~ may (f ps p) (false, ps')) ->
  ~ may (evolve_population io fexp mdl GA (quiet f) fuel s init q ps) r.
Proof.
  intros H1 Hf H; pose proof H as H'; unfold evolve_population in H'; apply may_bind in H' as (s1 & Hc & _).
  pose proof one_fits as Hfit; rewrite <- H1 in Hfit; destruct (ga_configured s q s1 Hfit Hc) as (Hc' & e & [He _] & (A & B & _) & _).
  revert H; apply (no_run io fexp mdl GA (fun s => ga_size s = 1 /\ ga_elite_size s = 0)) with (s1 := s1); auto.
  - intros s0 p s' [E1 E2] H; cbn in H; unfold ga_prepare in H; apply may_bind in H as ([ms b] & _ & H); apply may_bind in H as (sel & _ & H).
    cbn in H; subst s'; auto.
  - intros s0 [_ E]; cbn; rewrite E; reflexivity.
  - intros s0 [E _]; exact E.
  - lia.
Qed.
Lemma aga_one_none (f : PS -> population I -> M (bool * PS)) fuel s init q ps r :
  aga_population_size q = 1 ->
  (forall ps' p, generation p = 0 -> ~ may (f ps p) (false, ps')) ->
  ~ may (evolve_population io fexp mdl AGA (quiet f) fuel s init q ps) r.
Proof.
  intros H1 Hf H; pose proof H as H'; unfold evolve_population in H'; apply may_bind in H' as (s1 & Hc & _).
  pose proof one_fits as Hfit; rewrite <- H1 in Hfit; destruct (aga_configured s q s1 Hfit Hc) as (Hc' & e & [He _] & (A & B & _) & _).
  revert H; apply (no_run io fexp mdl AGA (fun s => aga_size s = 1 /\ aga_elite_size s = 0)) with (s1 := s1); auto.
  - intros s0 p s' [E1 E2] H; destruct (aga_adjust s0 p) as [[ref cr] mr] eqn:E.
    destruct (aga_prepare_may io fexp mdl s0 p s' H _ _ _ E) as (ms & b & sel & _ & _ & ->); auto.
  - intros s0 [_ E]; cbn; rewrite E; reflexivity.
  - intros s0 [E _]; exact E.
  - lia.
Qed.

Lemma ga_one_panics (G : I -> Prop) (f : PS -> population I -> M (bool * PS)) fuel s init q ps :
  ga_accepted q -> ga_population_size q = 1 -> fits_usize (length init) ->
  robust_strategy (ga_selection_strategy q) -> total_model mdl G -> startable io mdl G (ga_model s) init ->
  (forall p, generation p = 0 -> must (f ps p) (fun o => fst o = true)) ->
  must_fail (evolve_population io fexp mdl GA (quiet f) (S fuel) s init q ps) Panic.
Proof.
  intros Ha H1 Hi Hr Ht Hs Hf; pose proof one_fits as Hfit; rewrite <- H1 in Hfit.
  destruct (ga_start s q Hfit Ha Hr) as (e & s1 & He & Hc & HJ & Hm); rewrite <- Hm in Hs.
  rewrite H1 in *; assert (e = 0) by lia; subst e.
  apply (one_panics io fexp mdl GA (ga_inv 1 0 safe_selector) G) with (s1 := s1); instance Ht.
Qed.
Lemma aga_one_panics (G : I -> Prop) (f : PS -> population I -> M (bool * PS)) fuel s init q ps :
  aga_accepted q -> aga_population_size q = 1 -> fits_usize (length init) ->
  robust_strategy (aga_selection_strategy q) -> total_model mdl G -> startable io mdl G (aga_model s) init ->
  (forall p, generation p = 0 -> must (f ps p) (fun o => fst o = true)) ->
  must_fail (evolve_population io fexp mdl AGA (quiet f) (S fuel) s init q ps) Panic.
Proof.
  intros Ha H1 Hi Hr Ht Hs Hf; pose proof one_fits as Hfit; rewrite <- H1 in Hfit.
  destruct (aga_start s q Hfit Ha Hr) as (e & s1 & He & Hc & HJ & Hm); rewrite <- Hm in Hs.
  rewrite H1 in *; assert (e = 0) by lia; subst e.
  apply (one_panics io fexp mdl AGA (aga_inv 1 0 safe_selector) G) with (s1 := s1); instance Ht.
Qed.

(** ** C62 *)
Lemma ga_independent (progress : PS -> ga_state I MS -> population I -> M (bool * PS * ga_state I MS)) fuel s s' init nr seed q ps :
  ga_model s = ga_model s' ->
  evolve_population io fexp mdl GA progress fuel s init q ps = evolve_population io fexp mdl GA progress fuel s' init q ps /\
  evolution_run io fexp mdl GA progress fuel s nr q ps = evolution_run io fexp mdl GA progress fuel s' nr q ps /\
  evolve_individual io fexp mdl GA progress fuel s seed q ps = evolve_individual io fexp mdl GA progress fuel s' seed q ps.
Proof.
  intros E; assert (Hc : forall q0, ga_configure s q0 = ga_configure s' q0) by (intros q0; unfold ga_configure; rewrite E; reflexivity).
  unfold evolution_run, evolve_individual, evolve_population; cbn [ga_algorithm alg_configure alg_model]; rewrite E, Hc; auto.
Qed.

Definition alike (s s' : aga_state I MS) : Prop :=
  aga_model s = aga_model s' /\ aga_size s = aga_size s' /\ aga_elite_size s = aga_elite_size s' /\ aga_interval s = aga_interval s' /\
  aga_crossover_range s = aga_crossover_range s' /\ aga_mutation_range s = aga_mutation_range s' /\
  parent_selector (aga_breeding s) = parent_selector (aga_breeding s').

Lemma alike_prepare s s' p : alike s s' -> generation p = 0 -> aga_prepare io fexp mdl s p = aga_prepare io fexp mdl s' p.
Proof.
  intros (E1 & E2 & E3 & E4 & E5 & E6 & E7) Hg; unfold aga_prepare, aga_adjust; rewrite Hg, E1, E2, E3, E4, E5, E6, E7; reflexivity.
Qed.

Lemma alike_configure s s' q : aga_model s = aga_model s' ->
  (exists s1 s1', aga_configure s q = Ret s1 /\ aga_configure s' q = Ret s1' /\ alike s1 s1') \/
  (exists e, aga_configure s q = Fail e /\ aga_configure s' q = Fail e).
Proof.
  intros E; unfold aga_configure.
  assert (Hv : aga_validate q = Ret tt \/ aga_validate q = Fail Panic).
  { unfold aga_validate, massert; repeat (match goal with |- context [if ?b then _ else _] => destruct b end; cbn [bind]; auto). }
  destruct Hv as [->| ->]; cbn [bind]; [|right; eauto].
  destruct (interpolate_usize _ _ _) as [el|er|? ?|? ?] eqn:Ei; cbn [bind].
  2: right; eauto.
  2,3: unfold interpolate_usize, massert in Ei; destruct (_ <=? _); discriminate.
  destruct (strategy_dec I (aga_selection_strategy q)) as [(A & B)|(_ & A)]; [|right; exists Panic; rewrite A; auto].
  destruct (create_selector (aga_selection_strategy q)) as [sel|er|? ?|? ?] eqn:Es; try (destruct A; fail).
  all: try (destruct B as [sel' B]; discriminate).
  cbn [bind]; left; do 2 eexists; split; [reflexivity|]; split; [reflexivity|]; repeat split; cbn; auto.
Qed.

(** Two runs whose observations behave alike can be continued alike. *)
Lemma same_observed_bind {B} (m m' : M (run_result I (aga_state I MS) PS)) (k k' : run_result I (aga_state I MS) PS -> M B) :
  same_behaviour (observed m) (observed m') -> (forall r r', observe r = observe r' -> same_behaviour (k r) (k' r')) ->
  same_behaviour (bind m k) (bind m' k').
Proof.
  unfold observed; revert m'; induction m as [a|e|n g IH|n g IH]; intros [a'|e'|n' g'|n' g'] H Hk; cbn in *; try tauto; auto.
  - destruct H as [<- H]; split; auto.
  - destruct H as [<- H]; split; auto.
Qed.
Lemma same_observed_under {A} (m : M A) (k k' : A -> M (run_result I (aga_state I MS) PS)) :
  (forall a, may m a -> same_behaviour (observed (k a)) (observed (k' a))) ->
  same_behaviour (observed (bind m k)) (observed (bind m k')).
Proof.
  unfold observed; induction m as [a|e|n g IH|n g IH]; intros H; cbn; auto; [apply H; cbn; auto| |];
  split; auto; intros i Hi; apply IH; intros a Ha; apply H; cbn; eauto.
Qed.
Lemma same_assoc {A B C} (m : M A) (f : A -> M B) (g : B -> M C) :
  same_behaviour (bind (bind m f) g) (bind m (fun a => bind (f a) g)).
Proof. induction m; cbn; auto; apply same_refl. Qed.

Lemma aga_independent (f : PS -> population I -> M (bool * PS)) fuel s s' init q ps :
  aga_model s = aga_model s' ->
  same_behaviour (observed (evolve_population io fexp mdl AGA (quiet f) fuel s init q ps))
                 (observed (evolve_population io fexp mdl AGA (quiet f) fuel s' init q ps)).
Proof.
  intros E; unfold evolve_population; cbn [aga_algorithm alg_configure alg_model].
  destruct (alike_configure s s' q E) as [(s1 & s1' & -> & -> & Hal)|(e & -> & ->)]; [|reflexivity]; cbn [bind].
  pose proof Hal as (Em & _); rewrite Em; apply same_observed_under; intros p Hp; apply init_generation in Hp.
  destruct fuel as [|fuel]; [reflexivity|]; cbn [evolve_loop]; unfold quiet at 1 3.
  assert (Hstep : evolve_step io fexp mdl AGA s1 p = evolve_step io fexp mdl AGA s1' p).
  { unfold evolve_step; change (alg_prepare AGA s1 p) with (aga_prepare io fexp mdl s1 p); rewrite (alike_prepare s1 s1' p Hal Hp); reflexivity. }
  unfold observed; clear Hp; induction (f ps p) as [[c ps']|e|n g IH|n g IH]; cbn [bind same_behaviour]; auto.
  destruct c; [rewrite Hstep; apply same_refl|reflexivity].
Qed.

Lemma aga_independent_runs (f : PS -> population I -> M (bool * PS)) fuel s s' nr seed q ps :
  aga_model s = aga_model s' ->
  same_behaviour (observed_pair (evolution_run io fexp mdl AGA (quiet f) fuel s nr q ps))
                 (observed_pair (evolution_run io fexp mdl AGA (quiet f) fuel s' nr q ps)) /\
  same_behaviour (observed_pair (evolve_individual io fexp mdl AGA (quiet f) fuel s seed q ps))
                 (observed_pair (evolve_individual io fexp mdl AGA (quiet f) fuel s' seed q ps)).
Proof.
  intros E.
  assert (K : forall m0 : M (list I),
    same_behaviour (observed_pair (init <- m0 ;; r <- evolve_population io fexp mdl AGA (quiet f) fuel s init q ps ;; x <- take_fittest (r_population r) ;; Ret (x, r)))
      (observed_pair (init <- m0 ;; r <- evolve_population io fexp mdl AGA (quiet f) fuel s' init q ps ;; x <- take_fittest (r_population r) ;; Ret (x, r)))).
  { intros m0; unfold observed_pair; eapply same_trans; [apply same_assoc|]; eapply same_trans; [|apply same_sym, same_assoc].
    apply same_bind_r; intros init _; eapply same_trans; [apply same_assoc|]; eapply same_trans; [|apply same_sym, same_assoc].
    apply same_observed_bind; [apply aga_independent; auto|]; intros r r' Hr; pose proof Hr as Hr'; injection Hr' as Hr' _ _; rewrite Hr'.
    eapply same_trans; [apply same_assoc|]; eapply same_trans; [|apply same_sym, same_assoc].
    apply same_bind_r; intros x _; cbn [bind fst snd]; rewrite Hr; reflexivity. }
  split; [apply K|]; unfold evolve_individual; cbn [aga_algorithm alg_model]; rewrite E; apply K.
Qed.
End Ga.
