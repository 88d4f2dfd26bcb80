(** * PTour: searching for tours with the permutation operators (C109). *)
From Coq Require Import List Bool Arith NArith ZArith Reals Lia Lra Permutation Factorial.
From Flocq Require Import Core BinarySingleNaN.
From Verif Require Import Rnd LRnd Prob LProb F64 LF64 MStats MOperators MCrossover MMutation MPopulation MSelection MModel MAlgorithms
  Spec SpecF SpecA SpecB SpecK SpecR SpecL SpecT POperatorsRandom PMutation PMutationProb PShuffle PCrossoverAll
  PSelection PPopulation PModel PAlgorithms PAlgorithms2 PRun PRun3 PRun4 PBreed PConv PConv3 PConv4 PConv5 PConv6.
Import ListNotations.
Local Open Scope nat_scope.

(** ** Local optima *)
Section Local.
Context {I : Type} (io : individual_ops I) (fexp : f64 -> f64) {MS : Type} (mdl : model I MS) (x0 : I).
Hypothesis Hx : local_optimum io mdl x0.

Lemma breed_local ms p b x : only_members io fexp (parent_selector b) p ->
  (forall y, In y (individuals p) -> y = x0) -> may (breed io fexp mdl ms p b) x -> x = x0.
Proof.
  destruct Hx as [Hr Hv]; intros Hs Hp H; apply breed_iff in H as (i & a & second & Ha & H2 & H).
  apply Hs in Ha; cbn [snd] in Ha; apply Hp in Ha; subst a.
  destruct second as [c|].
  { destruct H2 as (_ & _ & Ne & j & Hc); apply Hs in Hc; cbn [snd] in Hc; apply Hp in Hc; subst c; congruence. }
  destruct H as (child & mutant & improved & y & f & -> & Hm & Hi & He & -> & H).
  destruct H as [(-> & Vy & Sy)|(-> & _)]; auto.
  assert (Hm' : mutant = x0 \/ may (m_mutate mdl ms x0) mutant) by (destruct Hm as [[_ Hm]|[_ Hm]]; auto).
  destruct (Hv ms mutant improved y Hm' Hi He) as [E|[E|E]]; auto; [congruence|exfalso; eapply E; eauto].
Qed.

Context {P S0 : Type} (alg : algorithm I MS P S0) (n e : nat) (J : S0 -> Prop) {PS : Type}.
Hypothesis Jprep : forall s p s', J s -> may (alg_prepare alg s p) s' -> J s'.
Hypothesis Jel : forall s, J s -> alg_select_elites alg s = select_top e.
Hypothesis Jrep : forall s, J s -> snd (alg_reproduction_parameters alg s) = n.
Hypothesis Jsel : forall s p, J s -> individuals p <> [] -> fits_usize (length (individuals p)) ->
  only_members io fexp (parent_selector (fst (alg_reproduction_parameters alg s))) p.
Hypothesis Hen : e < n.
Hypothesis Hn : fits_usize n.

Definition only_x0 (s : S0) (p : population I) : Prop :=
  J s /\ individuals p <> [] /\ fits_usize (length (individuals p)) /\ forall x, In x (individuals p) -> x = x0.

Lemma step_local s p s' p' : only_x0 s p -> may (evolve_step io fexp mdl alg s p) (s', p') -> only_x0 s' p' /\ True.
Proof.
  intros (HJ & Hpne & Hf & Hg) H; apply step_may in H as (el & off & H1 & H2 & H3 & H4 & Hne).
  pose proof (Jprep _ _ _ HJ H1) as HJ'; rewrite (Jel s' HJ') in H2.
  destruct (select_top_spec e p []) as (rest & top & Ei & Et & Es); rewrite Es in H2; cbn in H2; subst el.
  destruct (alg_reproduction_parameters alg s') as [b n'] eqn:Er; pose proof (Jrep s' HJ') as En; rewrite Er in En; cbn [snd] in En; subst n'.
  apply generate_may in H3 as (news & Eo & El & Hb).
  destruct (must_may _ _ _ (replace_must io p off Hne) H4) as (Hm & _ & _ & _); cbn [fst] in Hm.
  destruct Hm as (M1 & (M2 & _) & _ & M4 & _).
  split; [|exact Logic.I]; split; [auto|]; split; [auto|]; split.
  - rewrite Eo, app_length, El in M4; unfold appended, fits_usize in *; destruct (_ =? 1); lia.
  - intros x Hin; apply M2 in Hin; rewrite Eo in Hin; apply in_app_or in Hin as [Hin|Hin]; [apply Hg; rewrite Ei; apply in_or_app; auto|].
    apply Hb in Hin; eapply breed_local; [| |exact Hin]; auto.
    pose proof (Jsel s' p HJ' Hpne Hf) as Hs; rewrite Er in Hs; exact Hs.
Qed.

Lemma init_local s ms init p : J s -> fits_usize (length init) -> (forall x y, In x init -> may (m_evaluate mdl ms x) y -> y = x0) ->
  may (initialize_population io mdl ms init) p -> only_x0 s p.
Proof.
  intros HJ Hf Hr H; unfold initialize_population in H; apply may_bind in H as (ev & Hev & H).
  assert (Hne : filter (is_valid io) ev <> []) by (intros E; rewrite E in H; eapply must_fail_no_may; [apply (new_empty io)|exact H]).
  assert (HF : length ev = length init /\ Forall (fun y => y = x0) ev).
  { clear - Hev Hr; revert ev Hev; induction init as [|a l IH]; intros ev Hev; cbn [mapM] in Hev; [cbn in Hev; subst; auto|].
    apply may_bind in Hev as (b & Hb & Hev); apply may_bind in Hev as (bs & Hbs & Hev); cbn in Hev; subst.
    destruct (IH ltac:(intros x y Hin; apply Hr; right; exact Hin) _ Hbs) as [A B]; cbn; split; auto; constructor; auto.
    eapply Hr; [left; reflexivity|exact Hb]. }
  destruct HF as [Hlen HF]; rewrite Forall_forall in HF.
  destruct (must_may _ _ _ (new_must io _ Hne) H) as (Hm & _); destruct Hm as (M1 & (M2 & _) & _ & M4 & _).
  split; [auto|]; split; [auto|]; split.
  - assert (length (filter (is_valid io) ev) <= length ev).
    { clear; induction ev as [|a l IH]; cbn; auto; destruct (is_valid io a); cbn; lia. }
    unfold fits_usize in *; lia.
  - intros x Hin; apply M2, filter_In in Hin; apply HF; tauto.
Qed.

Lemma run_local (f : PS -> population I -> M (bool * PS)) fuel s q s1 init ps r :
  alg_configure alg s q = Ret s1 -> J s1 -> fits_usize (length init) -> (forall ms x y, In x init -> may (m_evaluate mdl ms x) y -> y = x0) ->
  may (evolve_population io fexp mdl alg (quiet f) fuel s init q ps) r ->
  forall p x, In p (r_trace r) -> In x (individuals p) -> x = x0.
Proof.
  intros Hc HJ Hf Hr H; unfold evolve_population in H; rewrite Hc in H; cbn [bind] in H; apply may_bind in H as (p0 & Hp & H).
  pose proof (init_local s1 _ _ p0 HJ Hf (Hr _) Hp) as Hi.
  destruct (loop_inv io fexp mdl alg f only_x0 (fun _ _ => True) fuel step_local _ _ _ _ _ Hi H) as (t & Et & A & _ & _).
  cbn [app] in Et; intros p x Hin Hxp; rewrite Et in Hin; apply In_nth_error in Hin as [k Hk'].
  destruct (A k p Hk') as (s' & _ & _ & _ & Hg); auto.
Qed.
End Local.

Section Instances.
Context {I : Type} (io : individual_ops I) (fexp : f64 -> f64) {MS : Type} (mdl : model I MS) {PS : Type}.
Notation GA := (ga_algorithm io fexp mdl).
Notation AGA := (aga_algorithm io fexp mdl).

Lemma ga_local x0 (f : PS -> population I -> M (bool * PS)) fuel s init q ps r :
  local_optimum io mdl x0 -> selector_left_alone mdl -> fits_usize (ga_population_size q) -> fits_usize (length init) ->
  (forall ms x y, In x init -> may (m_evaluate mdl ms x) y -> y = x0) ->
  may (evolve_population io fexp mdl GA (quiet f) fuel s init q ps) r ->
  forall p x, In p (r_trace r) -> In x (individuals p) -> x = x0.
Proof.
  intros Hk Hl Hf Hi Hr H; pose proof H as H'; unfold evolve_population in H'; apply may_bind in H' as (s1 & Hc & _).
  destruct (ga_configured s q s1 Hf Hc) as (Hc' & e & He & HJ & _).
  apply (run_local io fexp mdl x0 Hk GA (ga_population_size q) e (ga_inv (ga_population_size q) e known)) with (f := f) (fuel := fuel) (s := s) (q := q) (s1 := s1) (init := init) (ps := ps); auto.
  - intros s0 p s' H0 H1; exact (ga_prep io fexp mdl _ _ _ _ _ Hl H0 H1).
  - intros s0 (_ & <- & _); reflexivity.
  - intros s0 (<- & _); reflexivity.
  - intros s0 p (_ & _ & Hk') Hp Hfp; apply known_members; auto.
  - apply He.
Qed.
Lemma aga_local x0 (f : PS -> population I -> M (bool * PS)) fuel s init q ps r :
  local_optimum io mdl x0 -> selector_left_alone mdl -> fits_usize (aga_population_size q) -> fits_usize (length init) ->
  (forall ms x y, In x init -> may (m_evaluate mdl ms x) y -> y = x0) ->
  may (evolve_population io fexp mdl AGA (quiet f) fuel s init q ps) r ->
  forall p x, In p (r_trace r) -> In x (individuals p) -> x = x0.
Proof.
  intros Hk Hl Hf Hi Hr H; pose proof H as H'; unfold evolve_population in H'; apply may_bind in H' as (s1 & Hc & _).
  destruct (aga_configured s q s1 Hf Hc) as (Hc' & e & He & HJ & _).
  apply (run_local io fexp mdl x0 Hk AGA (aga_population_size q) e (aga_inv (aga_population_size q) e known)) with (f := f) (fuel := fuel) (s := s) (q := q) (s1 := s1) (init := init) (ps := ps); auto.
  - intros s0 p s' H0 H1; exact (aga_prep io fexp mdl _ _ _ _ _ Hl H0 H1).
  - intros s0 (_ & <- & _); reflexivity.
  - intros s0 (<- & _); reflexivity.
  - intros s0 p (_ & _ & Hk') Hp Hfp; apply known_members; auto.
  - apply He.
Qed.

Lemma until_ends {P S0} (alg : algorithm I MS P S0) (goal : I -> bool) fuel : forall s p (ps : PS) tr r,
  may (evolve_loop io fexp mdl alg (quiet (until goal)) fuel s p ps tr) r ->
  existsb goal (individuals (r_population r)) = true /\ In (r_population r) (r_trace r).
Proof.
  induction fuel as [|n IH]; intros s p ps tr r H; [destruct H|]; cbn [evolve_loop] in H.
  apply may_bind in H as ([[c ps'] s1] & Hp & H); cbn in Hp; injection Hp as Ec _ _.
  destruct c.
  - apply may_bind in H as ([s' p'] & _ & H); eapply IH; exact H.
  - cbn in H; subst r; cbn [r_population r_trace]; split; [destruct (existsb goal (individuals p)); [reflexivity|discriminate]|].
    apply in_or_app; right; left; reflexivity.
Qed.
End Instances.

(** ** Scrambling finds any tour *)
Section Tours.
Context {G : Type} (eqb ltb : G -> G -> bool) (Heq : eq_ok eqb).

Lemma route_eqb_spec a b : route_eqb eqb a b = true <-> a = b.
Proof.
  revert b; induction a as [|x a IH]; intros [|y b]; cbn; split; try discriminate; auto.
  - intros H; apply andb_prop in H as [H1 H2]; apply Heq in H1; apply IH in H2; congruence.
  - intros [= -> ->]; rewrite (proj2 (Heq y y) eq_refl); cbn; apply IH; reflexivity.
Qed.

Definition scramble_rate (n : nat) : R := (/ (INR (n - 1) * INR (fact n)))%R.

Lemma scramble_rate_pos n : 2 <= n -> (0 < scramble_rate n)%R.
Proof. intros H; unfold scramble_rate; apply Rinv_0_lt_compat, Rmult_lt_0_compat; apply lt_0_INR; [lia|apply lt_O_fact]. Qed.

Lemma scramble_prob l r : NoDup l -> Permutation l r -> 2 <= length l ->
  (scramble_rate (length l) <= prob (scramble_mutation l) (fun x => route_eqb eqb x r))%R.
Proof.
  intros HN HP H2; set (n := length l) in *; unfold scramble_mutation; fold n; rewrite (proj2 (Nat.ltb_ge n 2)) by lia.
  assert (Hs : prob (shuffle l) (fun x => route_eqb eqb x r) = (/ INR (fact n))%R) by (apply (shuffle_law l r); auto; intros x; apply route_eqb_spec).
  assert (Hf : (1 <= INR (fact n))%R) by (apply (le_INR 1); pose proof (lt_O_fact n); lia).
  assert (Hi : (0 < / INR (fact n) <= 1)%R) by (split; [apply Rinv_0_lt_compat; lra|rewrite <- Rinv_1; apply Rinv_le_contravar; lra]).
  apply Rle_trans with (/ INR (fact n) * prob (bounded_random_range n 2 n) (fun q => Nat.eqb (fst q) 0 && Nat.eqb (snd q) (0 + n)))%R.
  - rewrite bounded_random_range_prob by lia; unfold scramble_rate; rewrite Nat.sub_diag; replace (n - 2 + 1) with (n - 1) by lia.
    assert (0 < INR (n - 1))%R by (apply lt_0_INR; lia); cbn [Nat.add INR]; rewrite Rmult_1_r, Rinv_mult; lra.
  - apply prob_bind_low; [lra|]; intros [a b] _ E; cbn [fst snd] in E; apply andb_prop in E as [E1 E2]; apply Nat.eqb_eq in E1, E2; subst a b; cbn [Nat.add].
    rewrite slice_ok by (auto; lia); cbn [bind]; rewrite Nat.sub_0_r; cbn [skipn]; unfold n; rewrite firstn_all; fold n.
    rewrite <- Hs; rewrite <- (Rmult_1_l (prob (shuffle l) _)); apply prob_bind_low; [lra|].
    intros x Hx E; assert (Lx : length x = n).
    { apply route_eqb_spec in E; subst x; symmetry; apply Permutation_length; exact HP. }
    rewrite copy_range_ok by (unfold n in *; lia); cbn [prob firstn app]; unfold n; rewrite skipn_all, app_nil_r, E; lra.
Qed.

Context (steps : nat) (cs : crossover_strategy) (score : list G -> f64) (cities : list G).
Hypothesis (Hcs : cs <> SinglePoint) (HN : NoDup cities) (Hsteps : length cities < steps).

Definition on_cities (x : tour G) : Prop := Permutation cities (route x).
Definition scored_tour (x : tour G) : Prop := on_cities x /\ tour_fitness x = score (route x).

Lemma tour_total mu : mu <> Duplicate -> cities <> [] -> total_model (tour_model eqb ltb steps cs mu score) on_cities.
Proof.
  intros Hmu Hne; split; [|split; [|split; [|split; [|split]]]].
  - intros ms a b Ha Hb; cbn [tour_model m_crossover]; eapply must_bind_intro.
    + apply (crossover_perm eqb ltb Heq steps cs (route a) (route b)); auto.
      * eapply Permutation_NoDup; eauto.
      * transitivity cities; [apply Permutation_sym|]; auto.
      * intros E; unfold on_cities in Ha; rewrite E in Ha; apply Permutation_sym, Permutation_nil in Ha; contradiction.
      * rewrite <- (Permutation_length Ha); auto.
    + intros r Hr; cbn; unfold on_cities in *; cbn; transitivity (route a); auto.
  - intros ms a Ha; cbn [tour_model m_mutate]; eapply must_bind_intro; [apply mutate_perm_length; exact Hmu|].
    intros r [Hr _]; cbn; unfold on_cities in *; cbn; transitivity (route a); auto.
  - intros ms a Ha; exact Ha.
  - intros ms a Ha; exact Ha.
  - intros ms a b p _ _; exact Logic.I.
  - intros ms p b; reflexivity.
Qed.

Lemma tour_keeps mu : mu <> Duplicate -> cities <> [] -> keeps (tour_model eqb ltb steps cs mu score) on_cities scored_tour.
Proof.
  intros Hmu Hne; destruct (tour_total mu Hmu Hne) as (T1 & T2 & _); split; [|split; [|split; [|split]]].
  - intros x [H _]; exact H.
  - intros ms a b x [Ha _] [Hb _] H; exact (must_may _ _ _ (T1 ms a b Ha Hb) H).
  - intros ms a x Ha H; exact (must_may _ _ _ (T2 ms a Ha) H).
  - intros ms a x Ha H; cbn in H; subst; exact Ha.
  - intros ms a x Ha H; cbn in H; subst; split; [exact Ha|reflexivity].
Qed.

Lemma tour_number : valid_is_number (tour_ops eqb).
Proof. intros x H; cbn in *; unfold default_is_valid in H; destruct (tour_fitness x); cbn in *; auto; discriminate. Qed.
Lemma tour_equal : equal_means_equal_fitness (tour_ops eqb).
Proof. intros x y H; cbn in *; apply andb_prop in H as [_ H]; exact H. Qed.

Variables (best : list G) (target : f64).
Hypothesis (Hbest : Permutation cities best) (Hfin : is_finite (score best) = true) (Htop : fle target (score best) = true).

Definition tour_level (x : tour G) : nat := if reaches target x then 1 else 0.

Lemma tour_ladder : 2 <= length cities ->
  ladder (tour_ops eqb) (tour_model eqb ltb steps cs Scramble score) scored_tour (reaches target) tour_level 0 1 (scramble_rate (length cities)).
Proof.
  intros H2; split; [|split].
  - intros x y _ _ Hle; unfold tour_level, reaches; destruct (fge (tour_fitness x) target) eqn:E; [|lia].
    change (fle target (tour_fitness x) = true) in E; cbn in Hle; change (fge (tour_fitness y) target) with (fle target (tour_fitness y)); rewrite (fle_trans _ _ _ E Hle); lia.
  - intros x _; unfold tour_level; destruct (reaches target x); split; auto; lia.
  - intros [] x [Hx _] _ Hlv; rewrite (Permutation_length Hx).
    eapply Rle_trans; [apply (scramble_prob (route x) best)|].
    + eapply Permutation_NoDup; eauto.
    + transitivity cities; auto; apply Permutation_sym; auto.
    + rewrite <- (Permutation_length Hx); auto.
    + unfold variant; cbn [tour_model m_mutate m_improve m_evaluate mutate]; rewrite prob_assoc.
      rewrite <- (Rmult_1_l (prob (scramble_mutation (route x)) _)); apply prob_bind_low; [lra|].
      intros r _ Er; apply route_eqb_spec in Er; subst r; cbn [bind default_improve prob route].
      assert (El : tour_level x = 0) by lia; rewrite El.
      assert (V : is_valid (tour_ops eqb) (mkTour best (score best)) = true).
      { cbn; unfold default_is_valid; cbn; destruct (score best); cbn in *; auto; discriminate. }
      assert (L : tour_level (mkTour best (score best)) = 1).
      { unfold tour_level, reaches; cbn [tour_fitness]; change (fge (score best) target) with (fle target (score best)); rewrite Htop; reflexivity. }
      rewrite V, L; cbn; lra.
Qed.

Lemma tour_conv {PS} fexp q g (s : ga_state (tour G) unit) init (ps : PS) : 2 <= length cities ->
  ga_accepted q -> explores q -> (1 <= INR (ga_population_size q) * B2R (ga_elitism_rate q))%R ->
  rank_based (ga_selection_strategy q) -> robust_strategy (ga_selection_strategy q) ->
  (Z.of_nat (length init) <= 2 ^ 20)%Z ->
  (forall x, In x init -> Permutation cities (route x)) -> (exists x, In x init /\ is_finite (score (route x)) = true) ->
  (1 - generations (Nat.max (ga_population_size q) (length init)) q 1 (scramble_rate (length cities)) / INR (S g) <=
   prob (evolve_population (tour_ops eqb) fexp (tour_model eqb ltb steps cs Scramble score)
     (ga_algorithm (tour_ops eqb) fexp (tour_model eqb ltb steps cs Scramble score)) (quiet (until (reaches target))) (S g) s init q ps)
     (fun r => existsb (reaches target) (individuals (r_population r))))%R.
Proof.
  intros H2 Ha He H1 Hr Hb Hi Hin (x & Hx & Fx).
  assert (Hne : cities <> []) by (intros E; rewrite E in H2; cbn in H2; lia).
  apply (ga_rank_conv (tour_ops eqb) fexp (tour_model eqb ltb steps cs Scramble score) on_cities scored_tour (reaches target) tour_level 0 1); auto.
  - apply tour_number.
  - apply tour_equal.
  - apply tour_total; [discriminate|auto].
  - apply tour_keeps; [discriminate|auto].
  - intros ms p b ms' b' [= <- <-]; auto.
  - intros ms y z p; reflexivity.
  - apply tour_ladder; auto.
  - apply scramble_rate_pos; auto.
  - split; [apply Forall_forall; auto|]; exists x; split; auto; cbn; split; [|lia].
    unfold default_is_valid; cbn; destruct (score (route x)); cbn in *; auto; discriminate.
Qed.
End Tours.

Lemma tour_certain {G} (eqb ltb : G -> G -> bool) (steps : nat) (cs : crossover_strategy) (score : list G -> f64) (cities best : list G) (target : f64)
  {PS} fexp q (s : ga_state (tour G) unit) init (ps : PS) :
  eq_ok eqb -> cs <> SinglePoint -> NoDup cities -> 2 <= length cities < steps ->
  Permutation cities best -> is_finite (score best) = true -> fle target (score best) = true ->
  ga_accepted q -> explores q -> (1 <= INR (ga_population_size q) * B2R (ga_elitism_rate q))%R ->
  rank_based (ga_selection_strategy q) -> robust_strategy (ga_selection_strategy q) ->
  (Z.of_nat (length init) <= 2 ^ 20)%Z ->
  (forall x, In x init -> Permutation cities (route x)) -> (exists x, In x init /\ is_finite (score (route x)) = true) ->
  forall eta, (0 < eta)%R -> exists fuel0, forall fuel, fuel0 <= fuel ->
  (1 - eta <= prob (evolve_population (tour_ops eqb) fexp (tour_model eqb ltb steps cs Scramble score)
     (ga_algorithm (tour_ops eqb) fexp (tour_model eqb ltb steps cs Scramble score)) (quiet (until (reaches target))) fuel s init q ps)
     (fun r => existsb (reaches target) (individuals (r_population r))))%R.
Proof.
  intros Heq Hcs HN [H2 Hst] Hb Hf Ht Ha He H1 Hr Hro Hi Hin (x & Hx & Fx).
  assert (Hne : cities <> []) by (intros E; rewrite E in H2; cbn in H2; lia).
  apply (ga_rank_certain (tour_ops eqb) fexp (tour_model eqb ltb steps cs Scramble score) (on_cities cities) (scored_tour score cities) (reaches target)
           (tour_level target) 0 1 (scramble_rate (length cities))); auto.
  - apply tour_number.
  - apply tour_equal.
  - apply tour_total; auto; discriminate.
  - apply tour_keeps; auto; discriminate.
  - intros ms p b ms' b' [= <- <-]; auto.
  - intros ms y z p; reflexivity.
  - apply (tour_ladder eqb ltb Heq steps cs score cities HN Hst best); auto.
  - apply scramble_rate_pos; auto.
  - split; [apply Forall_forall; auto|]; exists x; split; auto; cbn; split; [|lia].
    unfold default_is_valid; cbn; destruct (score (route x)); cbn in *; auto; discriminate.
Qed.

Lemma tour_conv_all {G} (eqb ltb : G -> G -> bool) (steps : nat) (cs : crossover_strategy) (score : list G -> f64) (cities best : list G) (target : f64)
  {PS} fexp q g (s : ga_state (tour G) unit) init (ps : PS) :
  eq_ok eqb -> cs <> SinglePoint -> NoDup cities -> 2 <= length cities < steps ->
  Permutation cities best -> is_finite (score best) = true -> fle target (score best) = true ->
  ga_accepted q -> explores q -> (1 <= INR (ga_population_size q) * B2R (ga_elitism_rate q))%R ->
  rank_based (ga_selection_strategy q) -> robust_strategy (ga_selection_strategy q) ->
  (Z.of_nat (length init) <= 2 ^ 20)%Z ->
  (forall x, In x init -> Permutation cities (route x)) -> (exists x, In x init /\ is_finite (score (route x)) = true) ->
  (1 - generations (Nat.max (ga_population_size q) (length init)) q 1 (/ (INR (length cities - 1) * INR (fact (length cities)))) / INR (S g) <=
   prob (evolve_population (tour_ops eqb) fexp (tour_model eqb ltb steps cs Scramble score)
     (ga_algorithm (tour_ops eqb) fexp (tour_model eqb ltb steps cs Scramble score)) (quiet (until (reaches target))) (S g) s init q ps)
     (fun r => existsb (reaches target) (individuals (r_population r))))%R.
Proof. intros Heq Hcs HN [H2 Hst] Hb Hf Ht; intros; apply (tour_conv eqb ltb Heq steps cs score cities Hcs HN Hst best target Hb Hf Ht); auto. Qed.

(** ** The trap *)
Definition trap_mutation (mu : mutation_strategy) : Prop := mu = Swap \/ mu = Inversion \/ mu = Insertion.

Lemma trap_miss mu r : trap_mutation mu -> may (mutate mu [0; 1; 2; 3]) r -> r <> [1; 0; 3; 2].
Proof.
  intros Hmu H ->; assert (HR : exists src, rearranged src [0; 1; 2; 3] [1; 0; 3; 2] /\
    ((exists i j, src = swap_src i j) \/ (exists a b, a + 2 <= b /\ src = reverse_src a b) \/ (exists i j, i < j /\ src = move_src j i))).
  { destruct Hmu as [->|[->| ->]]; cbn [mutate] in H.
    - destruct (must_may _ _ _ (swap_mutation_spec [0; 1; 2; 3] ltac:(cbn; lia)) H) as (_ & i & j & _ & _ & _ & Hr); eexists; split; [exact Hr|]; eauto.
    - destruct (must_may _ _ _ (inversion_mutation_spec [0; 1; 2; 3] ltac:(cbn; lia)) H) as (_ & i & j & L & _ & Hr); eexists; split; [exact Hr|]; right; left; eauto.
    - destruct (must_may _ _ _ (insertion_mutation_spec [0; 1; 2; 3] ltac:(cbn; lia)) H) as (_ & i & j & L & _ & Hr); eexists; split; [exact Hr|]; right; right; eauto. }
  destruct HR as (src & HR & Hs).
  assert (K : forall k v, nth_error [0; 1; 2; 3] k = Some v -> k = v).
  { intros [|[|[|[|[|k]]]]] v; cbn; intros E; try discriminate E; injection E as <-; reflexivity. }
  assert (E0 : src 0 = 1) by (apply K; rewrite <- (HR 0); reflexivity).
  assert (E1 : src 1 = 0) by (apply K; rewrite <- (HR 1); reflexivity).
  assert (E2 : src 2 = 3) by (apply K; rewrite <- (HR 2); reflexivity).
  assert (E3 : src 3 = 2) by (apply K; rewrite <- (HR 3); reflexivity).
  clear H HR K Hmu; destruct Hs as [(i & j & ->)|[(a & b & Hab & ->)|(i & j & Hij & ->)]].
  - unfold swap_src in *; repeat match goal with H : context [?x =? ?y] |- _ => destruct (Nat.eqb_spec x y) end; lia.
  - unfold reverse_src in *; repeat match goal with H : context [?x <=? ?y] |- _ => destruct (Nat.leb_spec x y)
      | H : context [?x <? ?y] |- _ => destruct (Nat.ltb_spec x y) end; cbn [andb] in *; lia.
  - clear E1 E3; unfold move_src in *; destruct (Nat.eqb_spec 0 i) as [<-|Hi].
    + subst j; cbn in E2; discriminate.
    + rewrite (proj2 (Nat.ltb_ge i 0)) in E0 by lia; cbn [andb] in E0.
      rewrite (proj2 (Nat.leb_gt j 0)) in E0 by lia; discriminate.
Qed.

Definition trapped : tour nat := mkTour [0; 1; 2; 3] (f_of_nat 5).

Lemma trap_optimum ltb steps cs mu : trap_mutation mu -> local_optimum (tour_ops Nat.eqb) (tour_model Nat.eqb ltb steps cs mu trap_score) trapped.
Proof.
  intros Hmu; split; [vm_compute; reflexivity|].
  intros [] m i y Hm Hi Hy; cbn [tour_model m_improve default_improve may] in Hi; subst i; cbn [tour_model m_evaluate may] in Hy; subst y.
  assert (Hr : route m <> [1; 0; 3; 2]).
  { destruct Hm as [->|Hm]; [discriminate|]; cbn [tour_model m_mutate] in Hm; apply (proj1 (may_bind _ _ _)) in Hm as (r & Hr & Hm); cbn [may] in Hm; subst m; cbn [route].
    eapply trap_miss; eauto. }
  assert (Heq : eq_ok Nat.eqb) by (intros a b; apply Nat.eqb_eq).
  unfold trap_score; destruct (route_eqb Nat.eqb (route m) [0; 1; 2; 3]) eqn:E1.
  - apply (route_eqb_spec _ Heq) in E1; left; rewrite E1; reflexivity.
  - destruct (route_eqb Nat.eqb (route m) [1; 0; 3; 2]) eqn:E2; [apply (route_eqb_spec _ Heq) in E2; contradiction|].
    right; right; intros p Hp; cbn [tour_model m_can_survive default_can_survive may tour_ops fitness tour_fitness trapped] in Hp.
    revert Hp; vm_compute; discriminate.
Qed.

Lemma trap_valid : is_finite (trap_score [0; 1; 2; 3]) = true /\ is_finite (trap_score [1; 0; 3; 2]) = true /\
  fle (f_of_nat 10) (trap_score [1; 0; 3; 2]) = true.
Proof. repeat split; vm_compute; reflexivity. Qed.

Lemma trap_total ltb steps cs mu : trap_mutation mu -> cs <> SinglePoint -> 4 < steps ->
  total_model (tour_model Nat.eqb ltb steps cs mu trap_score) (on_cities [0; 1; 2; 3]).
Proof.
  intros Hmu Hcs Hst; apply tour_total; auto; [intros a b; apply Nat.eqb_eq| |destruct Hmu as [->|[->| ->]]; discriminate|discriminate].
  repeat constructor; cbn; lia.
Qed.

Lemma trap_must {PS} target ps (p : population (tour nat)) : must (@until _ PS (reaches target) ps p) (fun _ => True).
Proof. exact Logic.I. Qed.

Lemma trap_start ltb steps cs mu ms : startable (tour_ops Nat.eqb) (tour_model Nat.eqb ltb steps cs mu trap_score) (on_cities [0; 1; 2; 3]) ms [mkTour [0; 1; 2; 3] f0].
Proof.
  split; [constructor; [|constructor]; apply Permutation_refl|].
  eexists; split; [left; reflexivity|]; cbn; vm_compute; reflexivity.
Qed.

Lemma trap_fits : fits_usize (@length (tour nat) [mkTour [0; 1; 2; 3] f0]).
Proof. unfold fits_usize, usize_max; cbn [length]; lia. Qed.

Lemma trap_ga ltb steps cs mu : trap_mutation mu -> cs <> SinglePoint -> 4 < steps ->
  forall {PS} fexp q (s : ga_state (tour nat) unit) (ps : PS) fuel,
  ga_accepted q -> 2 <= ga_population_size q -> fits_usize (ga_population_size q) -> robust_strategy (ga_selection_strategy q) ->
  let run := evolve_population (tour_ops Nat.eqb) fexp (tour_model Nat.eqb ltb steps cs mu trap_score)
     (ga_algorithm (tour_ops Nat.eqb) fexp (tour_model Nat.eqb ltb steps cs mu trap_score)) (quiet (until (reaches (f_of_nat 10)))) fuel s [mkTour [0; 1; 2; 3] f0] q ps in
  (forall r, ~ may run r) /\ ~ may_fail run Panic.
Proof.
  intros Hmu Hcs Hst PS fexp q s ps fuel Ha H2 Hf Hr run; split.
  - intros r H; pose proof H as H'; unfold run, evolve_population in H'.
    apply (proj1 (may_bind _ _ _)) in H' as (s1 & _ & H'); apply (proj1 (may_bind _ _ _)) in H' as (p0 & _ & H').
    apply until_ends in H' as [He Hin]; apply existsb_exists in He as (x & Hx & Hg).
    assert (E : x = trapped).
    { eapply ga_local; [apply (trap_optimum ltb steps cs mu Hmu)| |exact Hf|exact trap_fits| |exact H|exact Hin|exact Hx].
      - intros ms p b ms' b' [= <- <-]; reflexivity.
      - intros ms y z [<-|[]] Hz; cbn in Hz; subst z; reflexivity. }
    subst x; revert Hg; vm_compute; discriminate.
  - apply (ga_total (tour_ops Nat.eqb) fexp _ (on_cities [0; 1; 2; 3]) (until (reaches (f_of_nat 10)))); auto using trap_fits, trap_total, trap_start.
    intros; apply trap_must.
Qed.

Lemma trap_aga ltb steps cs mu : trap_mutation mu -> cs <> SinglePoint -> 4 < steps ->
  forall {PS} fexp q (s : aga_state (tour nat) unit) (ps : PS) fuel,
  aga_accepted q -> 2 <= aga_population_size q -> fits_usize (aga_population_size q) -> robust_strategy (aga_selection_strategy q) ->
  let run := evolve_population (tour_ops Nat.eqb) fexp (tour_model Nat.eqb ltb steps cs mu trap_score)
     (aga_algorithm (tour_ops Nat.eqb) fexp (tour_model Nat.eqb ltb steps cs mu trap_score)) (quiet (until (reaches (f_of_nat 10)))) fuel s [mkTour [0; 1; 2; 3] f0] q ps in
  (forall r, ~ may run r) /\ ~ may_fail run Panic.
Proof.
  intros Hmu Hcs Hst PS fexp q s ps fuel Ha H2 Hf Hr run; split.
  - intros r H; pose proof H as H'; unfold run, evolve_population in H'.
    apply (proj1 (may_bind _ _ _)) in H' as (s1 & _ & H'); apply (proj1 (may_bind _ _ _)) in H' as (p0 & _ & H').
    apply until_ends in H' as [He Hin]; apply existsb_exists in He as (x & Hx & Hg).
    assert (E : x = trapped).
    { eapply aga_local; [apply (trap_optimum ltb steps cs mu Hmu)| |exact Hf|exact trap_fits| |exact H|exact Hin|exact Hx].
      - intros ms p b ms' b' [= <- <-]; reflexivity.
      - intros ms y z [<-|[]] Hz; cbn in Hz; subst z; reflexivity. }
    subst x; revert Hg; vm_compute; discriminate.
  - apply (aga_total (tour_ops Nat.eqb) fexp _ (on_cities [0; 1; 2; 3]) (until (reaches (f_of_nat 10)))); auto using trap_fits, trap_total, trap_start.
    intros; apply trap_must.
Qed.

Lemma tour_aga_conv {G} (eqb ltb : G -> G -> bool) (steps : nat) (cs : crossover_strategy) (score : list G -> f64) (cities best : list G) (target : f64)
  {PS} fexp q g (s : aga_state (tour G) unit) init (ps : PS) :
  eq_ok eqb -> cs <> SinglePoint -> NoDup cities -> 2 <= length cities < steps ->
  Permutation cities best -> is_finite (score best) = true -> fle target (score best) = true ->
  aga_accepted q -> aga_explores q -> (1 <= INR (aga_population_size q) * B2R (aga_elitism_rate q))%R ->
  rank_based (aga_selection_strategy q) -> robust_strategy (aga_selection_strategy q) ->
  (Z.of_nat (length init) <= 2 ^ 20)%Z ->
  (forall x, In x init -> Permutation cities (route x)) -> (exists x, In x init /\ is_finite (score (route x)) = true) ->
  diverse_start (tour_ops eqb) (tour_model eqb ltb steps cs Scramble score)
    (fun x => Permutation cities (route x) /\ tour_fitness x = score (route x)) q (aga_model s) init ->
  (1 - aga_generations (Nat.max (aga_population_size q) (length init)) q 1 (/ (INR (length cities - 1) * INR (fact (length cities)))) / INR (S g) <=
   prob (evolve_population (tour_ops eqb) fexp (tour_model eqb ltb steps cs Scramble score)
     (aga_algorithm (tour_ops eqb) fexp (tour_model eqb ltb steps cs Scramble score)) (quiet (until (reaches target))) (S g) s init q ps)
     (fun r => existsb (reaches target) (individuals (r_population r))))%R.
Proof.
  intros Heq Hcs HN [H2 Hst] Hb Hf Ht Ha He H1 Hr Hro Hi Hin (x & Hx & Fx) Hd.
  assert (Hne : cities <> []) by (intros E; rewrite E in H2; cbn in H2; lia).
  apply (aga_rank_conv (tour_ops eqb) fexp (tour_model eqb ltb steps cs Scramble score) (on_cities cities) (scored_tour score cities) (reaches target)
           (tour_level target) 0 1 (scramble_rate (length cities))); auto.
  - apply tour_number.
  - apply tour_equal.
  - apply tour_total; auto; discriminate.
  - apply tour_keeps; auto; discriminate.
  - intros ms p b ms' b' [= <- <-]; auto.
  - intros ms y z p; reflexivity.
  - apply (tour_ladder eqb ltb Heq steps cs score cities HN Hst best); auto.
  - apply scramble_rate_pos; auto.
  - split; [apply Forall_forall; auto|]; exists x; split; auto; cbn; split; [|lia].
    unfold default_is_valid; cbn; destruct (score (route x)); cbn in *; auto; discriminate.
Qed.

(** ** Examples *)
Definition c109_params : ga_params := mkGaParams 100 (f_lit 1 100) (f_lit 8 10) (f_lit 1 10) (StTournament 3).
Lemma c109_example :
  eq_ok Nat.eqb /\ NoDup [0; 1; 2; 3] /\ Permutation [0; 1; 2; 3] [1; 0; 3; 2] /\
  is_finite (trap_score [1; 0; 3; 2]) = true /\ fle (f_of_nat 10) (trap_score [1; 0; 3; 2]) = true /\ is_finite (trap_score [0; 1; 2; 3]) = true /\
  ga_accepted c109_params /\ explores c109_params /\ 2 <= ga_population_size c109_params /\ fits_usize (ga_population_size c109_params) /\
  (1 <= INR (ga_population_size c109_params) * B2R (ga_elitism_rate c109_params))%R /\
  rank_based (ga_selection_strategy c109_params) /\ robust_strategy (ga_selection_strategy c109_params).
Proof.
  destruct trap_valid as (V1 & V2 & V3); destruct c92_example as ((A1 & A2 & A3 & A4 & A5) & B & C & _).
  split; [intros a b; apply Nat.eqb_eq|]; split; [repeat constructor; cbn; lia|].
  split; [eapply perm_trans; [apply perm_swap|]; apply perm_skip, perm_skip, perm_swap|].
  split; [exact V2|]; split; [exact V3|]; split; [exact V1|].
  split; [split; [exact A1|]; split; [exact A2|]; split; [exact A3|]; split; [exact A4|]; cbn; discriminate|].
  split; [exact B|]; split; [cbn; lia|]; split; [unfold fits_usize, usize_max; cbn; lia|]; split; [exact C|]; split; [cbn; discriminate|exact Logic.I].
Qed.
Lemma trap_refutes :
  forall (mu : mutation_strategy), mu = Swap \/ mu = Inversion \/ mu = Insertion ->
  exists (score : list nat -> f64) (cities best : list nat) (target : f64) (seed : tour nat),
  NoDup cities /\ Permutation cities best /\ is_finite (score best) = true /\ fle target (score best) = true /\
  Permutation cities (route seed) /\ is_finite (score (route seed)) = true /\
  forall (ltb : nat -> nat -> bool) (steps : nat) (cs : crossover_strategy), cs <> SinglePoint -> length cities < steps ->
  (forall (PS : Type) (fexp : f64 -> f64) (q : ga_params) (s : ga_state (tour nat) unit) (ps : PS) (fuel : nat),
   ga_accepted q -> 2 <= ga_population_size q -> fits_usize (ga_population_size q) -> robust_strategy (ga_selection_strategy q) ->
   let run := evolve_population (tour_ops Nat.eqb) fexp (tour_model Nat.eqb ltb steps cs mu score)
     (ga_algorithm (tour_ops Nat.eqb) fexp (tour_model Nat.eqb ltb steps cs mu score)) (quiet (until (reaches target))) fuel s [seed] q ps in
   (forall r, ~ may run r) /\ ~ may_fail run Panic) /\
  (forall (PS : Type) (fexp : f64 -> f64) (q : aga_params) (s : aga_state (tour nat) unit) (ps : PS) (fuel : nat),
   aga_accepted q -> 2 <= aga_population_size q -> fits_usize (aga_population_size q) -> robust_strategy (aga_selection_strategy q) ->
   let run := evolve_population (tour_ops Nat.eqb) fexp (tour_model Nat.eqb ltb steps cs mu score)
     (aga_algorithm (tour_ops Nat.eqb) fexp (tour_model Nat.eqb ltb steps cs mu score)) (quiet (until (reaches target))) fuel s [seed] q ps in
   (forall r, ~ may run r) /\ ~ may_fail run Panic).
Proof.
  intros mu Hmu; destruct c109_example as (_ & HN & HP & V2 & V3 & V1 & _).
  exists trap_score, [0; 1; 2; 3], [1; 0; 3; 2], (f_of_nat 10), (mkTour [0; 1; 2; 3] f0).
  split; [exact HN|]; split; [exact HP|]; split; [exact V2|]; split; [exact V3|]; split; [apply Permutation_refl|]; split; [exact V1|].
  intros ltb steps cs Hcs Hst; split; intros PS fexp q s ps fuel; [apply trap_ga|apply trap_aga]; auto.
Qed.
Definition c109_aga_params : aga_params := mkAgaParams 100 (f_lit 1 100) (f_lit 3 10, f_lit 9 10) (f_lit 1 10, f1) (StTournament 3) 0.
Lemma c109_aga_example :
  aga_accepted c109_aga_params /\ aga_explores c109_aga_params /\
  (1 <= INR (aga_population_size c109_aga_params) * B2R (aga_elitism_rate c109_aga_params))%R /\
  rank_based (aga_selection_strategy c109_aga_params) /\ robust_strategy (aga_selection_strategy c109_aga_params) /\
  diverse_start (tour_ops Nat.eqb) (tour_model Nat.eqb Nat.ltb 5 Cycle Scramble trap_score)
    (fun x => Permutation [0; 1; 2; 3] (route x) /\ tour_fitness x = trap_score (route x)) c109_aga_params tt [mkTour [0; 1; 2; 3] f0].
Proof.
  destruct c96_example as ((A1 & A2 & A3 & A4 & A5 & A6 & _) & B & C & _).
  split; [split; [exact A1|]; split; [exact A2|]; split; [exact A3|]; split; [exact A4|]; split; [exact A5|]; split; [exact A6|]; cbn; discriminate|].
  split; [exact B|]; split; [exact C|]; split; [cbn; discriminate|]; split; [exact Logic.I|]; left; reflexivity.
Qed.
