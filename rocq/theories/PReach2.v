(** * PReach2: what runs of the genetic algorithm can reach (C85). *)
From Coq Require Import List Bool Arith NArith ZArith Reals Lia Lra Permutation.
From Flocq Require Import Core BinarySingleNaN.
From Verif Require Import Rnd LRnd Prob F64 LF64 MStats MPopulation MSelection MModel MAlgorithms SpecF SpecA SpecR
  PSelection PSelection2 PLinear PPopulation PAlgorithms PRun PReach.
Import ListNotations.
Local Open Scope nat_scope.

Section GA.
Context {I : Type} (io : individual_ops I) (fexp : f64 -> f64) {MS : Type} (mdl : model I MS) {PS : Type}.
Notation GA := (ga_algorithm io fexp mdl).
Implicit Types (p : population I).

Lemma explores_elites q e : proper_ratio (ga_elitism_rate q) -> explores q -> elite_count (ga_population_size q) (ga_elitism_rate q) e -> e + 2 <= ga_population_size q.
Proof.
  intros Hr (_ & _ & He & Hn) [_ H]; specialize (H ltac:(lia)).
  assert (Hf : (Zfloor (INR (ga_population_size q) * B2R (ga_elitism_rate q)) <= Z.of_nat (ga_population_size q) - 3)%Z); [|lia].
  rewrite <- (Zfloor_IZR (Z.of_nat (ga_population_size q) - 3)); apply Zfloor_le.
  rewrite minus_IZR, <- INR_IZR_INZ; exact He.
Qed.

Lemma made_last l p x : equal_means_equal_fitness io -> no_nan io l -> made io l p -> last_of p x ->
  In x l /\ forall z, In z l -> (key (fitness io z) <= key (fitness io x))%R.
Proof.
  intros Heq Hn Hm Hl; pose proof (made_well_formed io l p Hn Hm) as (_ & Hnn & Hso & _); destruct Hm as (_ & [H1 H2] & _).
  assert (Hin : In x (individuals p)) by (destruct Hl as [t ->]; apply in_or_app; right; left; reflexivity).
  split; [auto|]; intros z Hz; destruct (H2 z Hz) as [Hp|(w & Hw & E)]; [apply (last_best io p x z); auto|].
  apply Heq, feq_spec in E as (_ & _ & ->); apply (last_best io p x w); auto.
Qed.

Variables (q : ga_params) (ms : MS) (goal : I -> bool) (sel_ok : selector I -> Prop) (Gp : population I -> I -> Prop).
Hypothesis Hnum : valid_is_number io.
Hypothesis Heq : equal_means_equal_fitness io.
Hypothesis Hhook : default_hook mdl.
Hypothesis Hacc : ga_accepted q.
Hypothesis Hexp : explores q.
Hypothesis Hcreate : forall s, create_selector (ga_selection_strategy q) = Ret s -> sel_ok s.
Hypothesis Hsel : forall s0 p x, sel_ok s0 -> well_formed io p -> last_of p x -> Gp p x ->
  exists s1, may (prepare io fexp s0 p) s1 /\ sel_ok s1 /\ can_pick io fexp s1 p x.
Hypothesis HG : forall p p' x y, Gp p x -> mutation_improves io mdl ms x y -> length (individuals p') <= ga_population_size q ->
  (forall z, In z (individuals p') -> In z (individuals p) \/ z = y) -> Gp p' y.

Definition ga_J (e : nat) (s : ga_state I MS) (p : population I) : Prop :=
  ga_model s = ms /\ ga_size s = ga_population_size q /\ ga_elite_size s = e /\
  crossover_rate (ga_breeding s) = ga_crossover_rate q /\ mutation_rate (ga_breeding s) = ga_mutation_rate q /\
  sel_ok (parent_selector (ga_breeding s)).

Lemma ga_reach (s : ga_state I MS) init ev (ps : PS) : ga_model s = ms ->
  may (mapM (m_evaluate mdl ms) init) ev -> (exists x, In x ev /\ is_valid io x = true) ->
  (forall x p, In x ev -> is_valid io x = true ->
     (forall z, In z ev -> is_valid io z = true -> (key (fitness io z) <= key (fitness io x))%R) ->
     leads io mdl ms goal x /\
     ((forall z, In z (individuals p) -> In z ev /\ is_valid io z = true) -> length (individuals p) <= length ev -> last_of p x -> Gp p x)) ->
  exists fuel r, may (evolve_population io fexp mdl GA (quiet (until goal)) fuel s init q ps) r /\
    well_formed io (r_population r) /\ existsb goal (individuals (r_population r)) = true.
Proof.
  intros Ems Hev (x0 & Hx0 & Vx0) Hstart; pose proof Hexp as (Hc & Hm & _ & Hn20); pose proof Hacc as (_ & Hr & [Fc _] & [Fm _] & _).
  destruct (ga_configure_ok s q) as (e & sel & He & Hs & Ecfg); auto; [unfold fits_usize, usize_max; lia|].
  set (s1 := mkGa _ _ _ _) in Ecfg.
  set (l := filter (is_valid io) ev).
  assert (Hl : forall z, In z l <-> In z ev /\ is_valid io z = true) by (intros z; apply filter_In).
  assert (Hne : l <> []) by (intros E; assert (In x0 l) by (apply Hl; auto); rewrite E in H; destruct H).
  assert (Hnn : no_nan io l) by (intros z Hz; apply Hnum, Hl; auto).
  destruct (must_exists _ _ (new_must io l Hne)) as [p Hp].
  destruct (must_may _ _ _ (new_must io l Hne) Hp) as (Hmade & Hg & _).
  pose proof (made_well_formed io l p Hnn Hmade) as Hwf.
  destruct (last_exists p (proj1 Hwf)) as [x Hx].
  destruct (made_last l p x Heq Hnn Hmade Hx) as [Hxl Hbest].
  destruct Hmade as (_ & [Hsub _] & _ & Hlen & _).
  assert (Hfl : length l <= length ev) by (unfold l; clear; induction ev as [|h t IH]; cbn; [lia|]; destruct (is_valid io h); cbn; lia).
  apply Hl in Hxl as [Hxe Vx].
  destruct (Hstart x p Hxe Vx) as [Hleads HGp]; [intros z Hz Vz; apply Hbest, Hl; auto|].
  destruct (@loop_climb I io fexp MS mdl _ _ GA PS (ga_population_size q) e (ga_J e) Gp ms goal Hnum Heq) with (x := x) (s := s1) (p := p) (ps := ps) (tr := @nil (population I))
    as (fuel & r & Hrun & Hres); auto.
  - apply explores_elites; auto.
  - intros s' p' x' (J1 & J2 & J3 & J4 & J5 & J6) Hwf' _ Hl' HG'.
    destruct (Hsel _ _ _ J6 Hwf' Hl' HG') as (sel' & Hprep & Hok & Hpick).
    set (b := mkBreeding (ga_crossover_rate q) (ga_mutation_rate q) sel').
    exists (mkGa ms (ga_population_size q) e b), b.
    split; [|split; [intros p'' _; unfold ga_J; cbn; repeat split; auto|]].
    { cbn [alg_prepare ga_algorithm]; unfold ga_prepare; rewrite Hhook; cbn [bind].
      apply may_bind; exists sel'; split; auto. rewrite J1, J2, J3, J4, J5; reflexivity. }
    split; [reflexivity|]; split; [reflexivity|]; split; [reflexivity|]; split; [exact Hpick|]; auto.
  - unfold ga_J, s1; cbn; repeat split; auto.
  - intros z Hz; apply Hl, Hsub; auto.
  - apply HGp; auto; [intros z Hz; apply Hl, Hsub; auto|lia].
  - exists fuel, r; split; auto; unfold evolve_population; cbn [alg_configure ga_algorithm alg_model]; rewrite Ecfg; cbn [bind].
    apply may_bind; exists p; split; auto; unfold initialize_population; apply may_bind; exists ev; split; auto.
    unfold s1; cbn [ga_model]; rewrite Ems; auto.
Qed.
End GA.

(** ** Strategies that go by rank *)
Section Ranked.
Context {I : Type} (io : individual_ops I) (fexp : f64 -> f64) {MS : Type} (mdl : model I MS) {PS : Type}.

Definition rank_sel (s : selector I) : Prop :=
  match s with
  | Tournament size => size <> 0
  | Rank => True
  | Elitist ratio => proper_ratio ratio
  | Linear b => is_finite b = true /\ (1 + bpow radix2 (-10) <= B2R b <= 2)%R
  | _ => False
  end.

Lemma rank_created st s : rank_based st -> create_selector st = Ret s -> rank_sel s.
Proof.
  destruct st as [size| |t c| |b|ratio]; cbn [rank_based create_selector]; try tauto; unfold tournament_new, elitist_new.
  - intros H; rewrite (proj2 (Nat.eqb_neq _ _) H); cbn; intros [= <-]; exact H.
  - intros _ [= <-]; exact Logic.I.
  - intros H [= <-]; exact H.
  - intros H; destruct (massert _); cbn; try discriminate; intros [= <-]; exact H.
Qed.

Lemma rank_prepared s p x : rank_sel s -> last_of p x -> (Z.of_nat (length (individuals p)) <= 2 ^ 20)%Z ->
  exists s1, may (prepare io fexp s p) s1 /\ rank_sel s1 /\ can_pick io fexp s1 p x.
Proof.
  intros Hs Hl Hn; exists s; destruct s as [size| |t c g| |ratio|b|]; cbn [rank_sel] in *; try tauto; (split; [reflexivity|split; [exact Hs|]]).
  - apply tournament_last; auto.
  - apply rank_last; auto.
  - apply elitist_last; auto; unfold fits_usize, usize_max; lia.
  - destruct Hs; apply linear_last; auto.
Qed.

Lemma mapM_may {A B} (f : A -> M B) (Q : A -> B -> Prop) l : (forall a, In a l -> exists b, may (f a) b /\ Q a b) ->
  exists r, may (mapM f l) r /\ Forall2 Q l r.
Proof.
  induction l as [|a l IH]; intros H; [exists []; split; [reflexivity|constructor]|].
  destruct (H a (or_introl eq_refl)) as (b & Hb & Qb); destruct IH as (r & Hr & Qr); [intros; apply H; right; auto|].
  exists (b :: r); split; [|constructor; auto]; cbn [mapM]; apply may_bind; exists b; split; auto; apply may_bind; exists r; split; auto; reflexivity.
Qed.

Lemma Forall2_In_r {A B} (Q : A -> B -> Prop) l r b : Forall2 Q l r -> In b r -> exists a, In a l /\ Q a b.
Proof. induction 1 as [|a b' l r Hq H IH]; cbn; [tauto|]; intros [->|Hb]; [eauto|]; destruct (IH Hb) as (a' & Ha & Hq'); eauto. Qed.

(** C85 *)
Lemma ga_reaches (goal : I -> bool) (s : ga_state I MS) init ev q (ps : PS) :
  valid_is_number io -> equal_means_equal_fitness io -> default_hook mdl ->
  ga_accepted q -> explores q -> rank_based (ga_selection_strategy q) ->
  (Z.of_nat (length init) <= 2 ^ 20)%Z ->
  Forall2 (fun x x' => may (m_evaluate mdl (ga_model s) x) x') init ev ->
  (exists x, In x ev /\ is_valid io x = true) ->
  (forall x, In x ev -> is_valid io x = true ->
     (forall z, In z ev -> is_valid io z = true -> fle (fitness io z) (fitness io x) = true) ->
     exists y, climbs io mdl (ga_model s) x y /\ goal y = true) ->
  exists fuel r y, may (evolve_population io fexp mdl (ga_algorithm io fexp mdl) (quiet (until goal)) fuel s init q ps) r /\
    In y (individuals (r_population r)) /\ goal y = true.
Proof.
  intros Hnum Heq Hhook Hacc Hexp Hrb Hl20 Hall Hv Hbest.
  assert (Elen : length ev = length init) by (clear - Hall; induction Hall; cbn; congruence).
  assert (Hev : may (mapM (m_evaluate mdl (ga_model s)) init) ev).
  { clear - Hall; induction Hall as [|a b l r Ha _ IH]; [reflexivity|].
    cbn [mapM]; apply may_bind; exists b; split; auto; apply may_bind; exists r; split; auto; reflexivity. }
  destruct (@ga_reach I io fexp MS mdl PS q (ga_model s) goal rank_sel (fun p _ => (Z.of_nat (length (individuals p)) <= 2 ^ 20)%Z)) with (s := s) (init := init) (ev := ev) (ps := ps)
    as (fuel & r & Hr & _ & Hg); auto.
  - intros s' H; eapply rank_created; eauto.
  - intros s0 p x H _ H1 H2; apply rank_prepared; auto.
  - intros p p' x y _ _ H _; destruct Hexp as (_ & _ & _ & H20); lia.
  - intros x p Hx Vx Hk; destruct (Hbest x Hx Vx) as (y & Hc & Hy); [|split; [eapply climbs_leads; eauto|lia]].
    intros z Hz Vz; apply fle_spec; split; [apply Hnum; auto|split; [apply Hnum; auto|apply Hk; auto]].
  - apply existsb_exists in Hg as (y & Hy & Gy); exists fuel, r, y; auto.
Qed.
End Ranked.
