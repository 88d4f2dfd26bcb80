(** * PHist2: consequences of the history of a run (C79-C81). *)
From Coq Require Import List Bool Arith NArith ZArith Reals Lra Lia Permutation.
From Flocq Require Import Core BinarySingleNaN.
From Verif Require Import Rnd LRnd F64 LF64 MStats MPopulation MSelection MModel MAlgorithms SpecF SpecA SpecH
  PSelection PSelection2 PPopulation PModel PAlgorithms PAlgorithms2 PRun PRun3 PHist.
Import ListNotations.
Local Open Scope nat_scope.

Section Chronicle.
Context {I : Type} (io : individual_ops I) (fexp : f64 -> f64) {MS : Type} (mdl : model I MS)
  (n e : nat) (rates : population I -> f64 * f64 -> f64 * f64 -> Prop).

(** ** Cooling *)
Lemma chronicle_cools t0 c ms b tr msl bl : selector_left_alone mdl ->
  chronicle io fexp mdl n e rates ms b tr msl bl -> forall k v, parent_selector b = Boltzmann (cooled k t0 c) c v ->
  (exists v', parent_selector bl = Boltzmann (cooled (k + (length tr - 1)) t0 c) c v') /\
  forall j p p', nth_error tr j = Some p -> nth_error tr (S j) = Some p' ->
  exists ms cr mr v bred,
    split_sum (map (fun x => fexp (fdiv (fitness io x) (cooled (S (k + j)) t0 c))) (individuals p)) v /\
    (forall x, In x bred -> may (breed io fexp mdl ms p (mkBreeding cr mr (Boltzmann (cooled (S (k + j)) t0 c) c v))) x) /\
    holds io (top e p ++ bred) p'.
Proof.
  intros Hs H; induction H as [ms b p|ms b p cr mr ms' b1 sel bred p' t msl bl H1 H2 H3 H4 H5 H6 H7 IH]; intros k v Hb.
  - split; [exists v; rewrite Nat.add_0_r; exact Hb|].
    intros j q q' _ X; destruct j; discriminate.
  - apply Hs in H2; cbn [parent_selector] in H2; rewrite H2, Hb in H3.
    destruct (must_may _ _ _ (prepare_boltzmann io fexp _ _ _ p) H3) as (v' & -> & Hv').
    destruct (IH (S k) v' eq_refl) as [A B]; split.
    + replace (k + (length (p :: p' :: t) - 1)) with (S k + (length (p' :: t) - 1)) by (cbn; lia); exact A.
    + intros [|j] q q' Hq Hq'.
      * injection Hq as <-; injection Hq' as <-; rewrite Nat.add_0_r; exists ms', (crossover_rate b1), (mutation_rate b1), v', bred; auto.
      * replace (k + S j) with (S k + j) by lia; exact (B j q q' Hq Hq').
Qed.

(** ** No variation *)
Lemma breed_plain ms p b x : only_members io fexp (parent_selector b) p ->
  flt f0 (crossover_rate b) = false -> flt f0 (mutation_rate b) = false ->
  (forall ms x y, may (m_improve mdl ms x) y -> y = x) ->
  (forall y z, In y (individuals p) -> may (m_evaluate mdl ms y) z -> z = y) ->
  may (breed io fexp mdl ms p b) x -> In x (individuals p).
Proof.
  intros Hsel Hc Hm Hi He H; unfold breed in H; apply may_bind in H as ([i1 parent1] & H1 & H).
  apply may_bind in H as (o & Ho & H); apply Hsel in H1; cbn [snd] in H1.
  assert (o = None) as ->.
  { unfold breed_parent2 in Ho; destruct (_ <? _); [|cbn in Ho; auto].
    apply may_bind in Ho as (u & Hu & Ho); apply may_gen_f64 in Hu as (j & Hj & <-); rewrite unit_not_below in Ho by auto; cbn in Ho; auto. }
  unfold breed_from in H; cbn [bind] in H.
  apply may_bind in H as (u & Hu & H); apply may_gen_f64 in Hu as (j & Hj & <-); rewrite unit_not_below in H by auto; cbn [bind] in H.
  apply may_bind in H as (o3 & Ho3 & H); apply Hi in Ho3; subst o3.
  apply may_bind in H as (o4 & Ho4 & H); apply He in Ho4; auto; subst o4.
  apply may_bind in H as (sv & _ & H); cbn in H; subst x; destruct sv; auto.
Qed.

Lemma top_in (p : population I) x : In x (top e p) -> In x (individuals p).
Proof. intros H; rewrite <- (firstn_skipn (length (individuals p) - e) (individuals p)); apply in_or_app; auto. Qed.

Definition zero (o : f64 * f64) : Prop := flt f0 (fst o) = false /\ flt f0 (snd o) = false.

Lemma chronicle_nothing_new (A : Prop) ms b tr msl bl (p0 : population I) :
  selector_left_alone mdl -> rates_left_alone mdl -> fits_usize n -> e < n ->
  (forall p o w, rates p o w -> zero o \/ (A /\ generation p = 0) -> zero w) ->
  (forall ms x y, may (m_improve mdl ms x) y -> y = x) ->
  (forall ms y z, In y (individuals p0) -> may (m_evaluate mdl ms y) z -> z = y) ->
  chronicle io fexp mdl n e rates ms b tr msl bl ->
  (forall p, hd_error tr = Some p -> (zero (crossover_rate b, mutation_rate b) \/ (A /\ generation p = 0)) /\
     individuals p <> [] /\ fits_usize (length (individuals p)) /\ forall x, In x (individuals p) -> In x (individuals p0)) ->
  known (parent_selector b) ->
  forall p x, In p tr -> In x (individuals p) -> In x (individuals p0).
Proof.
  intros Hs Hr Hn Hen Hra Hi He H; induction H as [ms b p|ms b p cr mr ms' b1 sel bred p' t msl bl H1 H2 H3 H4 H5 H6 H7 IH]; intros H0 Hk;
    destruct (H0 p eq_refl) as (Hz & N1 & N2 & Hp).
  - intros q x [<-|[]] Hx; exact (Hp _ Hx).
  - destruct (Hra _ _ _ H1 Hz) as [Z1 Z2]; cbn [fst snd] in Z1, Z2.
    destruct (Hr _ _ _ _ _ H2) as [R1 R2]; apply Hs in H2; cbn [parent_selector crossover_rate mutation_rate] in *.
    rewrite H2 in H3; pose proof (prepare_known _ _ _ _ _ Hk H3) as Hk'; destruct H6 as (A1 & A2 & A3).
    assert (Hp' : forall x, In x (individuals p') -> In x (individuals p0)).
    { intros x Hx; apply (proj1 A3) in Hx; apply in_app_or in Hx as [Hx|Hx]; [apply Hp, top_in, Hx|]; apply Hp.
      refine (breed_plain _ _ _ _ _ _ _ Hi _ (H5 x Hx)); cbn [parent_selector crossover_rate mutation_rate].
      - apply known_members; auto.
      - rewrite R1; auto.
      - rewrite R2; auto.
      - intros y z Hy; apply He, Hp, Hy. }
    intros q x [<-|Hq] Hx; [auto|].
    refine (IH _ _ q x Hq Hx); auto.
    intros q' E; injection E as <-; split; [left; split; cbn; [rewrite R1|rewrite R2]; auto|]; split; [auto|]; split; [|auto].
    rewrite app_length, H4 in A2; cbv zeta in A2.
    assert (length (top e p) <= e) by (unfold top; rewrite skipn_length; lia).
    unfold fits_usize in *; destruct (_ =? 1); lia.
Qed.
End Chronicle.

(** ** Fixed points of the rates *)
Lemma fixed_zero {I} (p : population I) o w : fixed_rates p o w -> zero o \/ (False /\ generation p = 0) -> zero w.
Proof. intros -> [H|[[] _]]; exact H. Qed.

Lemma rate_zero r : rate r -> flt f0 r = false -> exists sg, r = B754_zero sg.
Proof.
  intros [Hf Hr] H; destruct r as [sg|sg| |sg m ex Hb]; try discriminate Hf; [exists sg; auto|exfalso].
  destruct sg.
  - destruct Hr as [Hr _]; cbn in Hr; unfold Defs.F2R in Hr; cbn in Hr.
    assert (0 < IZR (Z.pos m) * Raux.bpow Zaux.radix2 ex)%R by (apply Rmult_lt_0_compat; [apply IZR_lt; reflexivity|apply Raux.bpow_gt_0]).
    change (IZR (Z.neg m)) with (- IZR (Z.pos m))%R in Hr; lra.
  - vm_compute in H; discriminate.
Qed.

Lemma point_zero sa sb d : flt f0 (point (B754_zero sa, B754_zero sb) d) = false.
Proof. destruct sa, sb, d as [s|s| |s m ex Hb]; try destruct s; reflexivity. Qed.

Lemma adaptive_zero {I} q d (p : population I) o w : aga_accepted q ->
  flt f0 (fst (aga_crossover_rate_range q)) = false -> flt f0 (snd (aga_crossover_rate_range q)) = false ->
  flt f0 (fst (aga_mutation_rate_range q)) = false -> flt f0 (snd (aga_mutation_rate_range q)) = false ->
  adaptive_rates q d p o w -> zero o \/ (True /\ generation p = 0) -> zero w.
Proof.
  intros (_ & _ & A1 & A2 & A3 & A4 & _) Z1 Z2 Z3 Z4 (H1 & H2 & H3) H.
  destruct (Nat.eq_dec (generation p) 0) as [G|G]; [rewrite (H1 G); split; auto|destruct H as [H|[_ H]]; [|congruence]].
  assert (D : adjusts (aga_parameter_adjustment_interval q) (generation p) \/ ~ adjusts (aga_parameter_adjustment_interval q) (generation p)).
  { unfold adjusts; destruct (Nat.eq_dec (aga_parameter_adjustment_interval q) 0) as [E|E]; [right; tauto|].
    destruct (Nat.eq_dec (generation p mod aga_parameter_adjustment_interval q) 0) as [M0|M0];
      rewrite Nat.mod_divide in M0 by auto; tauto. }
  destruct D as [D|D]; [rewrite (H2 D)|rewrite (H3 G D); exact H].
  destruct (rate_zero _ A1 Z1) as [s1 E1], (rate_zero _ A2 Z2) as [s2 E2], (rate_zero _ A3 Z3) as [s3 E3], (rate_zero _ A4 Z4) as [s4 E4].
  destruct (aga_crossover_rate_range q) as [c1 c2], (aga_mutation_rate_range q) as [m1 m2]; cbn [fst snd] in *; subst.
  split; cbn [fst snd]; apply point_zero.
Qed.

Section Instances.
Context {I : Type} (io : individual_ops I) (fexp : f64 -> f64) {MS : Type} (mdl : model I MS) {PS : Type}.
Notation GA := (ga_algorithm io fexp mdl).
Notation AGA := (aga_algorithm io fexp mdl).

(** ** C79 *)
Lemma ga_cools (f : PS -> population I -> M (bool * PS)) fuel s init q ps r t c :
  selector_left_alone mdl -> fits_usize (ga_population_size q) -> ga_selection_strategy q = StBoltzmann t c ->
  may (evolve_population io fexp mdl GA (quiet f) fuel s init q ps) r ->
  exists e v, elite_count (ga_population_size q) (ga_elitism_rate q) e /\
    parent_selector (ga_breeding (r_algorithm r)) = Boltzmann (cooled (length (r_trace r) - 1) t c) c v /\
    cools io fexp mdl e t c (r_trace r).
Proof.
  intros Hs Hf Hq H; destruct (ga_history io fexp mdl f fuel s init q ps r Hf H) as (e & sel & p0 & tl & He & Hc & Et & _ & Hh).
  rewrite Hq in Hc; cbn [create_selector] in Hc; unfold boltzmann_new in Hc.
  destruct (negb (feq c f0)); [|discriminate]; cbn in Hc; injection Hc as <-.
  destruct (chronicle_cools io fexp mdl _ e _ t c _ _ _ _ _ Hs Hh 0 f0 eq_refl) as [(v & Hv) B]; exists e, v; auto.
Qed.
Lemma aga_cools (f : PS -> population I -> M (bool * PS)) fuel s init q ps r t c :
  selector_left_alone mdl -> fits_usize (aga_population_size q) -> aga_selection_strategy q = StBoltzmann t c ->
  may (evolve_population io fexp mdl AGA (quiet f) fuel s init q ps) r ->
  exists e v, elite_count (aga_population_size q) (aga_elitism_rate q) e /\
    parent_selector (aga_breeding (r_algorithm r)) = Boltzmann (cooled (length (r_trace r) - 1) t c) c v /\
    cools io fexp mdl e t c (r_trace r).
Proof.
  intros Hs Hf Hq H; destruct (aga_history io fexp mdl f fuel s init q ps r Hf H) as (e & sel & p0 & tl & He & Hc & Et & _ & Hh).
  rewrite Hq in Hc; cbn [create_selector] in Hc; unfold boltzmann_new in Hc.
  destruct (negb (feq c f0)); [|discriminate]; cbn in Hc; injection Hc as <-.
  destruct (chronicle_cools io fexp mdl _ e _ t c _ _ _ _ _ Hs Hh 0 f0 eq_refl) as [(v & Hv) B]; exists e, v; auto.
Qed.

(** ** C80 *)
Lemma begins_fits ms init p0 : fits_usize (length init) -> begins io mdl ms init p0 ->
  individuals p0 <> [] /\ fits_usize (length (individuals p0)) /\ forall x, In x (individuals p0) -> exists y, may (m_evaluate mdl ms y) x.
Proof.
  intros Hf (ev & H1 & H2 & H3 & H4 & _); split; [auto|]; split.
  - pose proof (Forall2_len _ _ _ H1) as El; assert (length (filter (is_valid io) ev) <= length ev).
    { clear; induction ev as [|a l IH]; cbn; auto; destruct (is_valid io a); cbn; lia. }
    unfold fits_usize in *; lia.
  - intros x Hx; apply H4, filter_In in Hx as [Hx _]; clear - H1 Hx; induction H1 as [|a b l l' Hab _ IH]; [destruct Hx|destruct Hx as [<-|Hx]; eauto].
Qed.

Lemma nothing_new_from p0 (tl tr : list (population I)) : tr = p0 :: tl ->
  (forall p x, In p tr -> In x (individuals p) -> In x (individuals p0)) -> nothing_new tr.
Proof. intros -> H q0 k p x E Hk; injection E as <-; apply H; eapply nth_error_In; eauto. Qed.

Lemma ga_nothing_new (f : PS -> population I -> M (bool * PS)) fuel s init q ps r :
  selector_left_alone mdl -> rates_left_alone mdl -> settled mdl -> fits_usize (ga_population_size q) -> fits_usize (length init) ->
  flt f0 (ga_crossover_rate q) = false -> flt f0 (ga_mutation_rate q) = false ->
  may (evolve_population io fexp mdl GA (quiet f) fuel s init q ps) r -> nothing_new (r_trace r).
Proof.
  intros Hs Hr [S1 S2] Hf Hl Z1 Z2 H; destruct (ga_history io fexp mdl f fuel s init q ps r Hf H) as (e & sel & p0 & tl & He & Hc & Et & Hb & Hh).
  destruct (begins_fits _ _ _ Hl Hb) as (N1 & N2 & N3).
  apply (nothing_new_from p0 tl _ Et).
  refine (chronicle_nothing_new io fexp mdl _ e _ False _ _ _ _ _ p0 Hs Hr Hf (proj1 He) fixed_zero S1 _ Hh _ _).
  - intros ms y z Hy Hz; destruct (N3 _ Hy) as [x Hx]; exact (S2 _ _ _ _ _ Hx Hz).
  - intros p E; rewrite Et in E; injection E as <-; repeat split; auto; left; split; auto.
  - eapply created_known; eauto.
Qed.
Lemma aga_nothing_new (f : PS -> population I -> M (bool * PS)) fuel s init q ps r :
  selector_left_alone mdl -> rates_left_alone mdl -> settled mdl -> fits_usize (aga_population_size q) -> fits_usize (length init) ->
  flt f0 (fst (aga_crossover_rate_range q)) = false -> flt f0 (snd (aga_crossover_rate_range q)) = false ->
  flt f0 (fst (aga_mutation_rate_range q)) = false -> flt f0 (snd (aga_mutation_rate_range q)) = false ->
  may (evolve_population io fexp mdl AGA (quiet f) fuel s init q ps) r -> nothing_new (r_trace r).
Proof.
  intros Hs Hr [S1 S2] Hf Hl Z1 Z2 Z3 Z4 H; pose proof H as H'; unfold evolve_population in H'; apply may_bind in H' as (s1 & Hc0 & _).
  pose proof (aga_configured_accepted s q s1 Hf Hc0) as D; clear s1 Hc0.
  destruct (aga_history io fexp mdl f fuel s init q ps r Hf H) as (e & sel & p0 & tl & He & Hc & Et & Hb & Hh).
  destruct (begins_fits _ _ _ Hl Hb) as (N1 & N2 & N3).
  assert (G0 : generation p0 = 0).
  { unfold evolve_population in H; apply may_bind in H as (s1 & _ & H); apply may_bind in H as (q0 & Hq0 & H).
    destruct (loop_trace _ _ _ _ _ _ _ _ _ _ _ H) as (t0 & E0 & _); cbn [app] in E0; rewrite E0 in Et; injection Et as -> _.
    exact (init_generation io mdl _ _ _ Hq0). }
  apply (nothing_new_from p0 tl _ Et).
  refine (chronicle_nothing_new io fexp mdl _ e _ True _ _ _ _ _ p0 Hs Hr Hf (proj1 He)
    (fun p o w => adaptive_zero q (deviation p0) p o w D Z1 Z2 Z3 Z4) S1 _ Hh _ _).
  - intros ms y z Hy Hz; destruct (N3 _ Hy) as [x Hx]; exact (S2 _ _ _ _ _ Hx Hz).
  - intros p E; rewrite Et in E; injection E as <-; repeat split; auto.
  - eapply created_known; eauto.
Qed.

End Instances.
