(** * PAllele: crossover keeps what the parents agree on, and runs without mutation (C111). *)
From Coq Require Import List Bool Arith NArith ZArith Reals Lia Permutation.
From Flocq Require Import Core BinarySingleNaN.
From Verif Require Import Rnd LRnd F64 LF64 MStats MOperators MCrossover MMutation MPopulation MSelection MModel MAlgorithms MOneMax
  Spec SpecC SpecF SpecA SpecK SpecH SpecT SpecY POperatorsRandom PCrossoverPmx PCrossoverOx PCrossoverAll PCrossoverAny2 PCrossoverAny3
  PSelection PSelection2 PPopulation PModel PAlgorithms PAlgorithms2 PRun PRun3 PHist PHist2 PKeep.
Import ListNotations.
Local Open Scope nat_scope.

(** ** Crossover *)
Section Crossover.
Context {G : Type} (eqb ltb : G -> G -> bool).
Hypothesis Heq : eq_ok eqb.

Lemma positional_from fuel s (p1 p2 r : list G) : positional s -> may (crossover eqb ltb fuel s p1 p2) r ->
  forall i, nth_error r i = nth_error p1 i \/ nth_error r i = nth_error p2 i.
Proof. intros Hs H; pose proof (crossover_any eqb ltb Heq fuel s p1 p2 r H) as (_ & _ & A); destruct Hs as [-> | ->]; exact A. Qed.

Lemma pmx_agree fuel (p1 p2 r : list G) i g : NoDup p1 -> may (crossover eqb ltb fuel PartiallyMapped p1 p2) r ->
  holds_at i g p1 -> holds_at i g p2 -> holds_at i g r.
Proof.
  unfold holds_at; intros Hn H H1 H2.
  destruct (crossover_any eqb ltb Heq fuel _ p1 p2 r H) as (_ & L & _); destruct (L ltac:(discriminate)) as [L1 L2].
  cbn [crossover] in H; apply may_bind in H as ([a b] & Hr & H).
  assert (Hi : i < length p1) by (apply nth_error_Some; congruence).
  destruct (Nat.le_gt_cases 2 (length p1)) as [Hl|Hl].
  - pose proof (must_may _ _ _ (random_range_must (length p1) ltac:(lia)) Hr) as Hab; cbn in Hab.
    apply (pmx_any eqb Heq) in H as (_ & Hin & Hout); [|lia..].
    assert (D : a <= i < b \/ ~ (a <= i < b)) by lia; destruct D as [D|D]; [rewrite Hin; auto|].
    destruct (Hout i g D H2) as (x & Hx & Hc); rewrite Hx; f_equal; inversion Hc as [g' Hg|g' j h r' Hj _ _ _]; subst; auto.
    exfalso; unfold segment in Hj.
    assert (Hj' : nth_error p1 (a + j) = Some g /\ j < b - a).
    { destruct (Nat.lt_ge_cases j (b - a)) as [Hlt|Hge].
      - rewrite nth_error_firstn' in Hj by auto; rewrite nth_error_skipn' in Hj; auto.
      - exfalso; assert (nth_error (firstn (b - a) (skipn a p1)) j = None) by (apply nth_error_None; rewrite firstn_length; lia); congruence. }
    destruct Hj' as [Hj' Hlt]; rewrite NoDup_nth_error in Hn; specialize (Hn i (a + j) Hi); rewrite H1, Hj' in Hn.
    specialize (Hn eq_refl); lia.
  - unfold partially_mapped_crossover in H; rewrite L2, Nat.eqb_refl in H; cbn [massert bind] in H.
    rewrite (proj2 (Nat.ltb_lt _ _)) in H by lia; cbn in H; subst; auto.
Qed.

Lemma crossover_agree fuel s (p1 p2 r : list G) i g : positional s \/ s = PartiallyMapped /\ NoDup p1 ->
  may (crossover eqb ltb fuel s p1 p2) r -> holds_at i g p1 -> holds_at i g p2 -> holds_at i g r.
Proof.
  intros [Hs|[-> Hn]] H H1 H2; [|eapply pmx_agree; eauto].
  unfold holds_at in *; destruct (positional_from _ _ _ _ _ Hs H i) as [-> | ->]; auto.
Qed.
End Crossover.

(** ** Runs *)
Section Keep.
Context {I : Type} (io : individual_ops I) (fexp : f64 -> f64) {MS : Type} (mdl : model I MS) (raw good : I -> Prop).
Hypothesis Hk : crossing_keeps mdl raw good.

Lemma breed_crossing ms p b x : only_members io fexp (parent_selector b) p -> flt f0 (mutation_rate b) = false ->
  (forall y, In y (individuals p) -> good y) -> may (breed io fexp mdl ms p b) x -> good x.
Proof.
  destruct Hk as (K1 & K2 & K4 & K5).
  intros Hsel Hm Hv H; unfold breed in H; apply may_bind in H as ([i1 parent1] & H1 & H).
  apply may_bind in H as (o & Ho & H); apply Hsel in H1; cbn [snd] in H1.
  assert (Hp2 : forall q, o = Some q -> In q (individuals p)) by (intros q ->; eapply parent2_member; eauto).
  unfold breed_from in H; apply may_bind in H as (o1 & Ho1 & H).
  apply may_bind in H as (u & Hu & H); apply may_bind in H as (o2 & Ho2 & H).
  apply may_bind in H as (o3 & Ho3 & H); apply may_bind in H as (o4 & Ho4 & H).
  apply may_bind in H as (sv & Hsv & H); cbn in H.
  assert (R1 : raw o1) by (destruct o as [q|]; [eapply K2; [| |exact Ho1]; auto|cbn in Ho1; subst; auto]).
  assert (R2 : raw o2) by (apply may_gen_f64 in Hu as (j & Hj & <-); rewrite unit_not_below in Ho2 by auto; cbn in Ho2; subst; auto).
  assert (R3 : raw o3) by (eapply K4; eauto).
  destruct sv; [subst x; eapply K5; eauto|].
  subst x; destruct o as [q|]; auto; destruct (fgt _ _); auto.
Qed.

Context (n e : nat) (rates : population I -> f64 * f64 -> f64 * f64 -> Prop).
Definition still (o : f64 * f64) : Prop := flt f0 (snd o) = false.

Lemma chronicle_crossing (A : Prop) ms b tr msl bl :
  selector_left_alone mdl -> rates_left_alone mdl -> fits_usize n -> e < n ->
  (forall p o w, rates p o w -> still o \/ (A /\ generation p = 0) -> still w) ->
  chronicle io fexp mdl n e rates ms b tr msl bl ->
  (forall p, hd_error tr = Some p -> (still (crossover_rate b, mutation_rate b) \/ (A /\ generation p = 0)) /\
     individuals p <> [] /\ fits_usize (length (individuals p)) /\ forall x, In x (individuals p) -> good x) ->
  known (parent_selector b) ->
  forall p x, In p tr -> In x (individuals p) -> good x.
Proof.
  intros Hs Hr Hn Hen Hra H; induction H as [ms b p|ms b p cr mr ms' b1 sel bred p' t msl bl H1 H2 H3 H4 H5 H6 H7 IH]; intros H0 Hkn;
    destruct (H0 p eq_refl) as (Hz & N1 & N2 & Hp).
  - intros q x [<-|[]] Hx; exact (Hp _ Hx).
  - pose proof (Hra _ _ _ H1 Hz) as Z2; unfold still in Z2; cbn [snd] in Z2.
    destruct (Hr _ _ _ _ _ H2) as [R1 R2]; apply Hs in H2; cbn [parent_selector crossover_rate mutation_rate] in *.
    rewrite H2 in H3; pose proof (prepare_known _ _ _ _ _ Hkn H3) as Hk'; destruct H6 as (A1 & A2 & A3).
    assert (Hp' : forall x, In x (individuals p') -> good x).
    { intros x Hx; apply (proj1 A3) in Hx; apply in_app_or in Hx as [Hx|Hx]; [eapply Hp, top_in, Hx|].
      refine (breed_crossing _ _ _ _ _ _ Hp (H5 x Hx)); cbn [parent_selector mutation_rate].
      - apply known_members; auto.
      - rewrite R2; auto. }
    intros q x [<-|Hq] Hx; [auto|].
    refine (IH _ _ q x Hq Hx); auto.
    intros q' E; injection E as <-; split; [left; unfold still; cbn; rewrite R2; auto|]; split; [auto|]; split; [|auto].
    rewrite app_length, H4 in A2; cbv zeta in A2.
    assert (length (top e p) <= e) by (unfold top; rewrite skipn_length; lia).
    unfold fits_usize in *; destruct (_ =? 1); lia.
Qed.
End Keep.

Lemma fixed_still {I} (p : population I) o w : fixed_rates p o w -> still o \/ (False /\ generation p = 0) -> still w.
Proof. intros -> [H|[[] _]]; exact H. Qed.

Lemma adaptive_still {I} q d (p : population I) o w : aga_accepted q ->
  flt f0 (fst (aga_mutation_rate_range q)) = false -> flt f0 (snd (aga_mutation_rate_range q)) = false ->
  adaptive_rates q d p o w -> still o \/ (True /\ generation p = 0) -> still w.
Proof.
  intros (_ & _ & _ & _ & A3 & A4 & _) Z3 Z4 (H1 & H2 & H3) H.
  destruct (Nat.eq_dec (generation p) 0) as [G|G]; [rewrite (H1 G); exact Z3|destruct H as [H|[_ H]]; [|congruence]].
  assert (D : adjusts (aga_parameter_adjustment_interval q) (generation p) \/ ~ adjusts (aga_parameter_adjustment_interval q) (generation p)).
  { unfold adjusts; destruct (Nat.eq_dec (aga_parameter_adjustment_interval q) 0) as [E|E]; [right; tauto|].
    destruct (Nat.eq_dec (generation p mod aga_parameter_adjustment_interval q) 0) as [M0|M0];
      rewrite Nat.mod_divide in M0 by auto; tauto. }
  destruct D as [D|D]; [rewrite (H2 D)|rewrite (H3 G D); exact H].
  destruct (rate_zero _ A3 Z3) as [s3 E3], (rate_zero _ A4 Z4) as [s4 E4].
  destruct (aga_mutation_rate_range q) as [m1 m2]; cbn [fst snd] in *; subst.
  unfold still; cbn [snd]; apply point_zero.
Qed.

Section Instances.
Context {I : Type} (io : individual_ops I) (fexp : f64 -> f64) {MS : Type} (mdl : model I MS) {PS : Type}.
Notation GA := (ga_algorithm io fexp mdl).
Notation AGA := (aga_algorithm io fexp mdl).

Lemma begins_good (raw good : I -> Prop) ms init p0 : crossing_keeps mdl raw good -> fits_usize (length init) -> Forall raw init ->
  begins io mdl ms init p0 ->
  individuals p0 <> [] /\ fits_usize (length (individuals p0)) /\ forall x, In x (individuals p0) -> good x.
Proof.
  intros (_ & _ & _ & K5) Hf Hr Hb; destruct (begins_fits io mdl _ _ _ Hf Hb) as (N1 & N2 & _); split; [auto|]; split; [auto|].
  destruct Hb as (ev & H1 & H2 & H3 & H4 & _); intros x Hx; apply H4, filter_In in Hx as [Hx _].
  clear - H1 Hx Hr K5; induction H1 as [|a b l l' Hab _ IH]; [destruct Hx|inversion Hr; subst; destruct Hx as [<-|Hx]; eauto].
Qed.

Lemma ga_crossing (raw good : I -> Prop) (f : PS -> population I -> M (bool * PS)) fuel s init q ps r :
  crossing_keeps mdl raw good -> selector_left_alone mdl -> rates_left_alone mdl ->
  fits_usize (ga_population_size q) -> fits_usize (length init) -> Forall raw init ->
  flt f0 (ga_mutation_rate q) = false ->
  may (evolve_population io fexp mdl GA (quiet f) fuel s init q ps) r ->
  forall p x, In p (r_trace r) -> In x (individuals p) -> good x.
Proof.
  intros Hk Hs Hr Hf Hl Hraw Z H; destruct (ga_history io fexp mdl f fuel s init q ps r Hf H) as (e & sel & p0 & tl & He & Hc & Et & Hb & Hh).
  destruct (begins_good _ _ _ _ _ Hk Hl Hraw Hb) as (N1 & N2 & N3).
  refine (chronicle_crossing io fexp mdl raw good Hk _ e _ False _ _ _ _ _ Hs Hr Hf (proj1 He) fixed_still Hh _ _).
  - intros p E; rewrite Et in E; injection E as <-; repeat split; auto; left; exact Z.
  - eapply created_known; eauto.
Qed.
Lemma aga_crossing (raw good : I -> Prop) (f : PS -> population I -> M (bool * PS)) fuel s init q ps r :
  crossing_keeps mdl raw good -> selector_left_alone mdl -> rates_left_alone mdl ->
  fits_usize (aga_population_size q) -> fits_usize (length init) -> Forall raw init ->
  flt f0 (fst (aga_mutation_rate_range q)) = false -> flt f0 (snd (aga_mutation_rate_range q)) = false ->
  may (evolve_population io fexp mdl AGA (quiet f) fuel s init q ps) r ->
  forall p x, In p (r_trace r) -> In x (individuals p) -> good x.
Proof.
  intros Hk Hs Hr Hf Hl Hraw Z3 Z4 H; pose proof H as H'; unfold evolve_population in H'; apply may_bind in H' as (s1 & Hc0 & _).
  pose proof (aga_configured_accepted s q s1 Hf Hc0) as D; clear s1 Hc0.
  destruct (aga_history io fexp mdl f fuel s init q ps r Hf H) as (e & sel & p0 & tl & He & Hc & Et & Hb & Hh).
  destruct (begins_good _ _ _ _ _ Hk Hl Hraw Hb) as (N1 & N2 & N3).
  assert (G0 : generation p0 = 0).
  { unfold evolve_population in H; apply may_bind in H as (s1 & _ & H); apply may_bind in H as (q0 & Hq0 & H).
    destruct (loop_trace _ _ _ _ _ _ _ _ _ _ _ H) as (t0 & E0 & _); cbn [app] in E0; rewrite E0 in Et; injection Et as -> _.
    exact (init_generation io mdl _ _ _ Hq0). }
  refine (chronicle_crossing io fexp mdl raw good Hk _ e _ True _ _ _ _ _ Hs Hr Hf (proj1 He)
    (fun p o w => adaptive_still q (deviation p0) p o w D Z3 Z4) Hh _ _).
  - intros p E; rewrite Et in E; injection E as <-; repeat split; auto.
  - eapply created_known; eauto.
Qed.
End Instances.
