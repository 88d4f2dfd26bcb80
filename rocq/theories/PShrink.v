(** * PShrink: proofs about runs without variation (C133). *)
From Coq Require Import List Bool Arith NArith ZArith Reals Lra Lia Permutation.
From Flocq Require Import Core BinarySingleNaN.
From Verif Require Import Rnd LRnd Prob LProb F64 LF64 MStats MPopulation MSelection MModel MAlgorithms SpecF SpecA SpecH
  PSelection PSelection2 PSelection3 PPopulation PModel PAlgorithms PAlgorithms2 PRun PRun3 PRun4 PHist PHist2 PIndep PMix SpecShrink PRun5 ExF ExM ExR ExH PHistEx.
Import ListNotations.
Local Open Scope nat_scope.

Section Steps.
Context {I : Type} (io : individual_ops I) (fexp : f64 -> f64) {MS : Type} (mdl : model I MS)
  (n e : nat) (rates : population I -> f64 * f64 -> f64 * f64 -> Prop).

Lemma chronicle_shrinks (A : Prop) ms b tr msl bl (p0 : population I) :
  selector_left_alone mdl -> rates_left_alone mdl -> fits_usize n -> e < n ->
  (forall p o w, rates p o w -> zero o \/ (A /\ generation p = 0) -> zero w) ->
  (forall ms x y, may (m_improve mdl ms x) y -> y = x) ->
  (forall ms y z, In y (individuals p0) -> may (m_evaluate mdl ms y) z -> z = y) ->
  chronicle io fexp mdl n e rates ms b tr msl bl ->
  (forall p, hd_error tr = Some p -> (zero (crossover_rate b, mutation_rate b) \/ (A /\ generation p = 0)) /\
     individuals p <> [] /\ fits_usize (length (individuals p)) /\ forall x, In x (individuals p) -> In x (individuals p0)) ->
  known (parent_selector b) ->
  forall k p p' x, nth_error tr k = Some p -> nth_error tr (S k) = Some p' -> In x (individuals p') -> In x (individuals p).
Proof.
  intros Hs Hr Hn Hen Hra Hi He H; induction H as [ms b p|ms b p cr mr ms' b1 sel bred p' t msl bl H1 H2 H3 H4 H5 H6 H7 IH]; intros H0 Hk;
    destruct (H0 p eq_refl) as (Hz & N1 & N2 & Hp).
  - intros [|k] q q' x; cbn; [discriminate|destruct k; discriminate].
  - destruct (Hra _ _ _ H1 Hz) as [Z1 Z2]; cbn [fst snd] in Z1, Z2.
    destruct (Hr _ _ _ _ _ H2) as [R1 R2]; apply Hs in H2; cbn [parent_selector crossover_rate mutation_rate] in *.
    rewrite H2 in H3; pose proof (prepare_known _ _ _ _ _ Hk H3) as Hk'; destruct H6 as (A1 & A2 & A3).
    assert (Hp1 : forall x, In x (individuals p') -> In x (individuals p)).
    { intros x Hx; apply (proj1 A3) in Hx; apply in_app_or in Hx as [Hx|Hx]; [exact (top_in e p x Hx)|].
      refine (breed_plain io fexp mdl _ _ _ _ _ _ _ Hi _ (H5 x Hx)); cbn [parent_selector crossover_rate mutation_rate].
      - apply known_members; auto.
      - rewrite R1; auto.
      - rewrite R2; auto.
      - intros y z Hy; apply He, Hp, Hy. }
    assert (Hp' : forall x, In x (individuals p') -> In x (individuals p0)) by auto.
    intros [|k] q q' x Hq Hq' Hx; [injection Hq as <-; injection Hq' as <-; auto|].
    refine (IH _ _ k q q' x Hq Hq' Hx); auto.
    intros q1 E; injection E as <-; split; [left; split; cbn; [rewrite R1|rewrite R2]; auto|]; split; [auto|]; split; [|auto].
    rewrite app_length, H4 in A2; cbv zeta in A2.
    assert (length (top e p) <= e) by (unfold top; rewrite skipn_length; lia).
    unfold fits_usize in *; destruct (_ =? 1); lia.
Qed.
End Steps.

Section Instances.
Context {I : Type} (io : individual_ops I) (fexp : f64 -> f64) {MS : Type} (mdl : model I MS) {PS : Type}.
Notation GA := (ga_algorithm io fexp mdl).
Notation AGA := (aga_algorithm io fexp mdl).

Lemma ga_sheds (f : PS -> population I -> M (bool * PS)) fuel s init q ps r :
  selector_left_alone mdl -> rates_left_alone mdl -> settled mdl -> fits_usize (ga_population_size q) -> fits_usize (length init) ->
  flt f0 (ga_crossover_rate q) = false -> flt f0 (ga_mutation_rate q) = false ->
  may (evolve_population io fexp mdl GA (quiet f) fuel s init q ps) r -> sheds (r_trace r).
Proof.
  intros Hs Hr [S1 S2] Hf Hl Z1 Z2 H; destruct (ga_history io fexp mdl f fuel s init q ps r Hf H) as (e & sel & p0 & tl & He & Hc & Et & Hb & Hh).
  destruct (begins_fits io mdl _ _ _ Hl Hb) as (N1 & N2 & N3).
  intros k p p' x Hk Hk'; revert k p p' x Hk Hk'.
  refine (chronicle_shrinks io fexp mdl _ e _ False _ _ _ _ _ p0 Hs Hr Hf (proj1 He) fixed_zero S1 _ Hh _ _).
  - intros ms y z Hy Hz; destruct (N3 _ Hy) as [x Hx]; exact (S2 _ _ _ _ _ Hx Hz).
  - intros p E; rewrite Et in E; injection E as <-; repeat split; auto; left; split; auto.
  - eapply created_known; eauto.
Qed.
Lemma aga_sheds (f : PS -> population I -> M (bool * PS)) fuel s init q ps r :
  selector_left_alone mdl -> rates_left_alone mdl -> settled mdl -> fits_usize (aga_population_size q) -> fits_usize (length init) ->
  flt f0 (fst (aga_crossover_rate_range q)) = false -> flt f0 (snd (aga_crossover_rate_range q)) = false ->
  flt f0 (fst (aga_mutation_rate_range q)) = false -> flt f0 (snd (aga_mutation_rate_range q)) = false ->
  may (evolve_population io fexp mdl AGA (quiet f) fuel s init q ps) r -> sheds (r_trace r).
Proof.
  intros Hs Hr [S1 S2] Hf Hl Z1 Z2 Z3 Z4 H; pose proof H as H'; unfold evolve_population in H'; apply may_bind in H' as (s1 & Hc0 & _).
  pose proof (aga_configured_accepted s q s1 Hf Hc0) as D; clear s1 Hc0.
  destruct (aga_history io fexp mdl f fuel s init q ps r Hf H) as (e & sel & p0 & tl & He & Hc & Et & Hb & Hh).
  destruct (begins_fits io mdl _ _ _ Hl Hb) as (N1 & N2 & N3).
  assert (G0 : generation p0 = 0).
  { unfold evolve_population in H; apply may_bind in H as (s1 & _ & H); apply may_bind in H as (q0 & Hq0 & H).
    destruct (loop_trace _ _ _ _ _ _ _ _ _ _ _ H) as (t0 & E0 & _); cbn [app] in E0; rewrite E0 in Et; injection Et as -> _.
    exact (init_generation io mdl _ _ _ Hq0). }
  intros k p p' x Hk Hk'; revert k p p' x Hk Hk'.
  refine (chronicle_shrinks io fexp mdl _ e _ True _ _ _ _ _ p0 Hs Hr Hf (proj1 He)
    (fun p o w => adaptive_zero q (deviation p0) p o w D Z1 Z2 Z3 Z4) S1 _ Hh _ _).
  - intros ms y z Hy Hz; destruct (N3 _ Hy) as [x Hx]; exact (S2 _ _ _ _ _ Hx Hz).
  - intros p E; rewrite Et in E; injection E as <-; repeat split; auto.
  - eapply created_known; eauto.
Qed.


(** ** Sizes *)
Lemma run_adjacent {P S0} (alg : algorithm I MS P S0) (f : PS -> population I -> M (bool * PS)) fuel s init q ps r :
  may (evolve_population io fexp mdl alg (quiet f) fuel s init q ps) r ->
  forall p, In p (r_trace r) -> no_adjacent_equal io (individuals p).
Proof.
  unfold evolve_population; intros H; apply may_bind in H as (s1 & _ & H); apply may_bind in H as (p & Hp & H).
  assert (Hi : no_adjacent_equal io (individuals p)).
  { unfold initialize_population in Hp; apply may_bind in Hp as (ev & _ & Hp).
    assert (Hne : filter (is_valid io) ev <> []) by (intros E; rewrite E in Hp; eapply must_fail_no_may; [apply (new_empty io)|exact Hp]).
    destruct (must_may _ _ _ (new_must io _ Hne) Hp) as ((_ & _ & E & _) & _); exact E. }
  refine (match loop_inv io fexp mdl alg f (fun _ p => no_adjacent_equal io (individuals p)) (fun _ _ => True) fuel _ s1 p ps [] r Hi H
    with ex_intro _ t (conj Et (conj A _)) => _ end).
  - intros s0 p0 s' p' _ Hs; split; auto; apply step_may in Hs as (el & off & _ & _ & _ & Hs & Hne).
    destruct (must_may _ _ _ (replace_must io p0 off Hne) Hs) as ((_ & _ & E & _) & _); exact E.
  - intros q0 Hq; cbn [app] in Et; rewrite Et in Hq; apply In_nth_error in Hq as [k Hk].
    destruct (A k q0 Hk) as [_ E]; exact E.
Qed.

Lemma unique_nodup p : fitness_decides io -> well_formed io p -> (forall x, In x (individuals p) -> is_valid io x = true) ->
  no_adjacent_equal io (individuals p) -> NoDup (individuals p).
Proof.
  intros Hd (W1 & W2 & W3 & W4) Hv Ha.
  assert (U : forall i j x y, i < j -> nth_error (individuals p) i = Some x -> nth_error (individuals p) j = Some y -> ieq io y x = false).
  { apply (unique_if_fitness_decides io (individuals p) p W2); [auto|].
    split; [auto|]; split; [split; auto|]; repeat split; auto. }
  apply NoDup_nth_error; intros i j Hi E.
  destruct (nth_error (individuals p) i) as [x|] eqn:Ex; [|apply nth_error_None in Ex; lia].
  assert (Hx : ieq io x x = true).
  { apply Hd; try (apply Hv; eapply nth_error_In; eauto); apply feq_spec; repeat split; try (apply W2; eapply nth_error_In; eauto); auto. }
  destruct (lt_eq_lt_dec i j) as [[L|L]|L]; auto; exfalso.
  - rewrite (U i j x x L Ex (eq_sym E)) in Hx; discriminate.
  - rewrite (U j i x x L (eq_sym E) Ex) in Hx; discriminate.
Qed.

Lemma sheds_never_grows n (t : list (population I)) : fitness_decides io -> good_trace io n t ->
  (forall p, In p t -> no_adjacent_equal io (individuals p)) -> sheds t -> never_grows t.
Proof.
  intros Hd Hg Ha Hs k p p' H H'; apply NoDup_incl_length.
  - destruct (Hg _ _ H') as (_ & W & V & _); apply unique_nodup; auto; apply Ha; eapply nth_error_In; eauto.
  - intros x Hx; exact (Hs k p p' x H H' Hx).
Qed.

Lemma ga_never_grows (f : PS -> population I -> M (bool * PS)) fuel s init q ps r :
  selector_left_alone mdl -> rates_left_alone mdl -> settled mdl -> valid_is_number io -> fitness_decides io ->
  fits_usize (ga_population_size q) -> fits_usize (length init) ->
  flt f0 (ga_crossover_rate q) = false -> flt f0 (ga_mutation_rate q) = false ->
  may (evolve_population io fexp mdl GA (quiet f) fuel s init q ps) r -> never_grows (r_trace r).
Proof.
  intros Hs Hr Ht Hv Hd Hf Hl Z1 Z2 H; eapply sheds_never_grows; [auto|eapply ga_good; eauto|eapply run_adjacent; eauto|eapply ga_sheds; eauto].
Qed.
Lemma aga_never_grows (f : PS -> population I -> M (bool * PS)) fuel s init q ps r :
  selector_left_alone mdl -> rates_left_alone mdl -> settled mdl -> valid_is_number io -> fitness_decides io ->
  fits_usize (aga_population_size q) -> fits_usize (length init) ->
  flt f0 (fst (aga_crossover_rate_range q)) = false -> flt f0 (snd (aga_crossover_rate_range q)) = false ->
  flt f0 (fst (aga_mutation_rate_range q)) = false -> flt f0 (snd (aga_mutation_rate_range q)) = false ->
  may (evolve_population io fexp mdl AGA (quiet f) fuel s init q ps) r -> never_grows (r_trace r).
Proof.
  intros Hs Hr Ht Hv Hd Hf Hl Z1 Z2 Z3 Z4 H; eapply sheds_never_grows; [auto|eapply aga_good; eauto|eapply run_adjacent; eauto|eapply aga_sheds; eauto].
Qed.
End Instances.

(** ** Laws *)
Section Laws.
Context {I : Type} (io : individual_ops I) (fexp : f64 -> f64) {MS : Type} (mdl : model I MS).
Local Open Scope R_scope.

Definition plain (ms : MS) (p : population I) : Prop := forall x, In x (individuals p) ->
  must (m_improve mdl ms x) (eq x) /\ must (m_evaluate mdl ms x) (eq x) /\ must (m_can_survive mdl ms x x p) (fun _ => True).

Lemma plain_from ms p b x : plain ms p -> In x (individuals p) ->
  flt f0 (mutation_rate b) = false -> must (breed_from io mdl ms p b x None) (eq x).
Proof.
  intros Hp Hx Hm; destruct (Hp x Hx) as (P1 & P2 & P3); unfold breed_from; cbn [bind].
  apply must_bind, must_gen_f64; intros u Hu; rewrite unit_not_below by auto; cbn [bind].
  eapply must_bind_intro; [exact P1|]; intros y <-; eapply must_bind_intro; [exact P2|]; intros z <-.
  apply must_bind_intro with (Q := fun _ => True); [destruct (is_valid io x); [exact P3|cbn; auto]|].
  intros [|] _; reflexivity.
Qed.

Lemma plain_parent2 p b x : flt f0 (crossover_rate b) = false -> must (breed_parent2 io fexp p b x) (eq None).
Proof.
  intros Hc; unfold breed_parent2; destruct (_ <? _)%nat; [|reflexivity].
  apply must_bind, must_gen_f64; intros u Hu; rewrite unit_not_below by auto; reflexivity.
Qed.

Lemma plain_breed ms p b : selects_members io fexp (parent_selector b) p -> plain ms p ->
  flt f0 (crossover_rate b) = false -> flt f0 (mutation_rate b) = false -> must (breed io fexp mdl ms p b) (fun _ => True).
Proof.
  intros Hs Hp Hc Hm; unfold breed; eapply must_bind_intro; [exact Hs|]; intros [i x] Hx; cbn [snd] in Hx.
  eapply must_bind_intro; [apply plain_parent2; auto|]; intros o <-.
  eapply must_mono; [|apply plain_from; eauto]; auto.
Qed.

Lemma plain_law ms p b (Q : I -> bool) : match parent_selector b with Custom _ _ _ _ => False | _ => True end ->
  selects_members io fexp (parent_selector b) p -> plain ms p ->
  flt f0 (crossover_rate b) = false -> flt f0 (mutation_rate b) = false ->
  prob (breed io fexp mdl ms p b) Q = prob (select io fexp (parent_selector b) p) (fun r => Q (snd r)).
Proof.
  intros Hb Hs Hp Hc Hm; pose proof (no_pick_select io fexp _ p Hb) as Np; unfold breed; rewrite !prob_expect, expect_bind.
  apply expect_supp; auto; intros [i x] Hr; pose proof (must_may _ _ _ Hs Hr) as Hx; cbn [snd] in Hx |- *.
  rewrite <- prob_expect; assert (B : 0 <= (if Q x then 1 else 0) <= 1) by (destruct (Q x); lra).
  eapply prob_bind_const; [exact B|apply plain_parent2; auto|]; intros o <-.
  pose proof (plain_from ms p b x Hp Hx Hm) as H.
  transitivity (prob (bind (breed_from io mdl ms p b x None) (fun y => Ret y)) Q); [rewrite !prob_expect, expect_bind; reflexivity|].
  eapply prob_bind_const; [exact B|exact H|]; intros y <-; reflexivity.
Qed.

Lemma lost_law ms p b size elites (Q : I -> bool) : match parent_selector b with Custom _ _ _ _ => False | _ => True end ->
  selects_members io fexp (parent_selector b) p -> plain ms p ->
  flt f0 (crossover_rate b) = false -> flt f0 (mutation_rate b) = false -> (2 <= size - length elites)%nat ->
  prob (generate_new_population io fexp mdl ms (b, size) p elites) (fun l => forallb (fun x => negb (Q x)) (skipn (length elites) l))
  = (1 - prob (select io fexp (parent_selector b) p) (fun r => Q (snd r))) ^ (size - length elites).
Proof.
  intros Hb Hs Hp Hc Hm H2; rewrite offspring_all by (auto; apply plain_breed; auto).
  rewrite plain_law by auto; f_equal; rewrite !prob_expect.
  rewrite (expect_ext _ _ (fun r => (-1) * (if Q (snd r) then 1 else 0) + 1)) by (intros r; destruct (Q (snd r)); cbn; lra).
  rewrite (expect_affine _ _ _ (-1) 1 (no_pick_select io fexp _ p Hb) Hs); ring.
Qed.
End Laws.

(** ** An example *)
Definition ex_io9 : individual_ops nat :=
  {| fitness := f_of_nat; is_valid := fun x => (1 <=? x) && (x <=? 9); ieq := Nat.eqb |}.
Definition ex_model9 : model nat unit := {|
  m_crossover := fun _ a b => Ret (a + b);
  m_mutate := fun _ a => Ret (S a);
  m_improve := default_improve;
  m_evaluate := fun _ a => Ret a;
  m_can_survive := default_can_survive ex_io9;
  m_pre_generation := default_pre_generation |}.
Definition ex_run9 : M (run_result nat (ga_state nat unit) unit) :=
  evolve_population ex_io9 ex_exp ex_model9 (ga_algorithm ex_io9 ex_exp ex_model9) (quiet (stop_at 2)) 3 (ga_from tt) [3; 5; 7; 9]
    (ex_ga4 f0 f0 (StTournament 1)) tt.
Definition ex_run9a : M (run_result nat (aga_state nat unit) unit) :=
  evolve_population ex_io9 ex_exp ex_model9 (aga_algorithm ex_io9 ex_exp ex_model9) (quiet (stop_at 2)) 3 (aga_from tt) [3; 5; 7; 9]
    (ex_aga4 (f0, f0) (f0, f0) (StTournament 1)) tt.

Lemma nine x : is_valid ex_io9 x = true -> In x [1; 2; 3; 4; 5; 6; 7; 8; 9].
Proof. cbn [is_valid ex_io9]; intros H; apply andb_true_iff in H as [A B]; apply Nat.leb_le in A; apply Nat.leb_le in B; cbn [In]; lia. Qed.
Lemma nine_decides : fitness_decides ex_io9.
Proof.
  intros x y Hx Hy; apply nine in Hx; apply nine in Hy.
  assert (C : forallb (fun x => forallb (fun y => Bool.eqb (ieq ex_io9 x y) (feq (fitness ex_io9 x) (fitness ex_io9 y))) [1; 2; 3; 4; 5; 6; 7; 8; 9]) [1; 2; 3; 4; 5; 6; 7; 8; 9] = true) by (vm_compute; reflexivity).
  rewrite forallb_forall in C; specialize (C x Hx); rewrite forallb_forall in C; specialize (C y Hy).
  apply Bool.eqb_prop in C; rewrite C; tauto.
Qed.
Lemma nine_number : valid_is_number ex_io9.
Proof.
  intros x Hx; apply nine in Hx.
  assert (C : forallb (fun x => negb (is_nan (fitness ex_io9 x))) [1; 2; 3; 4; 5; 6; 7; 8; 9] = true) by (vm_compute; reflexivity).
  rewrite forallb_forall in C; specialize (C x Hx); apply negb_true_iff in C; exact C.
Qed.
Lemma nine_model : selector_left_alone ex_model9 /\ rates_left_alone ex_model9 /\ settled ex_model9.
Proof.
  split; [intros ms p b ms' b' [= <- <-]; auto|]; split; [intros ms p b ms' b' [= <- <-]; auto|].
  split; [intros ms x y H; cbn in H; auto|intros ms ms' x y z H1 H2; cbn in H1, H2; congruence].
Qed.
Lemma nine_total : total_model ex_model9 (fun _ => True).
Proof. repeat split; cbn; intros; auto. Qed.
Lemma nine_must : must ex_run9 (fun _ => True).
Proof.
  eapply must_mono; [|refine (proj2 (ga_total ex_io9 ex_exp ex_model9 (fun _ => True) (stop_at 2) (ga_from tt) [3; 5; 7; 9] (ex_ga4 f0 f0 (StTournament 1)) tt _ _ _ _ _ _ _ _) 2 _)].
  - auto.
  - split; [discriminate|]; split; [apply ratio_lit; vm_compute; reflexivity|]; split; [exact rate0|]; split; [exact rate0|cbn; discriminate].
  - cbn; lia.
  - apply small_fits; cbn; lia.
  - apply small_fits; cbn; lia.
  - exact Logic.I.
  - exact nine_total.
  - split; [repeat constructor|]; exists 3; split; [left; auto|reflexivity].
  - intros; apply stop_total.
  - intros; apply stop_stops; auto.
Qed.
Lemma nine_musta : must ex_run9a (fun _ => True).
Proof.
  eapply must_mono; [|refine (proj2 (aga_total ex_io9 ex_exp ex_model9 (fun _ => True) (stop_at 2) (aga_from tt) [3; 5; 7; 9] (ex_aga4 (f0, f0) (f0, f0) (StTournament 1)) tt _ _ _ _ _ _ _ _) 2 _)].
  - auto.
  - split; [discriminate|]; split; [apply ratio_lit; vm_compute; reflexivity|]; repeat (split; [exact rate0|]); cbn; discriminate.
  - cbn; lia.
  - apply small_fits; cbn; lia.
  - apply small_fits; cbn; lia.
  - exact Logic.I.
  - exact nine_total.
  - split; [repeat constructor|]; exists 3; split; [left; auto|reflexivity].
  - intros; apply stop_total.
  - intros; apply stop_stops; auto.
Qed.
Lemma shrink_example :
  selector_left_alone ex_model9 /\ rates_left_alone ex_model9 /\ settled ex_model9 /\ valid_is_number ex_io9 /\ fitness_decides ex_io9 /\
  (exists r, may ex_run9 r /\ map (@individuals nat) (r_trace r) = [[3; 5; 7; 9]; [3; 7; 9]; [3; 7; 9]]) /\
  (exists r, may ex_run9a r /\ map (@individuals nat) (r_trace r) = [[3; 5; 7; 9]; [3; 7; 9]; [3; 7; 9]]).
Proof.
  destruct nine_model as (A & B & C); repeat (split; [first [exact A|exact B|exact C|exact nine_number|exact nine_decides]|]); split.
  - destruct (possible ex_run9 (fun r => if list_eq_dec (list_eq_dec Nat.eq_dec) (map (@individuals nat) (r_trace r)) [[3; 5; 7; 9]; [3; 7; 9]; [3; 7; 9]] then true else false) nine_must) as (r & Hr & E); [vm_compute; reflexivity|].
    exists r; split; [exact Hr|]; destruct (list_eq_dec _ _ _); [assumption|discriminate].
  - destruct (possible ex_run9a (fun r => if list_eq_dec (list_eq_dec Nat.eq_dec) (map (@individuals nat) (r_trace r)) [[3; 5; 7; 9]; [3; 7; 9]; [3; 7; 9]] then true else false) nine_musta) as (r & Hr & E); [vm_compute; reflexivity|].
    exists r; split; [exact Hr|]; destruct (list_eq_dec _ _ _); [assumption|discriminate].
Qed.

(** Rank selection from three, two places: the worst one is selected once in six. *)
Lemma lost_example :
  let p := ex_popn ex_io9 [5; 7; 9] in let b := mkBreeding f0 f0 Rank in
  prob (generate_new_population ex_io9 ex_exp ex_model9 tt (b, 3) p [9])
    (fun l => forallb (fun x => negb (x =? 5)) (skipn (length [9]) l)) = (25 / 36)%R.
Proof.
  cbv zeta; rewrite (lost_law ex_io9 ex_exp ex_model9 tt (ex_popn ex_io9 [5; 7; 9]) (mkBreeding f0 f0 Rank) 3 [9] (fun x => x =? 5)).
  - assert (E : prob (select ex_io9 ex_exp Rank (ex_popn ex_io9 [5; 7; 9])) (fun r => snd r =? 5) = (1 / 6)%R).
    { transitivity (prob (select ex_io9 ex_exp Rank (ex_popn ex_io9 [5; 7; 9])) (fun r => fst r =? 0)).
      - rewrite !prob_expect; apply expect_supp; [apply no_pick_select; exact Logic.I|].
        assert (H : must (select ex_io9 ex_exp Rank (ex_popn ex_io9 [5; 7; 9])) (fun r => nth_error [5; 7; 9] (fst r) = Some (snd r))).
        { apply selection_member; [exact Logic.I|discriminate|apply small_fits; cbn; lia]. }
        intros r Hr; pose proof (must_may _ _ _ H Hr) as E; cbv beta in E.
        destruct r as [[|[|[|i]]] x]; cbn in E; [| | |destruct i; discriminate]; injection E as <-; reflexivity.
      - etransitivity; [apply (rank_law (ex_popn ex_io9 [5; 7; 9]) 0); cbn; lia|]; cbn; field. }
    cbn [parent_selector]; rewrite E; cbn; field.
  - exact Logic.I.
  - apply must_in_members; [exact Logic.I|discriminate|apply small_fits; cbn; lia].
  - intros x Hx; cbn; auto.
  - reflexivity.
  - reflexivity.
  - cbn; lia.
Qed.

(** ** Equally fit but different individuals: the same one can stay twice *)
Definition ex_model2 : model (nat * nat) unit := {|
  m_crossover := fun _ a b => Ret a;
  m_mutate := fun _ a => Ret a;
  m_improve := default_improve;
  m_evaluate := fun _ a => Ret a;
  m_can_survive := default_can_survive ex_io2;
  m_pre_generation := default_pre_generation |}.
Definition ex_run2 : M (run_result (nat * nat) (ga_state (nat * nat) unit) unit) :=
  evolve_population ex_io2 ex_exp ex_model2 (ga_algorithm ex_io2 ex_exp ex_model2) (quiet (stop_at 1)) 2 (ga_from tt) [(1, 0); (1, 1)]
    (ex_ga4 f0 f0 (StTournament 1)) tt.
Lemma two_must : must ex_run2 (fun _ => True).
Proof.
  eapply must_mono; [|refine (proj2 (ga_total ex_io2 ex_exp ex_model2 (fun _ => True) (stop_at 1) (ga_from tt) [(1, 0); (1, 1)] (ex_ga4 f0 f0 (StTournament 1)) tt _ _ _ _ _ _ _ _) 1 _)].
  - auto.
  - split; [discriminate|]; split; [apply ratio_lit; vm_compute; reflexivity|]; split; [exact rate0|]; split; [exact rate0|cbn; discriminate].
  - cbn; lia.
  - apply small_fits; cbn; lia.
  - apply small_fits; cbn; lia.
  - exact Logic.I.
  - repeat split; cbn; intros; auto.
  - split; [repeat constructor|]; exists (1, 0); split; [left; auto|reflexivity].
  - intros; apply stop_total.
  - intros; apply stop_stops; auto.
Qed.
Lemma grows_refuted : exists r : run_result (nat * nat) (ga_state (nat * nat) unit) unit,
  selector_left_alone ex_model2 /\ rates_left_alone ex_model2 /\ settled ex_model2 /\
  may (evolve_population ex_io2 ex_exp ex_model2 (ga_algorithm ex_io2 ex_exp ex_model2) (quiet (stop_at 1)) 2 (ga_from tt) [(1, 0); (1, 1)]
    (ex_ga4 f0 f0 (StTournament 1)) tt) r /\ ~ never_grows (r_trace r).
Proof.
  destruct (run ex_run2 []) as [r|] eqn:E; [|exfalso; assert (X : match run ex_run2 [] with Some _ => true | None => false end = true) by (vm_compute; reflexivity); rewrite E in X; discriminate].
  assert (L : match run ex_run2 [] with Some r => if list_eq_dec Nat.eq_dec (map (fun p => length (individuals p)) (r_trace r)) [2; 3] then true else false | None => false end = true) by (vm_compute; reflexivity).
  rewrite E in L; destruct (list_eq_dec _ _ _) as [T|]; [|discriminate].
  exists r; split; [intros ms p b ms' b' [= <- <-]; auto|]; split; [intros ms p b ms' b' [= <- <-]; auto|].
  split; [split; [intros ms x y H; cbn in H; auto|intros ms ms' x y z H1 H2; cbn in H1, H2; congruence]|].
  split; [exact (run_may _ _ _ _ two_must E)|].
  intros G; destruct (r_trace r) as [|p [|p' t]] eqn:Et; [discriminate|discriminate|].
  specialize (G 0 p p' eq_refl eq_refl); injection T as A B _; lia.
Qed.
