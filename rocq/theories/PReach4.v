(** * PReach4: what runs of the adaptive algorithm can reach (C134). *)
From Coq Require Import List Bool Arith NArith ZArith Reals Lia Lra Permutation.
From Flocq Require Import Core BinarySingleNaN.
From Verif Require Import Rnd LRnd Prob F64 LF64 MStats MPopulation MSelection MModel MAlgorithms MOneMax SpecF SpecA SpecR SpecL
  PSelection PSelection2 PLinear PPopulation PAlgorithms PAlgorithms2 PRun PReach PReach2 PReach3 PConv5 PConv6.
Import ListNotations.
Local Open Scope nat_scope.

Section AGA.
Context {I : Type} (io : individual_ops I) (fexp : f64 -> f64) {MS : Type} (mdl : model I MS) {PS : Type}.
Notation AGA := (aga_algorithm io fexp mdl).
Implicit Types (p : population I).

Lemma aga_reaches (good : I -> Prop) (goal : I -> bool) (s : aga_state I MS) init ev q (ps : PS) :
  valid_is_number io -> equal_means_equal_fitness io -> default_hook mdl ->
  aga_accepted q -> aga_explores q -> rank_based (aga_selection_strategy q) ->
  (Z.of_nat (length init) <= 2 ^ 20)%Z ->
  Forall2 (fun x x' => may (m_evaluate mdl (aga_model s) x) x') init ev ->
  (exists x, In x ev /\ is_valid io x = true) ->
  (forall x, In x ev -> is_valid io x = true -> good x) ->
  (forall x, In x ev -> is_valid io x = true ->
     (forall z, In z ev -> is_valid io z = true -> fle (fitness io z) (fitness io x) = true) ->
     exists y, climbs io mdl (aga_model s) x y /\ goal y = true) ->
  (forall x y, good x -> mutation_improves io mdl (aga_model s) x y -> good y) ->
  diverse_start io mdl good q (aga_model s) init ->
  exists fuel r y, may (evolve_population io fexp mdl AGA (quiet (until goal)) fuel s init q ps) r /\
    In y (individuals (r_population r)) /\ goal y = true.
Proof.
  intros Hnum Heq Hhook Hacc Hexp Hrb Hl20 Hall (x0 & Hx0 & Vx0) Hev' Hbest Hgood Hdiv; set (ms := aga_model s) in *.
  assert (Elen : length ev = length init) by (clear - Hall; induction Hall; cbn; congruence).
  assert (Hev : may (mapM (m_evaluate mdl ms) init) ev).
  { clear - Hall; induction Hall as [|a b l r Ha _ IH]; [reflexivity|].
    cbn [mapM]; apply may_bind; exists b; split; auto; apply may_bind; exists r; split; auto; reflexivity. }
  pose proof Hexp as (Hc & Hc1 & Hm & _ & Hn20); pose proof Hacc as (_ & Hr & Rc1 & Rc2 & Rm1 & Rm2 & _).
  destruct (aga_configure_ok s q) as (e & sel & He & Hs & Ecfg); auto; [unfold fits_usize, usize_max; lia|].
  set (s1 := mkAga _ _ _ _ _ _ _ _) in Ecfg.
  set (l := filter (is_valid io) ev).
  assert (Hl : forall z, In z l <-> In z ev /\ is_valid io z = true) by (intros z; apply filter_In).
  assert (Hne : l <> []) by (intros E; assert (H : In x0 l) by (apply Hl; auto); rewrite E in H; destruct H).
  assert (Hnn : no_nan io l) by (intros z Hz; apply Hnum, Hl; auto).
  destruct (must_exists _ _ (new_must io l Hne)) as [p Hp].
  destruct (must_may _ _ _ (new_must io l Hne) Hp) as (Hmade & Hg & _).
  assert (Hinitp : may (initialize_population io mdl ms init) p) by (unfold initialize_population; apply may_bind; exists ev; auto).
  pose proof (made_well_formed io l p Hnn Hmade) as Hwf.
  destruct (last_exists p (proj1 Hwf)) as [x Hx].
  destruct (made_last io l p x Heq Hnn Hmade Hx) as [Hxl Hkey].
  destruct Hmade as (_ & [Hsub _] & _ & Hlen & _).
  assert (Hfl : length l <= length ev) by (unfold l; clear; induction ev as [|h t IH]; cbn; [lia|]; destruct (is_valid io h); cbn; lia).
  apply Hl in Hxl as [Hxe Vx].
  set (cr := (B2R (snd (aga_crossover_rate_range q)) + bpow radix2 (-53))%R) in *.
  set (mr := B2R (fst (aga_mutation_rate_range q))) in *.
  pose proof (bpow_gt_0 radix2 (-53)) as B53.
  set (iv := aga_parameter_adjustment_interval q) in *.
  set (usable := fun d : f64 => is_finite d = true /\ flt f0 d = true).
  set (tame := forall x, good x -> is_valid io x = true -> is_finite (fitness io x) = true /\ (Rabs (B2R (fitness io x)) <= bpow radix2 1021)%R).
  assert (Hu0 : iv = 0 \/ tame /\ usable (deviation p)).
  { destruct Hdiv as [H|[H1 H2]]; [left; exact H|right; split; [exact H1|apply (must_may _ _ _ H2 Hinitp)]]. }
  set (J := fun (s' : aga_state I MS) p' => aga_model s' = ms /\ aga_size s' = aga_population_size q /\ aga_elite_size s' = e /\
    aga_interval s' = iv /\ aga_crossover_range s' = aga_crossover_rate_range q /\ aga_mutation_range s' = aga_mutation_rate_range q /\
    rank_sel (parent_selector (aga_breeding s')) /\
    (generation p' = 0 -> iv = 0 \/ tame /\ usable (deviation p')) /\
    (generation p' <> 0 -> (rate (crossover_rate (aga_breeding s')) /\ (B2R (crossover_rate (aga_breeding s')) <= cr)%R /\
        rate (mutation_rate (aga_breeding s')) /\ (mr <= B2R (mutation_rate (aga_breeding s')))%R) /\
      (iv = 0 \/ tame /\ usable (aga_reference_std s')))).
  set (Gp := fun p' (w : I) => good w /\ (Z.of_nat (length (individuals p')) <= 2 ^ 20)%Z /\ forall z, In z (individuals p') -> good z).
  destruct (@loop_climb I io fexp MS mdl _ _ AGA PS (aga_population_size q) e J Gp ms goal Hnum Heq) with (x := x) (s := s1) (p := p) (ps := ps) (tr := @nil (population I))
    as (fuel & r & Hrun & _ & Hg'); auto.
  - apply aga_elites; auto.
  - intros s0 p' x' (J1 & J2 & J3 & J4 & J5 & J6 & J7 & J8 & J9) Hwf' Hav Hl' (_ & G1 & G2).
    assert (Hadj : exists ref c m, aga_adjust s0 p' = (ref, c, m) /\ (iv = 0 \/ tame /\ usable ref) /\
              rate c /\ (B2R c <= cr)%R /\ rate m /\ (mr <= B2R m)%R).
    { destruct (Nat.eq_dec (generation p') 0) as [G0|G0].
      - rewrite (adjust_first s0 p' G0), J5, J6; do 3 eexists; split; [reflexivity|]; split; [auto|].
        repeat split; try apply Rc2; try apply Rm1; unfold cr, mr; lra.
      - destruct (J9 G0) as [(B1 & B2 & B3 & B4) Hu].
        assert (Hdec : {adjusts (aga_interval s0) (generation p')} + {~ adjusts (aga_interval s0) (generation p')}).
        { destruct (negb (generation p' =? 0) && (negb (aga_interval s0 =? 0) && (generation p' mod aga_interval s0 =? 0))) eqn:E.
          - left; apply adjusts_test; apply andb_true_iff in E as [E1 E2]; apply negb_true_iff, Nat.eqb_neq in E1; auto.
          - right; intros H; apply adjusts_test in H as [H1 H2]; rewrite H2 in E; apply Nat.eqb_neq in H1; rewrite H1 in E; discriminate. }
        destruct Hdec as [Ha|Ha].
        2:{ rewrite (adjust_no s0 p' G0 Ha); do 3 eexists; split; [reflexivity|]; auto 6. }
        destruct Hu as [Hu|[Htame Hu]]; [destruct Ha as (_ & Ha & _); congruence|].
        destruct (aga_adjust s0 p') as [[ref c] m] eqn:E; exists ref, c, m; split; auto.
        assert (Hdv : fle f0 (deviation p') = true).
        { apply (deviation_number io); auto; unfold fits_usize, usize_max; lia. }
        destruct (adapted_rates s0 p' ref c m) as (E1 & E2 & E3 & E4 & E5 & _); auto; try apply Hu.
        { unfold ranges_ok; rewrite J5, J6; repeat split; try apply Rc1; try apply Rc2; try apply Rm1; apply Rm2. }
        rewrite J5 in E4; rewrite J6 in E5; specialize (E4 Hc); specialize (E5 (proj2 Hm)); fold cr mr in E4, E5.
        split; [right; split; [auto|rewrite E1; exact Hu]|]; split; [exact E2|]; split; [lra|]; split; [exact E3|lra]. }
    destruct Hadj as (ref & c & m & Eadj & Hu & R1 & R2 & R3 & R4).
    destruct (rank_prepared io fexp _ p' x' J7 Hl' G1) as (sel' & Hprep & Hok & Hpick).
    set (b := mkBreeding c m sel').
    exists (mkAga ms (aga_population_size q) e iv (aga_crossover_rate_range q) (aga_mutation_rate_range q) b ref), b.
    split; [|split; [|split; [reflexivity|split; [reflexivity|split; [reflexivity|split; [exact Hpick|]]]]]].
    { cbn [alg_prepare aga_algorithm]; unfold aga_prepare; rewrite Eadj, Hhook; cbn [bind].
      apply may_bind; exists sel'; split; auto; rewrite J1, J2, J3, J4, J5, J6; reflexivity. }
    { intros p'' E''; unfold J; cbn; repeat split; auto; try apply R1; try apply R3; intros H; congruence. }
    cbn; destruct R1 as [F1 _], R3 as [F3 _]; split; [exact F1|split; [lra|split; [exact F3|lra]]].
  - intros p1 p2 a b (G0 & G1 & G2) Hi Hlen2 Hz; pose proof (Hgood _ _ G0 Hi) as Gb.
    split; [exact Gb|split; [lia|]]; intros z Hz'; destruct (Hz z Hz') as [H| ->]; auto.
  - destruct (Hbest x Hxe Vx) as (y & Hcl & Hy); [|eapply climbs_leads; eauto].
    intros z Hz Vz; apply fle_spec; split; [apply Hnum; auto|split; [apply Hnum; auto|apply Hkey, Hl; auto]].
  - unfold J, s1; cbn; repeat split; auto; congruence || (eapply rank_created; eauto).
  - intros z Hz; apply Hl, Hsub; auto.
  - split; [apply Hev'; auto|split; [lia|]]; intros z Hz; apply Hev'; apply Hl, Hsub; auto.
  - apply existsb_exists in Hg' as (y & Hy & Gy); exists fuel, r, y; split; auto.
    unfold evolve_population; cbn [alg_configure aga_algorithm alg_model]; rewrite Ecfg; cbn [bind].
    apply may_bind; exists p; split; auto.
Qed.
End AGA.

(** ** OneMax *)
Section OneMaxAga.
Variable n : nat.
Hypothesis Hn : 1 <= n.

Lemma om_aga_reaches (PS : Type) (fexp : f64 -> f64) (q : aga_params) (s : aga_state onemax unit) init x y (ps : PS) :
  aga_accepted q -> aga_explores q -> rank_based (aga_selection_strategy q) ->
  (Z.of_nat (length init) <= 2 ^ 20)%Z -> (INR n * INR (length init) <= bpow radix2 20)%R ->
  (forall z, In z init -> length (genome z) = n) ->
  In x init -> In y init -> count_occ Bool.bool_dec (genome y) true < count_occ Bool.bool_dec (genome x) true ->
  exists fuel r z, may (evolve_population onemax_ops fexp onemax_model (aga_algorithm onemax_ops fexp onemax_model) (quiet (until all_ones)) fuel s init q ps) r /\
    In z (individuals (r_population r)) /\ all_ones z = true.
Proof.
  intros Hacc Hexp Hrb H20 Hsz Hinit Hx Hy Hlt.
  assert (Hn1 : (1 <= INR n)%R) by (apply (le_INR 1); auto).
  assert (Hi1 : (1 <= INR (length init))%R) by (apply (le_INR 1); destruct init; [destruct Hx|cbn; lia]).
  assert (Hn20 : (Z.of_nat n <= 2 ^ 20)%Z).
  { assert (INR n <= bpow radix2 20)%R by (eapply Rle_trans; [|exact Hsz]; rewrite <- (Rmult_1_r (INR n)) at 1; apply Rmult_le_compat_l; lra).
    rewrite INR_IZR_INZ in H; change (bpow radix2 20) with (IZR (2 ^ 20)) in H; apply le_IZR in H; exact H. }
  destruct (aga_model s) eqn:Em.
  set (ev := map (fun z => score (genome z)) init).
  assert (Hev : forall z, In z ev -> scored n z) by (intros z Hz; apply in_map_iff in Hz as (w & <- & Hw); apply score_scored; auto).
  assert (Hval : forall z, In z ev -> is_valid onemax_ops z = true) by (intros z Hz; apply (scored_valid n); auto; lia).
  assert (Hsc : In (score (genome x)) ev) by (apply in_map_iff; eauto).
  apply (aga_reaches onemax_ops fexp onemax_model (scored n) all_ones s init ev); auto using om_number, om_equal, om_hook.
  - clear; induction init as [|a l IH]; cbn; constructor; auto; reflexivity.
  - exists (score (genome x)); auto.
  - intros z Hz _ Hmax; pose proof (Hev _ Hz) as Sz; rewrite Em.
    assert (Tx : In true (genome x)) by (apply (count_occ_In Bool.bool_dec); lia).
    assert (Tz : In true (genome z)).
    { apply (scored_one n); auto; [lia|]; pose proof (scored_pos n Hn ltac:(lia) _ (Hev _ Hsc) Tx) as Hp.
      specialize (Hmax _ Hsc (Hval _ Hsc)); apply fle_spec in Hmax as (_ & _ & K); cbn [onemax_ops fitness] in K.
      destruct (scored_val n Hn ltac:(lia) _ (Hev _ Hsc)) as (F0 & _); destruct (scored_val n Hn ltac:(lia) z Sz) as (Fz & _).
      rewrite !key_finite in K by auto; pose proof (bpow_gt_0 radix2 (-53)); lra. }
    assert (Hlead : leads onemax_ops onemax_model tt all_ones z) by (apply (duplicate_leads n); auto; lia).
    assert (Hcl : forall w, leads onemax_ops onemax_model tt all_ones w -> forall v, climbs onemax_ops onemax_model tt v w ->
              exists y', climbs onemax_ops onemax_model tt v y' /\ all_ones y' = true).
    { induction 1 as [w Hw|w w' Hi _ IH]; intros v Hv; [eauto|apply IH; eapply climbs_on; eauto]. }
    exact (Hcl _ Hlead _ (climbs_here _ _ _ _)).
  - intros a b Sa Hi; rewrite Em in Hi; apply (improved_scored n Hn ltac:(lia) a b); auto.
  - right; split.
    + intros z Hz _; destruct (scored_val n Hn ltac:(lia) z Hz) as (F & _ & B); split; auto.
      cbn [onemax_ops fitness]; rewrite Rabs_pos_eq by apply B; apply Rle_trans with 1%R; [apply B|change 1%R with (bpow radix2 0); apply bpow_le; lia].
    + rewrite Em; apply (om_diverse n Hn init x y); auto.
Qed.
End OneMaxAga.

(** ** Example: no elites at all *)
Definition c134_params : aga_params := mkAgaParams 10 f0 (f_lit 3 10, f_lit 9 10) (f_lit 1 10, f1) (StTournament 3) 1.
Definition c134_init : list onemax := [onemax_from [false; false; false]; onemax_from [true; false; false]].
Lemma c134_example :
  aga_accepted c134_params /\ aga_explores c134_params /\ rank_based (aga_selection_strategy c134_params) /\
  (INR 3 * INR (length c134_init) <= bpow radix2 20)%R /\
  (forall z, In z c134_init -> length (genome z) = 3) /\
  exists x y, In x c134_init /\ In y c134_init /\ count_occ Bool.bool_dec (genome y) true < count_occ Bool.bool_dec (genome x) true.
Proof.
  assert (H3 : strategy_accepted (StTournament 3)) by (intros E; discriminate E).
  destruct c96_example as (A & B & _ & D & _).
  split; [|split; [|split; [discriminate|split; [exact D|split]]]].
  - destruct A as (_ & _ & A1 & A2 & A3 & A4 & _); split; [discriminate|split; [|exact (conj A1 (conj A2 (conj A3 (conj A4 H3))))]].
    split; [reflexivity|change (B2R (aga_elitism_rate c134_params)) with 0%R; lra].
  - destruct B as (B1 & B2 & B3 & _); split; [exact B1|split; [exact B2|split; [exact B3|split; [|vm_compute; discriminate]]]].
    cbn [c134_params aga_population_size aga_elitism_rate]; replace (B2R f0) with 0%R by reflexivity.
    rewrite INR_IZR_INZ; change (Z.of_nat 10) with 10%Z; lra.
  - intros z [<-|[<-|[]]]; reflexivity.
  - exists (onemax_from [true; false; false]), (onemax_from [false; false; false]); split; [right; left; reflexivity|split; [left; reflexivity|]].
    cbn; lia.
Qed.
