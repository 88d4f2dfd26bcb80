(** * PFreeze: an adaptive run without diversity at its start can freeze (C89). *)
From Coq Require Import List Bool Arith NArith ZArith Reals Lra Lia Permutation.
From Flocq Require Import Core BinarySingleNaN.
From Verif Require Import Rnd LRnd F64 LF64 MStats MPopulation MSelection MModel MAlgorithms SpecF SpecA SpecH
  PSelection PSelection2 PPopulation PStats PModel PAlgorithms PAlgorithms2 PRun PRun3 PHist PHist2.
Import ListNotations.
Local Open Scope nat_scope.

(** ** The deviation of equal values *)
Lemma exact_val z r : rounded_to z r -> isfloat r -> (- big < r < big)%R -> is_finite z = true /\ B2R z = r.
Proof.
  intros (_ & _ & H1 & H2) Hf Hb; rewrite rnd_float in * by auto.
  apply H1 in Hb; auto.
Qed.

Lemma zero_val z r : rounded_to z r -> r = 0%R -> is_finite z = true /\ B2R z = 0%R.
Proof.
  intros H ->; apply exact_val; auto; [rewrite <- rnd_0; apply rnd_isfloat|pose proof big_pos; lra].
Qed.

Lemma const_loop v : (- big < v < big)%R -> isfloat v -> forall l count mn amn mx amx avg ss,
  (forall x, In x l -> is_finite x = true /\ B2R x = v) ->
  is_finite avg = true -> B2R avg = v -> is_finite ss = true -> B2R ss = 0%R ->
  fits_usize (count + length l) ->
  let s := from_iter_loop f64ops l count mn amn mx amx avg ss in
  s_count s = count + length l /\ is_finite (s_sum_squared s) = true /\ B2R (s_sum_squared s) = 0%R.
Proof.
  intros Hb Hv; induction l as [|x l IH]; intros count mn amn mx amx avg ss Hl Fa Ea Fs Es Hf; cbn [from_iter_loop].
  - cbn; repeat split; auto; lia.
  - cbn [n_ltb n_add n_sub n_mul n_div n_of_nat f64ops].
    destruct (Hl x (or_introl eq_refl)) as [Fx Ex].
    destruct (zero_val _ _ (fsub_correct x avg Fx Fa) ltac:(rewrite Ex, Ea; ring)) as [Fd Ed].
    assert (Hc : (1 <= B2R (f_of_nat (count + 1)))%R).
    { apply f_of_nat_ge1; [lia|]; unfold fits_usize in Hf; cbn [length] in Hf; lia. }
    destruct (zero_val _ _ (fdiv_correct _ (f_of_nat (count + 1)) Fd ltac:(lra)) ltac:(rewrite Ed; unfold Rdiv; ring)) as [Fq Eq].
    destruct (exact_val _ v ltac:(replace v with (B2R avg + B2R (fdiv (fsub x avg) (f_of_nat (count + 1))))%R by (rewrite Ea, Eq; ring); apply fadd_correct; auto) Hv Hb) as [Fa' Ea'].
    destruct (zero_val _ _ (fsub_correct x _ Fx Fa') ltac:(rewrite Ex, Ea'; ring)) as [Fd' Ed'].
    destruct (zero_val _ _ (fmul_correct _ _ Fd Fd') ltac:(rewrite Ed; ring)) as [Fm Em].
    destruct (zero_val _ _ (fadd_correct ss _ Fs Fm) ltac:(rewrite Es, Em; ring)) as [Fs' Es'].
    cbn [length] in *; replace (count + S (length l)) with (count + 1 + length l) by lia.
    destruct (flt x mn), (flt mx x); cbv beta iota zeta;
      (refine (IH (count + 1) _ _ _ _ _ _ (fun y Hy => Hl y (or_intror Hy)) Fa' Ea' Fs' Es' _); unfold fits_usize in *; lia).
Qed.

Lemma zero_feq x : is_finite x = true -> B2R x = 0%R -> feq x f0 = true.
Proof.
  intros Fx Ex; apply feq_spec; split; [apply finite_not_nan; auto|]; split; [reflexivity|].
  rewrite !key_finite by (auto; reflexivity); rewrite Ex; symmetry; apply f0_val.
Qed.

Lemma feq_zero_sqrt x : feq x f0 = true -> feq (fsqrt x) f0 = true.
Proof. intros H; apply feq_zero_iff in H as [sg ->]; destruct sg; reflexivity. Qed.

Lemma const_std {I} (io : individual_ops I) (l : list I) (v : f64) : l <> [] -> fits_usize (length l) ->
  is_finite v = true -> (forall x, In x l -> feq (fitness io x) v = true) ->
  feq (ps_std f64ops (stats_of io l)) f0 = true.
Proof.
  intros Hl Hf Fv H; unfold ps_std; cbn [n_sqrt f64ops]; apply feq_zero_sqrt.
  assert (K : forall x, In x l -> is_finite (fitness io x) = true /\ B2R (fitness io x) = B2R v).
  { intros x Hx; specialize (H x Hx); apply feq_spec in H as (N1 & N2 & E).
    rewrite (key_finite v Fv) in E; assert (F : is_finite (fitness io x) = true).
    { apply key_finite_iff; auto; rewrite E; apply B2R_bound. }
    split; auto; rewrite key_finite in E by auto; auto. }
  unfold ps_var, stats_of; cbn [p_stats].
  destruct l as [|x l]; [congruence|]; cbn [map from_iter].
  destruct (K x (or_introl eq_refl)) as [Fx Ex].
  destruct (const_loop (B2R v) (B2R_bound v) (B2R_isfloat v) (map (fitness io) l) 1 (fitness io x) 0 (fitness io x) 0 (fitness io x) f0)
    as (C & F & E); auto.
  { intros y Hy; apply in_map_iff in Hy as (z & <- & Hz); apply K; right; auto. }
  { rewrite map_length; unfold fits_usize in *; cbn [length] in Hf; lia. }
  cbn [n_zero n_div n_of_nat f64ops] in *; rewrite C, map_length.
  destruct (Nat.ltb_spec 1 (1 + length l)) as [H1|H1]; [|reflexivity].
  assert (Hc : (1 <= B2R (f_of_nat (1 + length l - 1)))%R).
  { apply f_of_nat_ge1; [lia|]; unfold fits_usize in Hf; cbn [length] in Hf; lia. }
  destruct (zero_val _ _ (fdiv_correct _ (f_of_nat (1 + length l - 1)) F ltac:(lra)) ltac:(rewrite E; unfold Rdiv; ring)) as [Fq Eq].
  apply zero_feq; auto.
Qed.

(** ** Suffixes of a history *)
Lemma nth_skipn {A} (l : list A) : forall k i, nth_error (skipn k l) i = nth_error l (k + i).
Proof. induction l as [|a l IH]; intros [|k] i; cbn; auto; destruct i; auto. Qed.

Section Freeze.
Context {I : Type} (io : individual_ops I) (fexp : f64 -> f64) {MS : Type} (mdl : model I MS)
  (n e : nat) (rates : population I -> f64 * f64 -> f64 * f64 -> Prop).

Lemma chronicle_suffix ms b tr msl bl : selector_left_alone mdl ->
  chronicle io fexp mdl n e rates ms b tr msl bl -> known (parent_selector b) ->
  forall k p, nth_error tr k = Some p ->
  exists ms' b', known (parent_selector b') /\ chronicle io fexp mdl n e rates ms' b' (skipn k tr) msl bl.
Proof.
  intros Hs H; induction H as [ms b p|ms b p cr mr ms' b1 sel bred p' t msl bl H1 H2 H3 H4 H5 H6 H7 IH]; intros Hk k q Hq.
  - destruct k as [|k]; [|destruct k; discriminate]; exists ms, b; split; auto; constructor.
  - destruct k as [|k]; [exists ms, b; split; auto; cbn [skipn]; econstructor; eauto|].
    cbn [skipn]; apply (IH) with (p := q); auto; cbn [parent_selector].
    apply Hs in H2; cbn [parent_selector] in H2; rewrite H2 in H3; eapply prepare_known; eauto.
Qed.

Lemma chronicle_frozen ms b tr msl bl (p0 : population I) :
  selector_left_alone mdl -> rates_left_alone mdl -> fits_usize n -> e < n ->
  (forall p o w, In p tr -> individuals p <> [] -> fits_usize (length (individuals p)) ->
     (forall x, In x (individuals p) -> In x (individuals p0)) ->
     rates p o w -> zero o \/ p = p0 -> zero w) ->
  (forall ms x y, may (m_improve mdl ms x) y -> y = x) ->
  (forall ms y z, In y (individuals p0) -> may (m_evaluate mdl ms y) z -> z = y) ->
  chronicle io fexp mdl n e rates ms b tr msl bl ->
  (forall p, hd_error tr = Some p -> (zero (crossover_rate b, mutation_rate b) \/ p = p0) /\
     individuals p <> [] /\ fits_usize (length (individuals p)) /\ forall x, In x (individuals p) -> In x (individuals p0)) ->
  known (parent_selector b) ->
  forall p x, In p tr -> In x (individuals p) -> In x (individuals p0).
Proof.
  intros Hs Hr Hn Hen Hra Hi He H; induction H as [ms b p|ms b p cr mr ms' b1 sel bred p' t msl bl H1 H2 H3 H4 H5 H6 H7 IH]; intros H0 Hk;
    destruct (H0 p eq_refl) as (Hz & N1 & N2 & Hp).
  - intros q x [<-|[]] Hx; exact (Hp _ Hx).
  - destruct (Hra p _ _ (or_introl eq_refl) N1 N2 Hp H1 Hz) as [Z1 Z2]; cbn [fst snd] in Z1, Z2.
    destruct (Hr _ _ _ _ _ H2) as [R1 R2]; apply Hs in H2; cbn [parent_selector crossover_rate mutation_rate] in *.
    rewrite H2 in H3; pose proof (prepare_known _ _ _ _ _ Hk H3) as Hk'; destruct H6 as (A1 & A2 & A3).
    assert (Hp' : forall x, In x (individuals p') -> In x (individuals p0)).
    { intros x Hx; apply (proj1 A3) in Hx; apply in_app_or in Hx as [Hx|Hx]; [eapply Hp, top_in, Hx|]; apply Hp.
      refine (breed_plain _ _ _ _ _ _ _ _ _ _ Hi _ (H5 x Hx)); cbn [parent_selector crossover_rate mutation_rate].
      - apply known_members; auto.
      - rewrite R1; auto.
      - rewrite R2; auto.
      - intros y z Hy; apply He, Hp, Hy. }
    intros q x [<-|Hq] Hx; [auto|].
    refine (IH _ _ _ q x Hq Hx); auto.
    + intros q1 o w Hq1; apply Hra; right; auto.
    + intros q' E; injection E as <-; split; [left; split; cbn; [rewrite R1|rewrite R2]; auto|]; split; [auto|]; split; [|auto].
      rewrite app_length, H4 in A2; cbv zeta in A2.
      assert (length (top e p) <= e) by (unfold top; rewrite skipn_length; lia).
      unfold fits_usize in *; destruct (_ =? 1); lia.
Qed.

(** What a generation holds was evaluated once. *)
Lemma breed_evaluated ms p b x : only_members io fexp (parent_selector b) p ->
  may (breed io fexp mdl ms p b) x -> In x (individuals p) \/ exists ms y, may (m_evaluate mdl ms y) x.
Proof.
  intros Hsel H; unfold breed in H; apply may_bind in H as ([i1 parent1] & H1 & H).
  apply may_bind in H as (o & Ho & H); apply Hsel in H1; cbn [snd] in H1.
  unfold breed_from in H; apply may_bind in H as (o1 & _ & H); apply may_bind in H as (u & _ & H).
  apply may_bind in H as (o2 & _ & H); apply may_bind in H as (o3 & Ho3 & H).
  apply may_bind in H as (o4 & Ho4 & H); apply may_bind in H as (sv & _ & H); cbn in H; subst x.
  destruct sv; [right; eauto|left].
  destruct o as [q|]; auto; destruct (fgt _ _); auto; eapply parent2_member; eauto.
Qed.

Lemma chronicle_evaluated ms b tr msl bl : selector_left_alone mdl -> e < n -> fits_usize n ->
  chronicle io fexp mdl n e rates ms b tr msl bl -> known (parent_selector b) ->
  let good (p : population I) := individuals p <> [] /\ fits_usize (length (individuals p)) /\
    forall x, In x (individuals p) -> exists ms y, may (m_evaluate mdl ms y) x in
  (forall p, hd_error tr = Some p -> good p) -> forall p, In p tr -> good p.
Proof.
  intros Hs He Hn H; induction H as [ms b p|ms b p cr mr ms' b1 sel bred p' t msl bl H1 H2 H3 H4 H5 H6 H7 IH]; intros Hk good H0.
  - intros q [<-|[]]; apply H0; auto.
  - apply Hs in H2; cbn [parent_selector] in H2; rewrite H2 in H3; pose proof (prepare_known _ _ _ _ _ Hk H3) as Hk'.
    intros q [<-|Hq]; [apply H0; auto|]; apply IH; auto.
    intros q' E; injection E as <-; destruct H6 as (A1 & A2 & A3); destruct (H0 p eq_refl) as (N1 & N2 & N3); split; auto; split.
    + rewrite app_length, H4 in A2; cbv zeta in A2.
      assert (length (top e p) <= e) by (unfold top; rewrite skipn_length; lia).
      unfold fits_usize in *; destruct (_ =? 1); lia.
    + intros x Hx; apply (proj1 A3) in Hx; apply in_app_or in Hx as [Hx|Hx]; [eapply N3, top_in, Hx|].
      apply H5, breed_evaluated in Hx as [Hx|Hx]; auto; apply known_members; auto.
Qed.
End Freeze.

Lemma adjusts_dec i g : adjusts i g \/ ~ adjusts i g.
Proof.
  unfold adjusts; destruct (Nat.eq_dec g 0) as [E0|E0]; [right; intros (A & _); auto|].
  destruct (Nat.eq_dec i 0) as [E|E]; [right; intros (_ & A & _); auto|].
  destruct (Nat.eq_dec (g mod i) 0) as [M0|M0]; rewrite Nat.mod_divide in M0 by auto; [left; auto|right; intros (_ & _ & A); auto].
Qed.

Section Run.
Context {I : Type} (io : individual_ops I) (fexp : f64 -> f64) {MS : Type} (mdl : model I MS) {PS : Type}.
Notation AGA := (aga_algorithm io fexp mdl).

Lemma run_stats {P S0} (alg : algorithm I MS P S0) (f : PS -> population I -> M (bool * PS)) fuel s init q ps r :
  may (evolve_population io fexp mdl alg (quiet f) fuel s init q ps) r ->
  forall p, In p (r_trace r) -> pop_stats p = stats_of io (individuals p).
Proof.
  unfold evolve_population; intros H; apply may_bind in H as (s1 & _ & H); apply may_bind in H as (p & Hp & H).
  assert (Hi : pop_stats p = stats_of io (individuals p)).
  { unfold initialize_population in Hp; apply may_bind in Hp as (ev & _ & Hp).
    assert (Hne : filter (is_valid io) ev <> []) by (intros E; rewrite E in Hp; eapply must_fail_no_may; [apply (new_empty io)|exact Hp]).
    destruct (must_may _ _ _ (proj2 (c46_new io _) Hne) Hp) as (_ & _ & _ & _ & _ & E & _); exact E. }
  refine (match loop_inv io fexp mdl alg f (fun _ p => pop_stats p = stats_of io (individuals p)) (fun _ _ => True) fuel _ s1 p ps [] r Hi H
    with ex_intro _ t (conj Et (conj A _)) => _ end).
  - intros s0 p0 s' p' _ Hs; split; auto; apply step_may in Hs as (el & off & _ & _ & _ & Hs & Hne).
    destruct (must_may _ _ _ (proj2 (c46_replace io p0 off) Hne) Hs) as (_ & _ & _ & E & _); exact E.
  - intros q0 Hq; cbn [app] in Et; rewrite Et in Hq; apply In_nth_error in Hq as [k Hk].
    destruct (A k q0 Hk) as [_ E]; exact E.
Qed.

Lemma aga_freezes (f : PS -> population I -> M (bool * PS)) fuel s init q ps r k p0 pk :
  selector_left_alone mdl -> rates_left_alone mdl -> settled mdl -> fits_usize (aga_population_size q) -> fits_usize (length init) ->
  may (evolve_population io fexp mdl AGA (quiet f) fuel s init q ps) r ->
  nth_error (r_trace r) 0 = Some p0 -> nth_error (r_trace r) k = Some pk ->
  same_fitness io (individuals p0) -> same_fitness io (individuals pk) ->
  adjusts (aga_parameter_adjustment_interval q) k ->
  forall j p x, k <= j -> nth_error (r_trace r) j = Some p -> In x (individuals p) -> In x (individuals pk).
Proof.
  intros Hs Hr [S1 S2] Hf Hl H E0 Ek F0 Fk Ha j p x Hj Ep Hx.
  pose proof (run_stats AGA f fuel s init q ps r H) as Hst.
  destruct (protocol_any io fexp mdl AGA _ _ _ _ _ _ _ H) as (Hg & _).
  destruct (aga_history io fexp mdl f fuel s init q ps r Hf H) as (e & sel & p0' & tl & He & Hc & Et & Hb & Hh).
  assert (p0' = p0) as -> by (rewrite Et in E0; cbn in E0; congruence).
  destruct (begins_fits io mdl _ _ _ Hl Hb) as (N1 & N2 & N3).
  pose proof (created_known _ _ Hc) as Hk.
  pose proof (chronicle_evaluated io fexp mdl _ e _ _ _ _ _ _ Hs (proj1 He) Hf Hh Hk) as Hev; cbv zeta in Hev.
  assert (Hgood : forall p, In p (r_trace r) -> individuals p <> [] /\ fits_usize (length (individuals p)) /\
    forall x, In x (individuals p) -> exists ms y, may (m_evaluate mdl ms y) x).
  { apply Hev; intros p1 E1; rewrite Et in E1; injection E1 as <-; split; auto; split; auto.
    intros y Hy; destruct (N3 y Hy) as [z Hz]; eauto. }
  assert (Hdev : forall p, In p (r_trace r) -> same_fitness io (individuals p) -> feq (deviation p) f0 = true).
  { intros p1 H1 (v & Fv & Hv); unfold deviation; rewrite Hst by auto; destruct (Hgood p1 H1) as (G1 & G2 & _).
    eapply const_std; eauto. }
  pose proof (Hdev p0 (nth_error_In _ _ E0) F0) as D0.
  destruct (chronicle_suffix io fexp mdl _ e _ _ _ _ _ _ Hs Hh Hk k pk Ek) as (ms' & b' & Hk' & Hh').
  assert (Hsub : forall p, In p (skipn k (r_trace r)) -> In p (r_trace r)).
  { intros y Hy; rewrite <- (firstn_skipn k (r_trace r)); apply in_or_app; auto. }
  assert (Hge : forall p, In p (skipn k (r_trace r)) -> generation p <> 0).
  { intros y Hy; apply In_nth_error in Hy as [i Hi]; rewrite nth_skipn in Hi; apply Hg in Hi; destruct Ha as (Ha & _); lia. }
  destruct Fk as (v & Fv & Hv).
  refine (chronicle_frozen io fexp mdl _ e _ ms' b' _ _ _ pk Hs Hr Hf (proj1 He) _ S1 _ Hh' _ Hk' p x _ Hx).
  - intros p1 o w H1 M1 M2 M3 (R1 & R2 & R3) Hz.
    destruct (adjusts_dec (aga_parameter_adjustment_interval q) (generation p1)) as [D|D].
    + rewrite (R2 D).
      assert (Z : feq (deviation p1) f0 = true).
      { apply Hdev; [auto|]; exists v; split; auto. }
      pose proof (diversity_nan _ _ (zero_div _ _ Z D0)) as NN; split; cbn [fst snd]; apply flt_nan_r, point_nan; auto.
      apply (nan_arith_r f1 _ NN).
    + rewrite (R3 (Hge _ H1) D); destruct Hz as [Hz| ->]; auto; exfalso; apply D; rewrite (Hg k pk Ek); auto.
  - intros ms y z Hy Hz; destruct (proj2 (proj2 (Hgood pk (nth_error_In _ _ Ek))) y Hy) as (ms1 & x1 & Hx1); exact (S2 _ _ _ _ _ Hx1 Hz).
  - intros p1 E1; assert (p1 = pk) as ->.
    { rewrite <- (firstn_skipn k (r_trace r)) in Ek; rewrite nth_error_app2 in Ek by (rewrite firstn_length; lia).
      assert (k < length (r_trace r)) by (destruct (Nat.lt_ge_cases k (length (r_trace r))) as [X|X]; auto;
        rewrite (skipn_all2 _ X) in E1; discriminate).
      rewrite firstn_length, Nat.min_l, Nat.sub_diag in Ek by lia; destruct (skipn k (r_trace r)); cbn in *; congruence. }
    destruct (Hgood pk (nth_error_In _ _ Ek)) as (G1 & G2 & _); repeat split; auto.
  - apply nth_error_In with (n := j - k); rewrite nth_skipn; replace (k + (j - k)) with j by lia; exact Ep.
Qed.
End Run.
