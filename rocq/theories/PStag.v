(** * PStag: proofs about stagnation in runs (C110). *)
From Coq Require Import List Bool Arith NArith ZArith Reals Lia Lra.
From Flocq Require Import Core BinarySingleNaN.
From Verif Require Import Rnd LRnd F64 LF64 MStats MPopulation MSelection MModel MAlgorithms SpecF SpecA SpecX
  PPopulation PModel PAlgorithms PAlgorithms2 PRun PRun2 PRun3 PRun4.
Import ListNotations.
Local Open Scope nat_scope.

(** ** There are finitely many f64 values *)
Lemma positives_listed (b : Z) : exists l : list positive, forall m, (Z.pos m <= b)%Z -> In m l.
Proof.
  exists (map Pos.of_nat (seq 1 (Z.to_nat b))); intros m Hm; apply in_map_iff; exists (Pos.to_nat m); split; [apply Pos2Nat.id|].
  apply in_seq; lia.
Qed.
Lemma exponents_listed (lo hi : Z) : exists l : list Z, forall e, (lo <= e <= hi)%Z -> In e l.
Proof.
  exists (map (fun i => (lo + Z.of_nat i)%Z) (seq 0 (S (Z.to_nat (hi - lo))))); intros e He; apply in_map_iff.
  exists (Z.to_nat (e - lo)); split; [lia|]; apply in_seq; lia.
Qed.

Definition to_b (x : SpecFloat.spec_float) : f64 :=
  match Sumbool.sumbool_of_bool (SpecFloat.valid_binary 53 1024 x) with left H => SF2B x H | right _ => B754_nan end.
Lemma to_b_of (x : f64) : to_b (B2SF x) = x.
Proof.
  unfold to_b; destruct (Sumbool.sumbool_of_bool _) as [H|H]; [apply SF2B_B2SF|].
  pose proof (valid_binary_B2SF prec emax x : SpecFloat.valid_binary 53 1024 (B2SF x) = true) as V; congruence.
Qed.

Lemma bounded_range m e : SpecFloat.bounded 53 1024 m e = true -> (Z.pos m <= 2 ^ 53)%Z /\ (-1074 <= e <= 971)%Z.
Proof.
  unfold SpecFloat.bounded, SpecFloat.canonical_mantissa, SpecFloat.fexp, SpecFloat.emin; intros H.
  apply andb_true_iff in H as [H1 H2]; apply Zeq_bool_eq in H1; apply Z.leb_le in H2.
  rewrite Digits.Zpos_digits2_pos in H1.
  assert (Hd : (Digits.Zdigits radix2 (Z.pos m) <= 53)%Z) by lia.
  apply Digits.Zpower_gt_Zdigits in Hd; cbn [Z.abs radix_val radix2] in Hd; split; lia.
Qed.

Lemma f64_listed : exists l : list f64, forall x, In x l.
Proof.
  destruct (positives_listed (2 ^ 53)) as [ms Hms]; destruct (exponents_listed (-1074) 971) as [es Hes].
  exists (map to_b ([SpecFloat.S754_nan] ++ map SpecFloat.S754_zero [true; false] ++ map SpecFloat.S754_infinity [true; false] ++
    map (fun o => SpecFloat.S754_finite (fst o) (fst (snd o)) (snd (snd o))) (list_prod [true; false] (list_prod ms es)))).
  intros x; apply in_map_iff; exists (B2SF x); split; [apply to_b_of|].
  assert (Hb : forall b : bool, In b [true; false]) by (intros []; cbn; auto).
  destruct x as [b|b| |b m e H]; cbn [B2SF]; rewrite !in_app_iff.
  - right; left; apply in_map; auto.
  - right; right; left; apply in_map; auto.
  - left; left; auto.
  - right; right; right; apply in_map_iff; exists (b, (m, e)); split; auto.
    apply bounded_range in H as [Hm He]; apply in_prod; auto; apply in_prod; auto.
Qed.

(** ** The loop with a measure *)
Section Measure.
Context {I : Type} (io : individual_ops I) (fexp : f64 -> f64) {MS : Type} (mdl : model I MS).
Context {P S0 : Type} (alg : algorithm I MS P S0) {PS : Type}.

Lemma loop_measure (f : PS -> population I -> M (bool * PS)) (Inv : S0 -> population I -> Prop) (stop : population I -> Prop)
    (mu : population I -> nat) :
  (forall p, {stop p} + {~ stop p}) ->
  (forall s p, Inv s p -> must (evolve_step io fexp mdl alg s p) (fun o => Inv (fst o) (snd o) /\ (~ stop p -> mu (snd o) < mu p))) ->
  (forall ps p, must (f ps p) (fun _ => True)) ->
  (forall ps p, stop p -> must (f ps p) (fun o => fst o = false)) ->
  (forall p, mu p = 0 -> stop p) ->
  forall m fuel s p ps tr, Inv s p -> mu p <= m -> m < fuel ->
  must (evolve_loop io fexp mdl alg (quiet f) fuel s p ps tr) (fun r =>
    Inv (r_algorithm r) (r_population r) /\ generation (r_population r) <= generation p + m).
Proof.
  intros Hdec Hstep Hf Hn H0; induction m as [|m IH]; intros fuel s p ps tr Hi Hm Hfu; (destruct fuel as [|fuel]; [lia|]); cbn [evolve_loop].
  - eapply must_bind_intro; [apply (quiet_must f ps s p (fun c => c = false)); apply Hn, H0; lia|].
    intros [[c ps'] s1] [Ec E]; cbn in E, Ec; subst; cbn; split; auto; lia.
  - destruct (Hdec p) as [Hs|Hs].
    { eapply must_bind_intro; [apply (quiet_must f ps s p (fun c => c = false)); apply Hn; auto|].
      intros [[c ps'] s1] [Ec E]; cbn in E, Ec; subst; cbn; split; auto; lia. }
    eapply must_bind_intro; [apply (quiet_must f ps s p (fun _ => True)); apply Hf|].
    intros [[c ps'] s1] [_ E]; cbn in E; subst s1; destruct c; [|cbn; split; auto; lia].
    apply must_bind_intro with (Q := fun o => may (evolve_step io fexp mdl alg s p) o /\ Inv (fst o) (snd o) /\ (~ stop p -> mu (snd o) < mu p));
      [eapply must_strengthen; [apply Hstep; eauto|]; auto|].
    intros [s' p'] (Hmay & Hi' & Hlt); cbn [fst snd] in *; specialize (Hlt Hs); apply step_generation in Hmay.
    eapply must_mono; [|apply (IH fuel s' p' ps' (tr ++ [p])); auto; lia].
    intros r [A B]; split; auto; lia.
Qed.

Lemma step_stagnation s p s' p' : may (evolve_step io fexp mdl alg s p) (s', p') ->
  stagnation p' = (if fgt (ps_max (pop_stats p')) (ps_max (pop_stats p)) then 0 else stagnation p + 1).
Proof.
  intros H; apply step_may in H as (el & off & _ & _ & _ & H & Hne).
  destruct (must_may _ _ _ (replace_must io p off Hne) H) as (_ & _ & _ & E); exact E.
Qed.

(** A run that is patient for [n] generations stops when they are over. *)
Lemma loop_patience n fuel : forall s p ps tr r, stagnation p <= n ->
  may (evolve_loop io fexp mdl alg (quiet (patience n)) fuel s p ps tr) r -> stagnation (r_population r) = n.
Proof.
  induction fuel as [|k IH]; intros s p ps tr r Hp H; [destruct H|]; cbn [evolve_loop] in H.
  apply may_bind in H as ([[c ps'] s1] & Hq & H); apply quiet_may in Hq as [Hq ->]; change ((stagnation p <? n, ps) = (c, ps')) in Hq; injection Hq as <- <-.
  destruct (Nat.ltb_spec (stagnation p) n) as [Hlt|Hge].
  - apply may_bind in H as ([s' p'] & Hs & H); apply step_stagnation in Hs; apply IH in H; auto.
    destruct (fgt _ _) in Hs; lia.
  - cbn in H; subst r; cbn; lia.
Qed.

Lemma patience_result n fuel s init q ps r :
  may (evolve_population io fexp mdl alg (quiet (patience n)) fuel s init q ps) r -> stagnation (r_population r) = n.
Proof.
  intros H; unfold evolve_population in H; apply may_bind in H as (s1 & _ & H); apply may_bind in H as (p & Hp & H).
  eapply loop_patience; [|exact H]; unfold initialize_population in Hp; apply may_bind in Hp as (ev & _ & Hp).
  assert (Hne : filter (is_valid io) ev <> []) by (intros E; rewrite E in Hp; eapply must_fail_no_may; [apply (new_empty io)|exact Hp]).
  destruct (must_may _ _ _ (new_must io _ Hne) Hp) as (_ & _ & E); rewrite E; lia.
Qed.
End Measure.

(** ** Best values along a run with an elite *)
Section Elites.
Context {I : Type} (io : individual_ops I) (fexp : f64 -> f64) {MS : Type} (mdl : model I MS).
Context {P S0 : Type} (alg : algorithm I MS P S0) (n e : nat) (J : S0 -> Prop) {PS : Type}.
Hypothesis Jprep : forall s p s', J s -> may (alg_prepare alg s p) s' -> J s'.
Hypothesis Jel : forall s, J s -> alg_select_elites alg s = select_top e.
Hypothesis Jrep : forall s, J s -> snd (alg_reproduction_parameters alg s) = n.
Hypothesis Jsel : forall s p, J s -> individuals p <> [] -> fits_usize (length (individuals p)) ->
  only_members io fexp (parent_selector (fst (alg_reproduction_parameters alg s))) p.
Hypothesis Hen : e < n.
Hypothesis Hn : fits_usize n.
Hypothesis Hval : valid_is_number io.
Hypothesis He : 1 <= e.
Hypothesis Heq : equal_means_equal_fitness io.

(** The key of the best fitness *)
Definition top (p : population I) : R := key (ps_max (pop_stats p)).

Lemma top_member p : well_formed io p -> exists x, In x (individuals p) /\ fitness io x = ps_max (pop_stats p) /\
  is_nan (ps_max (pop_stats p)) = false /\ forall y, In y (individuals p) -> (key (fitness io y) <= top p)%R.
Proof.
  intros Hw; destruct (fittest_max io p Hw) as (x & _ & _ & Hin & E & Hmax); exists x; split; auto; split; auto.
  destruct Hw as (_ & Hnn & _); split; [rewrite <- E; apply Hnn; auto|].
  intros y Hy; apply Hmax, fle_spec in Hy as (_ & _ & H); unfold top; rewrite <- E; exact H.
Qed.

Definition follows (p p' : population I) : Prop :=
  (top p <= top p')%R /\ ((top p < top p')%R -> stagnation p' = 0) /\ ((top p' <= top p)%R -> stagnation p' = stagnation p + 1).

Lemma step_follows s p s' p' : Inv io J s p -> may (evolve_step io fexp mdl alg s p) (s', p') -> Inv io J s' p' /\ follows p p'.
Proof.
  intros Hi H; destruct (step_inv io fexp mdl alg n e J Jprep Jel Jrep Jsel Hen Hn Hval _ _ _ _ Hi H) as [Hi' [_ Hg]].
  split; auto; pose proof Hi as (_ & Hw & _); pose proof Hi' as (_ & Hw' & _).
  destruct (top_member p Hw) as (x & Hx & Ex & Nx & _); destruct (top_member p' Hw') as (x' & _ & _ & Nx' & Mx').
  destruct (Hg He Heq x Hx) as (y & Hy & Hle); apply fle_spec in Hle as (_ & _ & Hle); pose proof (Mx' y Hy) as Hyt.
  assert (Ht : (top p <= top p')%R) by (unfold top at 1; rewrite <- Ex; lra).
  apply step_stagnation in H; split; auto.
  destruct (fgt (ps_max (pop_stats p')) (ps_max (pop_stats p))) eqn:E.
  - apply fgt_spec in E as (_ & _ & E); fold (top p) (top p') in E; split; auto; intros; lra.
  - split; auto; intros Hlt; exfalso.
    assert (fgt (ps_max (pop_stats p')) (ps_max (pop_stats p)) = true) by (apply fgt_spec; auto); congruence.
Qed.

Lemma chain_first t p : stagnation p = 0 ->
  (forall k q q', nth_error (p :: t) k = Some q -> nth_error (p :: t) (S k) = Some q' -> follows q q') ->
  forall k q, nth_error (p :: t) k = Some q -> stagnation q <= k /\
    exists o, nth_error (p :: t) (k - stagnation q) = Some o /\ top o = top q /\
    forall i o', i < k - stagnation q -> nth_error (p :: t) i = Some o' -> (top o' < top q)%R.
Proof.
  intros H0 HR; induction k as [|k IH]; intros q Hq.
  - cbn in Hq; injection Hq as <-; rewrite H0; split; auto; exists p; cbn; repeat split; auto; intros; lia.
  - destruct (nth_error_lt (p :: t) k) as [q0 Hq0]; [pose proof (nth_error_some_lt _ _ _ Hq); lia|].
    destruct (IH q0 Hq0) as (Hk & o & Ho & Eo & Hbefore); destruct (HR k q0 q Hq0 Hq) as (Hle & Hlt & Hge).
    destruct (Rlt_le_dec (top q0) (top q)) as [C|C].
    + rewrite (Hlt C), Nat.sub_0_r; split; [lia|]; exists q; split; auto; split; auto.
      intros i o' Hi Ho'.
      assert (Hup : forall d j a b, nth_error (p :: t) j = Some a -> nth_error (p :: t) (j + d) = Some b -> (top a <= top b)%R).
      { induction d as [|d IHd]; intros j a b Ha Hb; [rewrite Nat.add_0_r, Ha in Hb; injection Hb as <-; lra|].
        replace (j + S d) with (S (j + d)) in Hb by lia.
        destruct (nth_error_lt (p :: t) (j + d)) as [c Hc]; [pose proof (nth_error_some_lt _ _ _ Hb); lia|].
        pose proof (IHd j a c Ha Hc); destruct (HR _ _ _ Hc Hb) as [Hab _]; lra. }
      assert ((top o' <= top q0)%R) by (apply (Hup (k - i) i); auto; replace (i + (k - i)) with k by lia; auto); lra.
    + assert (E : top q = top q0) by lra; rewrite (Hge C); split; [lia|].
      replace (S k - (stagnation q0 + 1)) with (k - stagnation q0) by lia; exists o; rewrite E; repeat split; auto.
Qed.

Lemma run_counter (f : PS -> population I -> M (bool * PS)) fuel s q s1 init ps r :
  alg_configure alg s q = Ret s1 -> J s1 -> fits_usize (length init) ->
  may (evolve_population io fexp mdl alg (quiet f) fuel s init q ps) r ->
  forall k p, nth_error (r_trace r) k = Some p -> stagnation p <= k /\ first_to_reach io (r_trace r) (k - stagnation p) k.
Proof.
  intros Hc HJ Hf H; unfold evolve_population in H; rewrite Hc in H; cbn [bind] in H; apply may_bind in H as (p0 & Hp & H).
  destruct (init_inv io mdl n e J Hen Hval s1 _ _ p0 HJ Hf Hp) as (Hi & _).
  assert (Hs0 : stagnation p0 = 0).
  { unfold initialize_population in Hp; apply may_bind in Hp as (ev & _ & Hp).
    assert (Hne : filter (is_valid io) ev <> []) by (intros E; rewrite E in Hp; eapply must_fail_no_may; [apply (new_empty io)|exact Hp]).
    destruct (must_may _ _ _ (new_must io _ Hne) Hp) as (_ & _ & E); exact E. }
  destruct (loop_inv io fexp mdl alg f (Inv io J) follows fuel step_follows _ _ _ _ _ Hi H) as (t & Et & A & B & _).
  cbn [app] in Et; rewrite Et; intros k p Hk.
  destruct (chain_first t p0 Hs0 B k p Hk) as (Hle & o & Ho & Eo & Hbefore); split; auto; exists o, p; split; auto; split; auto.
  destruct (A _ _ Hk) as (s2 & _ & Hw & _); destruct (A _ _ Ho) as (s3 & _ & Hw3 & _).
  destruct (top_member p Hw) as (x & Hx & Ex & Nx & Mx); destruct (top_member o Hw3) as (y & Hy & Ey & Ny & My).
  pose proof Hw as (_ & Wp & _); pose proof Hw3 as (_ & Wo & _).
  split; [|split].
  - exists y; split; auto; intros z Hz; apply fle_spec; split; [apply Wp; auto|]; split; [apply Wo; auto|].
    rewrite Ey; fold (top o); rewrite Eo; auto.
  - exists x; split; auto; intros z Hz; apply fle_spec; split; [apply Wo; auto|]; split; [apply Wp; auto|].
    rewrite Ex; fold (top p); rewrite <- Eo; auto.
  - intros i o' Hi' Ho'; specialize (Hbefore i o' Hi' Ho'); destruct (A _ _ Ho') as (s4 & _ & Hw4 & _).
    destruct (top_member o' Hw4) as (_ & _ & _ & _ & M'); pose proof Hw4 as (_ & W4 & _).
    exists x; split; auto; intros z Hz; apply flt_spec; split; [apply W4; auto|]; split; [apply Wp; auto|].
    rewrite Ex; fold (top p); specialize (M' z Hz); lra.
Qed.
End Elites.

(** ** Runs that stop on stagnation end *)
Section Ends.
Context {I : Type} (io : individual_ops I) (fexp : f64 -> f64) {MS : Type} (mdl : model I MS).
Context {P S0 : Type} (alg : algorithm I MS P S0) (n e : nat) (J : S0 -> Prop) (G : I -> Prop) {PS : Type}.
Hypothesis Jprep : forall s p, J s -> must (alg_prepare alg s p) J.
Hypothesis Jel : forall s, J s -> alg_select_elites alg s = select_top e.
Hypothesis Jrep : forall s, J s -> snd (alg_reproduction_parameters alg s) = n.
Hypothesis Jsel : forall s, J s -> steady io fexp (parent_selector (fst (alg_reproduction_parameters alg s))).
Hypothesis Hen : e < n.
Hypothesis Hn : fits_usize n.
Hypothesis Hn2 : 2 <= n.
Hypothesis Htot : total_model mdl G.
Hypothesis Hval : valid_is_number io.
Hypothesis He : 1 <= e.
Hypothesis Heq : equal_means_equal_fitness io.
Variables (levels : list f64) (w : nat).
Hypothesis Hlev : fitness_among io levels.

Lemma Jprep' s p s' : J s -> may (alg_prepare alg s p) s' -> J s'.
Proof. intros HJ H; exact (must_may _ _ _ (Jprep s p HJ) H). Qed.
Lemma Jsel' s p : J s -> individuals p <> [] -> fits_usize (length (individuals p)) ->
  only_members io fexp (parent_selector (fst (alg_reproduction_parameters alg s))) p.
Proof. intros HJ Hp Hf r H; exact (must_may _ _ _ (Jsel s HJ p Hp Hf) H). Qed.

Definition above (p : population I) : nat := length (filter (fun v => flt (ps_max (pop_stats p)) v) levels).
Definition mu (p : population I) : nat := w * above p + (w - stagnation p).

Lemma filter_le {A} (a b : A -> bool) l : (forall x, In x l -> a x = true -> b x = true) -> length (filter a l) <= length (filter b l).
Proof.
  induction l as [|x l IH]; intros H; cbn; auto.
  assert (length (filter a l) <= length (filter b l)) by (apply IH; intros; apply H; cbn; auto).
  destruct (a x) eqn:Ea; [rewrite (H x (or_introl eq_refl) Ea); cbn; lia|destruct (b x); cbn; lia].
Qed.
Lemma filter_lt {A} (a b : A -> bool) l x : (forall y, In y l -> a y = true -> b y = true) -> In x l -> a x = false -> b x = true ->
  length (filter a l) < length (filter b l).
Proof.
  induction l as [|y l IH]; intros H Hx Ha Hb; [destruct Hx|]; cbn.
  assert (Hl : length (filter a l) <= length (filter b l)) by (apply filter_le; intros; apply H; cbn; auto).
  destruct Hx as [->|Hx]; [rewrite Ha, Hb; cbn; lia|].
  assert (length (filter a l) < length (filter b l)) by (apply IH; auto; intros; apply H; cbn; auto).
  destruct (a y) eqn:Ea; [rewrite (H y (or_introl eq_refl) Ea); cbn; lia|destruct (b y); cbn; lia].
Qed.

Lemma above_bound p : well_formed io p -> all_valid io p -> above p < length levels.
Proof.
  intros Hw Hv; destruct (top_member io p Hw) as (x & Hx & Ex & Nx & _).
  assert (E0 : length levels = length (filter (fun _ => true) levels)).
  { clear; induction levels as [|v l IH]; cbn; auto. }
  rewrite E0; apply filter_lt with (x := fitness io x); auto; rewrite Ex.
  destruct (flt _ _) eqn:E; auto; apply flt_spec in E as (_ & _ & E); lra.
Qed.

Lemma mu_step p p' : well_formed io p -> well_formed io p' -> all_valid io p' -> follows p p' -> stagnation p < w -> mu p' < mu p.
Proof.
  intros Hw Hw' Hv (Hle & Hlt & Hge) Hst; destruct (top_member io p Hw) as (x & Hx & Ex & Nx & _).
  destruct (top_member io p' Hw') as (y & Hy & Ey & Ny & _).
  assert (Hsub : forall v, In v levels -> flt (ps_max (pop_stats p')) v = true -> flt (ps_max (pop_stats p)) v = true).
  { intros v _ H; apply flt_spec in H as (_ & Nv & H); apply flt_spec; split; auto; split; auto; fold (top p); fold (top p') in H; lra. }
  unfold mu; destruct (Rlt_le_dec (top p) (top p')) as [C|C].
  - rewrite (Hlt C).
    assert (above p' < above p); [|nia].
    apply filter_lt with (x := fitness io y); auto; rewrite Ey.
    + destruct (flt _ _) eqn:E; auto; apply flt_spec in E as (_ & _ & E); lra.
    + apply flt_spec; auto.
  - rewrite (Hge C); assert (above p' <= above p) by (apply filter_le; auto); nia.
Qed.

Definition Inv3 (s : S0) (p : population I) : Prop := Inv2 io J G s p /\ Inv io J s p.

Lemma step3 s p : Inv3 s p -> must (evolve_step io fexp mdl alg s p) (fun o =>
  Inv3 (fst o) (snd o) /\ (~ w <= stagnation p -> mu (snd o) < mu p)).
Proof.
  intros [H2 H1]; eapply must_strengthen; [apply (step_must io fexp mdl alg n e J G Jprep Jel Jrep Jsel Hen Hn Htot s p Hn2 H2)|].
  intros [s' p'] Hm H2'; cbn [fst snd] in *.
  destruct (step_follows io fexp mdl alg n e J Jprep' Jel Jrep Jsel' Hen Hn Hval He Heq _ _ _ _ H1 Hm) as [H1' HF].
  split; [split; auto|]; intros Hst; destruct H1 as (_ & Hw & _), H1' as (_ & Hw' & Hv' & _); apply mu_step; auto; lia.
Qed.

Lemma run_ends (f : PS -> population I -> M (bool * PS)) fuel s q s1 init ps :
  alg_configure alg s q = Ret s1 -> J s1 -> fits_usize (length init) -> startable io mdl G (alg_model alg s1) init ->
  impatient w f -> w * length levels < fuel ->
  must (evolve_population io fexp mdl alg (quiet f) fuel s init q ps) (fun r =>
    generation (r_population r) <= w * length levels /\ exists x, take_fittest (r_population r) = Ret x).
Proof.
  intros Hc HJ Hl [HG Hv] [Hf1 Hf2] Hfu; unfold evolve_population; rewrite Hc; cbn [bind].
  apply must_bind_intro with (Q := fun p => Inv3 s1 p /\ generation p = 0 /\ mu p <= w * length levels).
  - eapply must_strengthen; [apply (init_must io mdl n e J G Hen Htot s1); auto|]; intros p Hm [H2 Hg].
    destruct (init_inv io mdl n e J Hen Hval s1 _ _ p HJ Hl Hm) as (H1 & _); split; [split; auto|]; split; auto.
    destruct H1 as (_ & Hw & Hva & _); pose proof (above_bound p Hw Hva); unfold mu; nia.
  - intros p (H3 & Hg & Hmu).
    eapply must_mono; [|apply (loop_measure io fexp mdl alg f Inv3 (fun p => w <= stagnation p) mu) with (m := w * length levels); auto].
    + intros r [[H2 _] Hgen]; rewrite Hg in Hgen; split; auto; eapply inv2_fit; eauto.
    + intros p0; apply le_dec.
    + intros s0 p0 Hi; apply step3; auto.
    + intros p0; unfold mu; lia.
Qed.
End Ends.

(** ** The two algorithms *)
Section Ga.
Context {I : Type} (io : individual_ops I) (fexp : f64 -> f64) {MS : Type} (mdl : model I MS) {PS : Type}.
Notation GA := (ga_algorithm io fexp mdl).
Notation AGA := (aga_algorithm io fexp mdl).

Lemma ga_counter (f : PS -> population I -> M (bool * PS)) fuel s init q ps r :
  selector_left_alone mdl -> valid_is_number io -> equal_means_equal_fitness io ->
  fits_usize (ga_population_size q) -> fits_usize (length init) ->
  (Z.of_nat (ga_population_size q) <= 2 ^ 53)%Z -> (1 <= INR (ga_population_size q) * B2R (ga_elitism_rate q))%R ->
  may (evolve_population io fexp mdl GA (quiet f) fuel s init q ps) r ->
  forall k p, nth_error (r_trace r) k = Some p -> stagnation p <= k /\ first_to_reach io (r_trace r) (k - stagnation p) k.
Proof.
  intros Hl Hv Heq Hf Hi Hz Hr H; pose proof H as H'; unfold evolve_population in H'; apply may_bind in H' as (s1 & Hc & _).
  destruct (ga_configured s q s1 Hf Hc) as (Hc' & e & He & HJ & _).
  refine (run_counter io fexp mdl GA (ga_population_size q) e (ga_inv (ga_population_size q) e known) _ _ _ _ _ _ Hv _ Heq f fuel s q s1 init ps r Hc' HJ Hi H).
  - intros s0 p s' H0 H1; exact (ga_prep io fexp mdl _ _ _ _ _ Hl H0 H1).
  - intros s0 (_ & <- & _); reflexivity.
  - intros s0 (<- & _); reflexivity.
  - intros s0 p (_ & _ & Hk) Hp Hfp; apply known_members; auto.
  - apply He.
  - auto.
  - eapply one_elite; eauto.
Qed.
Lemma aga_counter (f : PS -> population I -> M (bool * PS)) fuel s init q ps r :
  selector_left_alone mdl -> valid_is_number io -> equal_means_equal_fitness io ->
  fits_usize (aga_population_size q) -> fits_usize (length init) ->
  (Z.of_nat (aga_population_size q) <= 2 ^ 53)%Z -> (1 <= INR (aga_population_size q) * B2R (aga_elitism_rate q))%R ->
  may (evolve_population io fexp mdl AGA (quiet f) fuel s init q ps) r ->
  forall k p, nth_error (r_trace r) k = Some p -> stagnation p <= k /\ first_to_reach io (r_trace r) (k - stagnation p) k.
Proof.
  intros Hl Hv Heq Hf Hi Hz Hr H; pose proof H as H'; unfold evolve_population in H'; apply may_bind in H' as (s1 & Hc & _).
  destruct (aga_configured s q s1 Hf Hc) as (Hc' & e & He & HJ & _).
  refine (run_counter io fexp mdl AGA (aga_population_size q) e (aga_inv (aga_population_size q) e known) _ _ _ _ _ _ Hv _ Heq f fuel s q s1 init ps r Hc' HJ Hi H).
  - intros s0 p s' H0 H1; exact (aga_prep io fexp mdl _ _ _ _ _ Hl H0 H1).
  - intros s0 (_ & <- & _); reflexivity.
  - intros s0 (<- & _); reflexivity.
  - intros s0 p (_ & _ & Hk) Hp Hfp; apply known_members; auto.
  - apply He.
  - auto.
  - eapply one_elite; eauto.
Qed.

Lemma ga_ends (G : I -> Prop) (f : PS -> population I -> M (bool * PS)) fuel s init q ps n levels :
  ga_accepted q -> 2 <= ga_population_size q -> fits_usize (ga_population_size q) -> fits_usize (length init) ->
  robust_strategy (ga_selection_strategy q) -> total_model mdl G -> startable io mdl G (ga_model s) init ->
  valid_is_number io -> equal_means_equal_fitness io ->
  (Z.of_nat (ga_population_size q) <= 2 ^ 53)%Z -> (1 <= INR (ga_population_size q) * B2R (ga_elitism_rate q))%R ->
  impatient n f -> fitness_among io levels -> n * length levels < fuel ->
  must (evolve_population io fexp mdl GA (quiet f) fuel s init q ps) (fun r =>
    generation (r_population r) <= n * length levels /\ exists x, take_fittest (r_population r) = Ret x).
Proof.
  intros Ha H2 Hf Hi Hr Ht Hs Hv Heq Hz Hre Himp Hlev Hfu.
  destruct (ga_configure_ok s q Hf Ha) as (e & sel & He & Hsel & Hc).
  eapply (run_ends io fexp mdl GA (ga_population_size q) e (ga_inv (ga_population_size q) e safe_selector) G); eauto.
  - intros; eapply ga_prep_must; eauto.
  - intros ? (_ & <- & _); reflexivity.
  - intros ? (<- & _); reflexivity.
  - intros ? (_ & _ & ?); apply safe_steady; auto.
  - apply He.
  - eapply one_elite; eauto.
  - repeat split; auto; cbn; eapply created_safe; eauto.
Qed.
Lemma aga_ends (G : I -> Prop) (f : PS -> population I -> M (bool * PS)) fuel s init q ps n levels :
  aga_accepted q -> 2 <= aga_population_size q -> fits_usize (aga_population_size q) -> fits_usize (length init) ->
  robust_strategy (aga_selection_strategy q) -> total_model mdl G -> startable io mdl G (aga_model s) init ->
  valid_is_number io -> equal_means_equal_fitness io ->
  (Z.of_nat (aga_population_size q) <= 2 ^ 53)%Z -> (1 <= INR (aga_population_size q) * B2R (aga_elitism_rate q))%R ->
  impatient n f -> fitness_among io levels -> n * length levels < fuel ->
  must (evolve_population io fexp mdl AGA (quiet f) fuel s init q ps) (fun r =>
    generation (r_population r) <= n * length levels /\ exists x, take_fittest (r_population r) = Ret x).
Proof.
  intros Ha H2 Hf Hi Hr Ht Hs Hv Heq Hz Hre Himp Hlev Hfu.
  destruct (aga_configure_ok s q Hf Ha) as (e & sel & He & Hsel & Hc).
  eapply (run_ends io fexp mdl AGA (aga_population_size q) e (aga_inv (aga_population_size q) e safe_selector) G); eauto.
  - intros; eapply aga_prep_must; eauto.
  - intros ? (_ & <- & _); reflexivity.
  - intros ? (<- & _); reflexivity.
  - intros ? (_ & _ & ?); apply safe_steady; auto.
  - apply He.
  - eapply one_elite; eauto.
  - repeat split; auto; cbn; eapply created_safe; eauto.
Qed.
End Ga.

(** One number of generations for all programs *)
Lemma always_ends : exists bound : nat, forall (I : Type) (io : individual_ops I) (fexp : f64 -> f64) (MS : Type) (mdl : model I MS) (PS : Type)
  (G : I -> Prop) (f : PS -> population I -> M (bool * PS)) (fuel : nat) (init : list I) (ps : PS) (n : nat),
  fits_usize (length init) -> total_model mdl G -> valid_is_number io -> equal_means_equal_fitness io -> impatient n f -> n * bound < fuel ->
  (forall (s : ga_state I MS) q, ga_accepted q -> 2 <= ga_population_size q -> fits_usize (ga_population_size q) ->
     robust_strategy (ga_selection_strategy q) -> startable io mdl G (ga_model s) init ->
     (Z.of_nat (ga_population_size q) <= 2 ^ 53)%Z -> (1 <= INR (ga_population_size q) * B2R (ga_elitism_rate q))%R ->
     must (evolve_population io fexp mdl (ga_algorithm io fexp mdl) (quiet f) fuel s init q ps) (fun r =>
       generation (r_population r) <= n * bound)) /\
  (forall (s : aga_state I MS) q, aga_accepted q -> 2 <= aga_population_size q -> fits_usize (aga_population_size q) ->
     robust_strategy (aga_selection_strategy q) -> startable io mdl G (aga_model s) init ->
     (Z.of_nat (aga_population_size q) <= 2 ^ 53)%Z -> (1 <= INR (aga_population_size q) * B2R (aga_elitism_rate q))%R ->
     must (evolve_population io fexp mdl (aga_algorithm io fexp mdl) (quiet f) fuel s init q ps) (fun r =>
       generation (r_population r) <= n * bound)).
Proof.
  destruct f64_listed as [levels Hl]; exists (length levels); intros.
  assert (fitness_among io levels) by (intros x _; apply Hl).
  split; intros; (eapply must_mono; [|first [eapply ga_ends|eapply aga_ends]; eauto]); intros r [Hr _]; exact Hr.
Qed.
