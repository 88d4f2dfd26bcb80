(** * PStuck: elitism of all but one individual (C91). *)
From Coq Require Import List Bool Arith NArith ZArith Reals Lia Lra Permutation.
From Flocq Require Import Core BinarySingleNaN.
From Verif Require Import Rnd LRnd F64 LF64 MStats MPopulation MSelection MModel MAlgorithms SpecF SpecA SpecH SpecG
  PSelection PPopulation PModel PAlgorithms PAlgorithms2 PRun PRun3 PCustom.
Import ListNotations.
Local Open Scope nat_scope.

Section Different.
Context {I : Type} (io : individual_ops I).

Lemma different_perm (l r : list I) : Permutation l r -> all_different io l -> all_different io r.
Proof.
  intros HP Hd i j x y Hij Hx Hy; apply Permutation_nth_error in HP as (_ & f & Hf & Hn).
  rewrite Hn in Hx, Hy; exact (Hd (f i) (f j) x y (fun E => Hij (Hf _ _ E)) Hx Hy).
Qed.

Lemma different_skipn k (l : list I) : all_different io l -> all_different io (skipn k l).
Proof.
  intros Hd i j x y Hij Hx Hy.
  assert (E : forall (m : list I) k i, nth_error (skipn k m) i = nth_error m (k + i)).
  { clear; induction m as [|a m IH]; intros [|k] i; cbn; auto; destruct i; auto. }
  rewrite E in Hx, Hy; apply (Hd (k + i) (k + j)); auto; lia.
Qed.

Lemma different_dedup (l : list I) : all_different io l -> dedup io l = l.
Proof.
  destruct l as [|k l]; cbn [dedup]; auto; revert k; induction l as [|h t IH]; intros k Hd; cbn [dedup_from]; auto.
  rewrite (Hd 1 0 h k) by (auto; reflexivity); f_equal; apply IH.
  intros i j x y Hij Hx Hy; apply (Hd (S i) (S j)); auto; lia.
Qed.

Lemma built_perm (l r : list I) : all_different io l -> built io l r -> Permutation l r.
Proof.
  intros Hd (s & HP & _ & ->); rewrite different_dedup; auto; eapply different_perm; eauto.
Qed.

Lemma replace_perm p (l : list I) : l <> [] -> all_different io l ->
  must (population_replace io p l) (fun o => Permutation l (individuals (fst o))).
Proof.
  intros Hl Hd; unfold population_replace; cbv zeta; eapply must_bind_intro; [apply sort_dedup_must; auto|].
  intros [r st] [Hb Hs]; cbn [fst snd] in *; subst st; cbn; apply built_perm; auto.
Qed.
End Different.

Section Stuck.
Context {I : Type} (io : individual_ops I) (fexp : f64 -> f64) {MS : Type} (mdl : model I MS).
Context {P S0 : Type} (alg : algorithm I MS P S0) (e : nat) (J : S0 -> Prop) {PS : Type}.
Hypothesis Jprep : forall s p s', J s -> may (alg_prepare alg s p) s' -> J s'.
Hypothesis Jel : forall s, J s -> alg_select_elites alg s = select_top e.
Hypothesis Jrep : forall s, J s -> snd (alg_reproduction_parameters alg s) = S e.

Lemma stuck_step s p s' p' : J s -> e <= length (individuals p) -> all_different io (individuals p) ->
  may (evolve_step io fexp mdl alg s p) (s', p') -> J s' /\ Permutation (top e p) (individuals p').
Proof.
  intros Js Hl Hd H; apply step_may in H as (el & off & H1 & H2 & H3 & H4 & Hne).
  pose proof (Jprep _ _ _ Js H1) as Js'; split; auto; rewrite (Jel s' Js') in H2.
  destruct (select_top_spec e p []) as (rest & tp & Ei & Et & Es); rewrite Es in H2; cbn in H2; subst el.
  assert (tp = top e p) as ->.
  { unfold top; rewrite Ei, app_length; replace (length rest + length tp - e) with (length rest) by lia.
    rewrite skipn_app, skipn_all, Nat.sub_diag; reflexivity. }
  pose proof (Jrep s' Js') as En; destruct (alg_reproduction_parameters alg s') as [b n]; cbn [snd] in En; subst n.
  apply generate_may in H3 as (news & Eo & El & _).
  assert (news = []) as ->.
  { rewrite Et, Nat.min_l in El by lia; replace (S e - e) with 1 in El by lia; destruct news; [auto|discriminate]. }
  rewrite app_nil_r in Eo; subst off.
  exact (must_may _ _ _ (replace_perm io p _ Hne (different_skipn io _ _ Hd)) H4).
Qed.

Lemma stuck_run (f : PS -> population I -> M (bool * PS)) fuel s q s1 init ps r p0 :
  alg_configure alg s q = Ret s1 -> J s1 ->
  may (evolve_population io fexp mdl alg (quiet f) fuel s init q ps) r ->
  nth_error (r_trace r) 0 = Some p0 -> e <= length (individuals p0) -> all_different io (individuals p0) ->
  forall k p, 1 <= k -> nth_error (r_trace r) k = Some p -> Permutation (top e p0) (individuals p).
Proof.
  intros Hc Js H0 E0 Hl Hd; unfold evolve_population in H0; rewrite Hc in H0; cbn [bind] in H0; apply may_bind in H0 as (p1 & Hp & H).
  assert (E1 : p1 = p0) by (destruct (loop_trace io fexp mdl alg _ _ _ _ _ _ _ H) as (t & Et & _); cbn [app] in Et; rewrite Et in E0; cbn in E0; congruence).
  subst p1.
  assert (Ht : length (top e p0) = e) by (unfold top; rewrite skipn_length; lia).
  refine (match loop_inv io fexp mdl alg f
    (fun s p => J s /\ (p = p0 \/ Permutation (top e p0) (individuals p)))
    (fun _ p' => Permutation (top e p0) (individuals p')) fuel _ s1 p0 ps [] r (conj Js (or_introl eq_refl)) H
    with ex_intro _ t (conj Et (conj A (conj B _))) => _ end).
  - intros s0 p s' p' [J0 Hp0] Hs.
    assert (X : J s' /\ Permutation (top e p0) (individuals p')); [|destruct X; auto].
    destruct Hp0 as [->|HP]; [apply stuck_step in Hs; auto|].
    pose proof (Permutation_length HP) as HL; rewrite Ht in HL.
    apply stuck_step in Hs as [J1 HP']; auto; [split; auto|lia|].
    + unfold top in HP' at 1; rewrite <- HL, Nat.sub_diag in HP'; cbn [skipn] in HP'; eapply Permutation_trans; eauto.
    + eapply different_perm; [exact HP|]; apply different_skipn; auto.
  - cbn [app] in Et; intros k p Hk; rewrite Et; destruct k as [|k]; [lia|]; intros Hp1.
    destruct (nth_error_lt (p0 :: t) k) as [q0 Hq0]; [apply nth_error_some_lt in Hp1; lia|]; exact (B k q0 p Hq0 Hp1).
Qed.
End Stuck.

Lemma all_but_one size ratio e : elite_count size ratio e -> (Z.of_nat size <= 2 ^ 53)%Z -> (INR size - 1 <= INR size * B2R ratio)%R -> size = S e.
Proof.
  intros [Hlt H] Hs Hr; specialize (H Hs).
  assert (Z.of_nat size - 1 <= Zfloor (INR size * B2R ratio))%Z by (apply Zfloor_lub; rewrite minus_IZR, <- INR_IZR_INZ; auto); lia.
Qed.

Section Instances.
Context {I : Type} (io : individual_ops I) (fexp : f64 -> f64) {MS : Type} (mdl : model I MS) {PS : Type}.
Notation GA := (ga_algorithm io fexp mdl).
Notation AGA := (aga_algorithm io fexp mdl).

Lemma ga_stuck (f : PS -> population I -> M (bool * PS)) fuel s init q ps r p0 :
  (Z.of_nat (ga_population_size q) <= 2 ^ 53)%Z ->
  (INR (ga_population_size q) - 1 <= INR (ga_population_size q) * B2R (ga_elitism_rate q))%R ->
  may (evolve_population io fexp mdl GA (quiet f) fuel s init q ps) r ->
  nth_error (r_trace r) 0 = Some p0 -> ga_population_size q - 1 <= length (individuals p0) -> all_different io (individuals p0) ->
  forall k p, 1 <= k -> nth_error (r_trace r) k = Some p -> Permutation (top (ga_population_size q - 1) p0) (individuals p).
Proof.
  intros H53 Hr H E0 Hl Hd; assert (Hf : fits_usize (ga_population_size q)) by (unfold fits_usize, usize_max; lia).
  pose proof H as H'; unfold evolve_population in H'; apply may_bind in H' as (s1 & Hc & _).
  destruct (ga_configured s q s1 Hf Hc) as (Hc' & e & He & (J1 & J2 & _) & _).
  pose proof (all_but_one _ _ _ He H53 Hr) as En; rewrite En in *; replace (S e - 1) with e in * by lia.
  refine (stuck_run io fexp mdl GA e (fun s => ga_size s = S e /\ ga_elite_size s = e) _ _ _ f fuel s q s1 init ps r p0 Hc' _ H E0 Hl Hd); auto.
  - intros s0 p s' [A B] Hp; cbn in Hp; unfold ga_prepare in Hp; apply may_bind in Hp as ([ms b] & _ & Hp).
    apply may_bind in Hp as (sel & _ & Hp); cbn in Hp; subst s'; auto.
  - intros s0 [_ <-]; reflexivity.
  - intros s0 [<- _]; reflexivity.
Qed.
Lemma aga_stuck (f : PS -> population I -> M (bool * PS)) fuel s init q ps r p0 :
  (Z.of_nat (aga_population_size q) <= 2 ^ 53)%Z ->
  (INR (aga_population_size q) - 1 <= INR (aga_population_size q) * B2R (aga_elitism_rate q))%R ->
  may (evolve_population io fexp mdl AGA (quiet f) fuel s init q ps) r ->
  nth_error (r_trace r) 0 = Some p0 -> aga_population_size q - 1 <= length (individuals p0) -> all_different io (individuals p0) ->
  forall k p, 1 <= k -> nth_error (r_trace r) k = Some p -> Permutation (top (aga_population_size q - 1) p0) (individuals p).
Proof.
  intros H53 Hr H E0 Hl Hd; assert (Hf : fits_usize (aga_population_size q)) by (unfold fits_usize, usize_max; lia).
  pose proof H as H'; unfold evolve_population in H'; apply may_bind in H' as (s1 & Hc & _).
  destruct (aga_configured s q s1 Hf Hc) as (Hc' & e & He & (J1 & J2 & _) & _).
  pose proof (all_but_one _ _ _ He H53 Hr) as En; rewrite En in *; replace (S e - 1) with e in * by lia.
  refine (stuck_run io fexp mdl AGA e (fun s => aga_size s = S e /\ aga_elite_size s = e) _ _ _ f fuel s q s1 init ps r p0 Hc' _ H E0 Hl Hd); auto.
  - intros s0 p s' [A B] Hp; destruct (aga_adjust s0 p) as [[ref cr] mr] eqn:E.
    destruct (aga_prepare_may io fexp mdl s0 p s' Hp _ _ _ E) as (ms & b & sel & _ & _ & ->); auto.
  - intros s0 [_ <-]; reflexivity.
  - intros s0 [<- _]; reflexivity.
Qed.
End Instances.
