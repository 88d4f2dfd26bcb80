(** * PModel: proofs about src/model.rs (C52-C54, C74). *)
From Coq Require Import List Bool Arith NArith ZArith Reals Lia Lra.
From Flocq Require Import Core BinarySingleNaN.
From Verif Require Import Rnd LRnd Prob LProb F64 LF64 MStats MPopulation MSelection MModel SpecF PSelection PSelection2 PSelection3 PPopulation ExF.
Import ListNotations.

(** A rate no draw is below *)
Lemma unit_not_below r u : flt f0 r = false -> (u < 2 ^ 53)%N -> flt (f_unit u) r = false.
Proof.
  intros H Hu; destruct (flt (f_unit u) r) eqn:E; auto.
  apply flt_spec in E as (A & B & C); rewrite <- H; symmetry; apply flt_spec; repeat split; auto.
  destruct (f_unit_val u Hu) as [F _]; rewrite key_finite in C by auto.
  pose proof (f_unit_bound u Hu); change (key f0) with 0%R; lra.
Qed.

Section Breed.
Context {I : Type} (io : individual_ops I) (fexp : f64 -> f64) {MS : Type} (mdl : model I MS).

Lemma parent2_must p b parent1 :
  selects_members io fexp (parent_selector b) p ->
  must (breed_parent2 io fexp p b parent1) (fun o => forall q, o = Some q ->
    In q (individuals p) /\ ieq io q parent1 = false /\ 1 < length (individuals p) /\ flt f0 (crossover_rate b) = true).
Proof.
  intros Hsel; unfold breed_parent2; destruct (Nat.ltb_spec 1 (length (individuals p))) as [Hl|]; [|cbn; discriminate].
  apply must_bind, must_gen_f64; intros u Hu.
  destruct (flt (f_unit u) (crossover_rate b)) eqn:E; [|cbn; discriminate].
  assert (Hc : flt f0 (crossover_rate b) = true).
  { destruct (flt f0 (crossover_rate b)) eqn:E0; auto; rewrite unit_not_below in E by auto; discriminate. }
  apply must_bind; generalize 3 as t; induction t as [|t IH]; cbn [select_distinct]; [cbn; discriminate|].
  eapply must_bind_intro; [exact Hsel|]; intros [i c] Hin; cbn [snd] in Hin.
  destruct (ieq io c parent1) eqn:Ec; cbn [negb]; [exact IH|].
  cbn; intros q [= <-]; auto.
Qed.

(** Total correctness of breed; each method of the model is needed only on the
    arguments it can be called with. *)
Lemma breed_must ms p b (X Y : I -> Prop) :
  selects_members io fexp (parent_selector b) p ->
  (forall a c, In a (individuals p) -> In c (individuals p) -> ieq io c a = false ->
     1 < length (individuals p) -> flt f0 (crossover_rate b) = true -> must (m_crossover mdl ms a c) X) ->
  (forall o, In o (individuals p) \/ X o -> flt f0 (mutation_rate b) = true -> must (m_mutate mdl ms o) X) ->
  (forall o, In o (individuals p) \/ X o -> must (m_improve mdl ms o) X) ->
  (forall o, X o -> must (m_evaluate mdl ms o) Y) ->
  (forall o f, Y o -> is_valid io o = true -> In f (individuals p) -> must (m_can_survive mdl ms o f p) (fun _ => True)) ->
  must (breed io fexp mdl ms p b) (fun x => In x (individuals p) \/ (Y x /\ is_valid io x = true)).
Proof.
  intros Hsel Hc Hm Hi He Hs; unfold breed.
  eapply must_bind_intro; [exact Hsel|]; intros [i1 parent1] H1; cbn [snd] in H1.
  eapply must_bind_intro; [apply parent2_must; auto|]; intros o Ho; unfold breed_from.
  set (fp := match o with Some q => if fgt (fitness io q) (fitness io parent1) then q else parent1 | None => parent1 end).
  assert (Hfp : In fp (individuals p)) by (unfold fp; destruct o as [q|]; auto; destruct (Ho q eq_refl); destruct (fgt _ _); auto).
  apply must_bind_intro with (Q := fun x => In x (individuals p) \/ X x).
  { destruct o as [q|]; [|cbn; auto]; destruct (Ho q eq_refl) as (A & B & C & D).
    eapply must_mono; [|apply Hc; auto]; auto. }
  intros x Hx; apply must_bind, must_gen_f64; intros u Hu.
  apply must_bind_intro with (Q := fun x => In x (individuals p) \/ X x).
  { destruct (flt (f_unit u) (mutation_rate b)) eqn:E; [|cbn; auto].
    eapply must_mono; [|apply Hm; auto]; auto.
    destruct (flt f0 (mutation_rate b)) eqn:E0; auto; rewrite unit_not_below in E by auto; discriminate. }
  intros x' Hx'; eapply must_bind_intro; [apply Hi; auto|]; intros y Hy.
  eapply must_bind_intro; [apply He; auto|]; intros z Hz.
  destruct (is_valid io z) eqn:V.
  - eapply must_bind_intro; [apply Hs; auto|]; intros [] _; cbn; auto.
  - cbn; auto.
Qed.

(** ** The default survival rule *)
Definition keep_best : Prop := forall ms o f p, m_can_survive mdl ms o f p = default_can_survive io ms o f p.

Lemma breed_from_may ms p b parent1 parent2 x : keep_best ->
  may (breed_from io mdl ms p b parent1 parent2) x ->
  (x = parent1 \/ parent2 = Some x \/ is_valid io x = true) /\
  (f_is_nan (fitness io parent1) = false -> fle (fitness io parent1) (fitness io x) = true) /\
  (forall q, parent2 = Some q -> f_is_nan (fitness io parent1) = false -> f_is_nan (fitness io q) = false -> fle (fitness io q) (fitness io x) = true).
Proof.
  intros Hk H; unfold breed_from in H; apply may_bind in H as (o1 & _ & H).
  apply may_bind in H as (u & _ & H); apply may_bind in H as (o2 & _ & H).
  apply may_bind in H as (o3 & _ & H); apply may_bind in H as (o4 & _ & H).
  apply may_bind in H as (sv & Hsv & H).
  set (fp := match parent2 with Some q => if fgt (fitness io q) (fitness io parent1) then q else parent1 | None => parent1 end) in *.
  cbn in H; subst x.
  assert (Hfp : (fp = parent1 \/ parent2 = Some fp) /\
    (f_is_nan (fitness io parent1) = false -> f_is_nan (fitness io fp) = false /\ (key (fitness io parent1) <= key (fitness io fp))%R) /\
    (forall q, parent2 = Some q -> f_is_nan (fitness io parent1) = false -> f_is_nan (fitness io q) = false -> f_is_nan (fitness io fp) = false /\ (key (fitness io q) <= key (fitness io fp))%R)).
  { unfold fp; destruct parent2 as [q|].
    - destruct (fgt (fitness io q) (fitness io parent1)) eqn:E.
      + apply fgt_spec in E as (A & B & C); split; auto; split; [intros _; split; auto; lra|].
        intros q' [= <-] _ _; split; auto; lra.
      + split; auto; split; [intros; split; auto; lra|]; intros q' [= <-] N1 N2; apply fgt_false in E; auto.
    - split; auto; split; [intros; split; auto; lra|discriminate]. }
  destruct Hfp as (F1 & F2 & F3).
  destruct (is_valid io o4) eqn:V; [rewrite Hk in Hsv|]; cbn in Hsv; subst sv.
  - destruct (fge (fitness io o4) (fitness io fp)) eqn:G.
    + apply fge_spec in G as (A & B & C); split; auto; split; intros; apply fle_spec; repeat split; auto.
      * destruct (F2 H); lra.
      * destruct (F3 q H H0 H1); lra.
    + split; [tauto|]; split; intros; apply fle_spec; repeat split; auto; try apply F2; auto; try (eapply F3; eauto).
  - split; [tauto|]; split; intros; apply fle_spec; repeat split; auto; try apply F2; auto; try (eapply F3; eauto).
Qed.

Lemma breed_keeps_best ms p b x : keep_best ->
  selects_members io fexp (parent_selector b) p -> no_nan io (individuals p) ->
  may (breed io fexp mdl ms p b) x ->
  exists i1 parent1 parent2,
    may (select io fexp (parent_selector b) p) (i1, parent1) /\ In parent1 (individuals p) /\
    may (breed_parent2 io fexp p b parent1) parent2 /\ may (breed_from io mdl ms p b parent1 parent2) x /\
    fle (fitness io parent1) (fitness io x) = true /\
    (forall q, parent2 = Some q -> In q (individuals p) /\ fle (fitness io q) (fitness io x) = true) /\
    (In x (individuals p) \/ is_valid io x = true).
Proof.
  intros Hk Hsel Hn H; unfold breed in H; apply may_bind in H as ([i1 parent1] & H1 & H).
  apply may_bind in H as (o & Ho & H).
  pose proof (must_may _ _ _ Hsel H1) as Hin; cbn [snd] in Hin.
  pose proof (must_may _ _ _ (parent2_must p b parent1 Hsel) Ho) as Hp2; cbv beta in Hp2.
  destruct (breed_from_may ms p b parent1 o x Hk H) as (A & B & C).
  exists i1, parent1, o; repeat split; auto.
  - apply Hp2; auto.
  - apply C; auto; apply Hn; apply Hp2; auto.
  - destruct A as [->|[E|V]]; auto; left; apply Hp2; auto.
Qed.

Lemma breed_valid ms p b x : 
  selects_members io fexp (parent_selector b) p -> (forall y, In y (individuals p) -> is_valid io y = true) ->
  may (breed io fexp mdl ms p b) x -> is_valid io x = true.
Proof.
  intros Hsel Hv H; unfold breed in H; apply may_bind in H as ([i1 parent1] & H1 & H).
  apply may_bind in H as (o & Ho & H).
  pose proof (must_may _ _ _ Hsel H1) as Hin; cbn [snd] in Hin.
  pose proof (must_may _ _ _ (parent2_must p b parent1 Hsel) Ho) as Hp2; cbv beta in Hp2.
  unfold breed_from in H; apply may_bind in H as (o1 & _ & H).
  apply may_bind in H as (u & _ & H); apply may_bind in H as (o2 & _ & H).
  apply may_bind in H as (o3 & _ & H); apply may_bind in H as (o4 & _ & H).
  apply may_bind in H as (sv & Hsv & H); cbn in H.
  destruct sv; [subst x; destruct (is_valid io o4) eqn:V; auto; cbn in Hsv; discriminate|].
  subst x; destruct o as [q|]; auto; destruct (fgt _ _); auto; apply Hv; apply Hp2; auto.
Qed.

(** ** Initial populations *)
Lemma extend_spec (nr : M I) l size (Q : I -> Prop) : must nr Q ->
  must (extend_population nr l size) (fun r => exists news, r = l ++ news /\ length news = size /\ Forall Q news).
Proof.
  intros H; unfold extend_population; destruct (Nat.eqb_spec size 0) as [->|].
  - cbn; exists []; rewrite app_nil_r; auto.
  - eapply must_bind_intro; [apply must_repeatM; eauto|]; intros news [A B]; cbn; eauto.
Qed.

Lemma extend_with_spec ms l size seed (Q : I -> Prop) : must (m_mutate mdl ms seed) Q ->
  must (extend_population_with mdl ms l size seed) (fun r =>
    (size = 0 -> r = l) /\
    (size <> 0 -> exists news, r = l ++ seed :: news /\ length news = size - 1 /\ Forall Q news)).
Proof.
  intros H; unfold extend_population_with; destruct (Nat.eqb_spec size 0) as [->|]; [cbn; split; [auto|congruence]|].
  destruct (Nat.eqb_spec size 1) as [->|].
  - cbn; split; [congruence|]; intros _; exists []; auto.
  - eapply must_bind_intro; [apply must_repeatM; eauto|]; intros news [A B]; cbn; split; [congruence|]; intros _.
    exists news; rewrite <- app_assoc; auto.
Qed.
End Breed.

(** ** How often a rate is met *)
Definition met (r : f64) : R := prob gen_f64 (fun u => flt u r).

Lemma met_count (r : f64) : exists k, k <= N.to_nat (2 ^ 53) /\ met r = (INR k / bpow radix2 53)%R /\
  forall u, u < N.to_nat (2 ^ 53) -> flt (f_unit (N.of_nat u)) r = (u <? k).
Proof.
  destruct (threshold (fun u => flt (f_unit (N.of_nat u)) r) (N.to_nat (2 ^ 53))) as (k & Hk & Hf).
  { intros i j Hij Hj H; apply flt_spec in H as (A & B & C).
    destruct (f_unit_val (N.of_nat i)) as [Fi Vi]; [lia|]; destruct (f_unit_val (N.of_nat j)) as [Fj Vj]; [lia|].
    apply flt_spec; split; [apply finite_not_nan; auto|]; split; auto.
    rewrite (key_finite (f_unit (N.of_nat i))) by auto; rewrite (key_finite (f_unit (N.of_nat j))) in C by auto.
    eapply Rle_lt_trans; [|exact C]; rewrite Vi, Vj.
    apply Rmult_le_compat_r; [apply bpow_ge_0|apply IZR_le; lia]. }
  exists k; split; auto; split; auto; unfold met, gen_f64; cbn [prob]; rewrite n53_INR; f_equal.
  rewrite <- (Rsum_count (N.to_nat (2 ^ 53)) k) by auto; apply Rsum_ext; intros u Hu; rewrite Hf by auto; reflexivity.
Qed.

Lemma rate_prob (r : f64) : is_finite r = true -> (0 <= B2R r <= 1)%R ->
  (B2R r <= met r < B2R r + bpow radix2 (-53))%R.
Proof.
  intros Fr Hr; destruct (met_count r) as (k & Hk & -> & Hf).
  pose proof (bpow_gt_0 radix2 53) as H53; pose proof (bpow_gt_0 radix2 (-53)) as Hm53; pose proof bpow53 as Hb.
  assert (Hu : forall u, u < N.to_nat (2 ^ 53) -> ((u < k) <-> (INR u * bpow radix2 (-53) < B2R r)%R)).
  { intros u Hlt; destruct (f_unit_val (N.of_nat u)) as [Fu Vu]; [lia|].
    rewrite <- (Nat.ltb_lt u k), <- Hf by auto; rewrite flt_spec, !key_finite, Vu by auto.
    assert (E : IZR (Z.of_N (N.of_nat u)) = INR u) by (rewrite nat_N_Z, INR_IZR_INZ; auto); rewrite E.
    pose proof (finite_not_nan _ Fr); pose proof (finite_not_nan _ Fu); tauto. }
  assert (HD : (INR k / bpow radix2 53 = INR k * bpow radix2 (-53))%R).
  { unfold Rdiv; f_equal; rewrite <- bpow_opp; reflexivity. }
  rewrite HD; split.
  - destruct (Nat.eq_dec k (N.to_nat (2 ^ 53))) as [->|Hne]; [rewrite n53_INR, Rmult_comm, Hb; lra|].
    destruct (Rlt_le_dec (INR k * bpow radix2 (-53)) (B2R r)) as [H|H]; auto; apply (Hu k) in H; lia.
  - destruct k as [|k]; [cbn [INR]; lra|].
    assert (INR k * bpow radix2 (-53) < B2R r)%R by (apply Hu; lia).
    rewrite S_INR; lra.
Qed.

Lemma met_bounds r : (0 <= met r <= 1)%R.
Proof.
  destruct (met_count r) as (k & Hk & -> & _); pose proof (bpow_gt_0 radix2 53) as H53.
  apply le_INR in Hk; rewrite n53_INR in Hk; pose proof (pos_INR k).
  split; [apply Rmult_le_pos; auto; left; apply Rinv_0_lt_compat; auto|].
  apply (Rmult_le_reg_r (bpow radix2 53)); auto; unfold Rdiv; rewrite Rmult_assoc, Rinv_l by lra; lra.
Qed.

Lemma fold_min_const (l : list R) c : (0 <= c <= 1)%R -> l <> [] -> Forall (fun x => x = c) l -> fold_right Rmin 1%R l = c.
Proof.
  intros Hc Hl H; destruct H as [|x l Hx H]; [congruence|]; clear Hl; subst x; cbn.
  induction H as [|x l Hx H IH]; cbn; [apply Rmin_left; lra|].
  rewrite Hx, Rmin_assoc, (Rmin_left c c) by lra; auto.
Qed.

Lemma fold_min_ge (l : list R) c : (c <= 1)%R -> Forall (fun x => (c <= x)%R) l -> (c <= fold_right Rmin 1 l)%R.
Proof. intros Hc H; induction H; cbn; auto; apply Rmin_glb; auto. Qed.

(** A continuation that succeeds with probability [c] whatever came before *)
Lemma prob_bind_const {A B} (m : M A) (f : A -> M B) Q P c : (0 <= c <= 1)%R ->
  must m Q -> (forall a, Q a -> prob (f a) P = c) -> prob (bind m f) P = c.
Proof.
  intros Hc; induction m as [a|e|n k IH|n k IH]; cbn [must bind prob]; intros Hm Hf; auto; [tauto| |]; destruct Hm as [Hn Hm].
  - rewrite (Rsum_ext _ _ (fun _ => c)), Rsum_const; [field; apply not_0_INR; lia|].
    intros i Hi; apply IH; auto; apply Hm; lia.
  - apply fold_min_const; auto.
    + intros E; apply map_eq_nil in E; apply (f_equal (@length nat)) in E; rewrite seq_length in E; cbn [length] in E; lia.
    + apply Forall_forall; intros x Hx; apply in_map_iff in Hx as (i & <- & Hi); apply in_seq in Hi; apply IH; auto; apply Hm; lia.
Qed.

Lemma Rsum_ge n f c : (forall i, i < n -> (c <= f i)%R) -> (INR n * c <= Rsum n f)%R.
Proof.
  intros H; rewrite <- (Rsum_const n c); unfold Rsum.
  assert (G : forall l, (forall i, In i l -> i < n) -> (fold_right Rplus 0 (map (fun _ => c) l) <= fold_right Rplus 0 (map f l))%R).
  { induction l as [|h t IH]; intros Hl; cbn; [lra|]; specialize (H h (Hl h (or_introl eq_refl))).
    assert (forall i, In i t -> i < n) by (intros; apply Hl; cbn; auto); specialize (IH H0); lra. }
  apply G; intros i Hi; apply in_seq in Hi; lia.
Qed.

Lemma prob_bind_ge {A B} (m : M A) (f : A -> M B) Q P c : (0 <= c <= 1)%R ->
  must m Q -> (forall a, Q a -> (c <= prob (f a) P)%R) -> (c <= prob (bind m f) P)%R.
Proof.
  intros Hc; induction m as [a|e|n k IH|n k IH]; cbn [must bind prob]; intros Hm Hf; auto; [tauto| |]; destruct Hm as [Hn Hm].
  - assert (Hpos : (0 < INR (N.to_nat n))%R) by (apply lt_0_INR; lia).
    apply (Rmult_le_reg_r (INR (N.to_nat n))); auto; unfold Rdiv; rewrite Rmult_assoc, Rinv_l, Rmult_1_r, Rmult_comm by lra.
    apply Rsum_ge; intros i Hi; apply IH; auto; apply Hm; lia.
  - apply fold_min_ge; [lra|].
    apply Forall_forall; intros x Hx; apply in_map_iff in Hx as (i & <- & Hi); apply in_seq in Hi; apply IH; auto; apply Hm; lia.
Qed.

Lemma prob_must {A} (m : M A) Q : must m Q -> prob m (fun _ => true) = 1%R.
Proof.
  intros H.
  induction m as [a|e|n k IH|n k IH]; cbn [must prob] in *; auto; [tauto| |]; destruct H as [Hn Hm].
  - rewrite (Rsum_ext _ _ (fun _ => 1%R)), Rsum_const; [field; apply not_0_INR; lia|].
    intros i Hi; apply IH, Hm; lia.
  - apply fold_min_const; [lra| |].
    + intros E; apply map_eq_nil in E; apply (f_equal (@length nat)) in E; rewrite seq_length in E; cbn [length] in E; lia.
    + apply Forall_forall; intros x Hx; apply in_map_iff in Hx as (i & <- & Hi); apply in_seq in Hi; apply IH, Hm; lia.
Qed.

Lemma draw_gate {A B} (n : N) (g : N -> A) (f : A -> M B) (t : A -> bool) P (a b : R) : (0 < n)%N ->
  (forall u, (u < n)%N -> prob (f (g u)) P = if t (g u) then a else b) ->
  let m := Draw n (fun i => Ret (g i)) in prob (bind m f) P = (prob m t * a + (1 - prob m t) * b)%R.
Proof.
  intros Hn H; cbn [bind prob].
  assert (Hp : (0 < INR (N.to_nat n))%R) by (apply lt_0_INR; lia).
  rewrite (Rsum_ext _ _ (fun i => (if t (g (N.of_nat i)) then 1 else 0) * (a - b) + b)%R).
  2:{ intros i Hi; rewrite H by lia; destruct (t _); ring. }
  rewrite Rsum_plus, Rsum_mult_r, Rsum_const; field; lra.
Qed.

Lemma gate_prob {B} (f : f64 -> M B) r P (a b : R) :
  (forall u, (u < 2 ^ 53)%N -> prob (f (f_unit u)) P = if flt (f_unit u) r then a else b) ->
  prob (bind gen_f64 f) P = (met r * a + (1 - met r) * b)%R.
Proof.
  assert (Hn : (0 < 2 ^ 53)%N) by lia.
  intros H; exact (draw_gate (2 ^ 53) f_unit f (fun u => flt u r) P a b Hn H).
Qed.

Lemma prob_nonneg {A} (m : M A) P : (0 <= prob m P)%R.
Proof.
  induction m as [a|e|n k IH|n k IH]; cbn [prob]; try (destruct (P a)); try lra.
  - destruct (N.eq_dec n 0) as [->|Hn]; [cbn; unfold Rdiv; rewrite Rmult_0_l; lra|].
    apply Rmult_le_pos; [|left; apply Rinv_0_lt_compat, lt_0_INR; lia].
    pose proof (Rsum_ge (N.to_nat n) (fun i => prob (k (N.of_nat i)) P) 0) as H; rewrite Rmult_0_r in H; apply H; auto.
  - apply fold_min_ge; [lra|]; apply Forall_forall; intros x Hx; apply in_map_iff in Hx as (i & <- & _); auto.
Qed.

Lemma draw_gate_ge {A B} (n : N) (g : N -> A) (f : A -> M B) (t : A -> bool) P : (0 < n)%N ->
  (forall u, (u < n)%N -> t (g u) = false -> prob (f (g u)) P = 1%R) ->
  let m := Draw n (fun i => Ret (g i)) in (1 - prob m t <= prob (bind m f) P)%R.
Proof.
  intros Hn H; cbn [bind prob].
  assert (Hp : (0 < INR (N.to_nat n))%R) by (apply lt_0_INR; lia).
  apply (Rmult_le_reg_r (INR (N.to_nat n))); auto; unfold Rdiv.
  rewrite Rmult_minus_distr_r, !Rmult_assoc, Rinv_l, !Rmult_1_r, Rmult_1_l by lra.
  rewrite <- (Rmult_1_r (INR (N.to_nat n))) at 1; rewrite <- Rsum_const.
  apply Rplus_le_reg_r with (Rsum (N.to_nat n) (fun i => if t (g (N.of_nat i)) then 1 else 0)%R).
  unfold Rminus; rewrite Rplus_assoc, Rplus_opp_l, Rplus_0_r, <- Rsum_plus.
  apply Rsum_le; intros i Hlt; pose proof (prob_nonneg (f (g (N.of_nat i))) P).
  destruct (t (g (N.of_nat i))) eqn:E; [lra|rewrite H by (auto; lia); lra].
Qed.

Lemma gate_ge {B} (f : f64 -> M B) r P :
  (forall u, (u < 2 ^ 53)%N -> flt (f_unit u) r = false -> prob (f (f_unit u)) P = 1%R) ->
  (1 - met r <= prob (bind gen_f64 f) P)%R.
Proof.
  assert (Hn : (0 < 2 ^ 53)%N) by lia.
  intros H; exact (draw_gate_ge (2 ^ 53) f_unit f (fun u => flt u r) P Hn H).
Qed.

Section Frequency.
Context {I : Type} (io : individual_ops I) (fexp : f64 -> f64) {MS : Type} (mdl : model I MS).

(** The methods other than crossover and mutate never panic. *)
Definition rest_total (ms : MS) (p : population I) : Prop :=
  (forall o, must (m_improve mdl ms o) (fun _ => True)) /\
  (forall o, must (m_evaluate mdl ms o) (fun _ => True)) /\
  (forall o f, must (m_can_survive mdl ms o f p) (fun _ => True)).

Lemma mutation_frequency ms p b :
  selects_members io fexp (parent_selector b) p -> rest_total ms p ->
  (forall a c, must (m_crossover mdl ms a c) (fun _ => True)) ->
  (forall o, m_mutate mdl ms o = Fail Panic) ->
  prob (breed io fexp mdl ms p b) (fun _ => true) = (1 - met (mutation_rate b))%R.
Proof.
  intros Hsel (Hi & He & Hs) Hc Hm; pose proof (met_bounds (mutation_rate b)) as Hb; unfold breed.
  eapply prob_bind_const; [lra|exact Hsel|]; intros [i1 parent1] _.
  eapply prob_bind_const; [lra|apply parent2_must; auto|]; intros o _; unfold breed_from.
  apply prob_bind_const with (Q := fun _ => True); [lra|destruct o; [apply Hc|cbn; auto]|]; intros x _.
  rewrite (gate_prob _ (mutation_rate b) _ 0 1); [ring|]; intros u Hu.
  destruct (flt (f_unit u) (mutation_rate b)); [rewrite Hm; reflexivity|].
  cbn [bind]; apply (prob_must _ (fun _ => True)).
  eapply must_bind_intro; [apply Hi|]; intros y _; eapply must_bind_intro; [apply He|]; intros z _.
  apply must_bind_intro with (Q := fun _ => True); [destruct (is_valid io z); [apply Hs|cbn; auto]|]; cbn; auto.
Qed.

Lemma expect_affine {A} (m : M A) Q g c d : no_pick m -> must m Q ->
  expect m (fun a => c * g a + d)%R = (c * expect m g + d)%R.
Proof.
  induction m as [a|e|n k IH|n k IH]; cbn [no_pick must expect]; intros Hp Hm; auto; try tauto.
  destruct Hm as [Hn Hm].
  rewrite (Rsum_ext _ _ (fun i => c * expect (k (N.of_nat i)) g + d)%R) by (intros i Hi; apply IH; auto; apply Hm; lia).
  rewrite Rsum_plus, Rsum_mult, Rsum_const; field; apply not_0_INR; lia.
Qed.

Definition is_none {A} (o : option A) : bool := match o with None => true | Some _ => false end.

Lemma crossover_frequency ms p b :
  match parent_selector b with Custom _ _ _ _ => False | _ => True end ->
  selects_members io fexp (parent_selector b) p -> 1 < length (individuals p) ->
  (forall o, must (m_improve mdl ms o) (fun _ => True)) /\
  (forall o, must (m_evaluate mdl ms o) (fun _ => True)) /\
  (forall o f, must (m_can_survive mdl ms o f p) (fun _ => True)) ->
  (forall a c, m_crossover mdl ms a c = Fail Panic) ->
  (forall o, must (m_mutate mdl ms o) (fun _ => True)) ->
  prob (breed io fexp mdl ms p b) (fun _ => true) =
  (1 - met (crossover_rate b)
   * (1 - prob (r <- select io fexp (parent_selector b) p ;; select_distinct io fexp (parent_selector b) p 3 (snd r)) is_none))%R.
Proof.
  intros Hbi Hsel Hl (Hi & He & Hs) Hc Hm; pose proof (met_bounds (crossover_rate b)) as Hb.
  assert (Hrest : forall parent1, prob (breed_from io mdl ms p b parent1 None) (fun _ => true) = 1%R).
  { intros parent1; apply (prob_must _ (fun _ => True)); unfold breed_from; cbn [bind].
    apply must_bind, must_gen_f64; intros u Hu.
    apply must_bind_intro with (Q := fun _ => True); [destruct (flt _ _); [apply Hm|cbn; auto]|]; intros x _.
    eapply must_bind_intro; [apply Hi|]; intros y _; eapply must_bind_intro; [apply He|]; intros z _.
    apply must_bind_intro with (Q := fun _ => True); [destruct (is_valid io z); [apply Hs|cbn; auto]|]; cbn; auto. }
  assert (Hsome : forall parent1 q, prob (breed_from io mdl ms p b parent1 (Some q)) (fun _ => true) = 0%R).
  { intros parent1 q; unfold breed_from; rewrite Hc; reflexivity. }
  set (mt := met (crossover_rate b)) in *.
  set (none := fun r : nat * I => prob (select_distinct io fexp (parent_selector b) p 3 (snd r)) is_none).
  assert (E1 : prob (r <- select io fexp (parent_selector b) p ;; select_distinct io fexp (parent_selector b) p 3 (snd r)) is_none
    = expect (select io fexp (parent_selector b) p) none).
  { rewrite prob_expect, expect_bind; apply expect_ext; intros r; unfold none; rewrite prob_expect; reflexivity. }
  rewrite E1; unfold breed.
  transitivity (expect (select io fexp (parent_selector b) p)
    (fun r => prob (parent2 <- breed_parent2 io fexp p b (snd r) ;; breed_from io mdl ms p b (snd r) parent2) (fun _ => true))).
  { rewrite prob_expect, expect_bind; apply expect_ext; intros [i1 parent1]; rewrite prob_expect; reflexivity. }
  rewrite (expect_ext _ _ (fun r => mt * none r + (1 - mt))%R).
  - rewrite (expect_affine _ _ none mt (1 - mt)%R (no_pick_select io fexp _ p Hbi) Hsel); ring.
  - intros [i1 parent1]; cbn [snd]; unfold breed_parent2; rewrite (proj2 (Nat.ltb_lt _ _) Hl).
    set (g := fun u : f64 => bind (if flt u (crossover_rate b) then o <- select_distinct io fexp (parent_selector b) p 3 parent1 ;; Ret (option_map snd o) else Ret None)
      (fun parent2 => breed_from io mdl ms p b parent1 parent2)).
    change (bind (bind gen_f64 _) _) with (bind gen_f64 g).
    rewrite (gate_prob g (crossover_rate b) _ (none (i1, parent1)) 1); [fold mt; ring|]; intros u Hu; unfold g.
    destruct (flt (f_unit u) (crossover_rate b)); [|cbn [bind]; apply Hrest].
    unfold none; cbn [snd]; rewrite !prob_expect, !expect_bind; apply expect_ext; intros [q|]; cbn [bind option_map expect is_none].
    + specialize (Hsome parent1 (snd q)); rewrite prob_expect in Hsome; exact Hsome.
    + specialize (Hrest parent1); rewrite prob_expect in Hrest; exact Hrest.
Qed.
End Frequency.

Section Statements.
Context {I : Type} (io : individual_ops I) (fexp : f64 -> f64) {MS : Type} (mdl : model I MS).

Lemma c52 ms p b x :
  (forall ms' o f q, m_can_survive mdl ms' o f q = Ret (fge (fitness io o) (fitness io f))) ->
  selects_members io fexp (parent_selector b) p -> no_nan io (individuals p) ->
  may (breed io fexp mdl ms p b) x ->
  exists i1 parent1 parent2,
    may (select io fexp (parent_selector b) p) (i1, parent1) /\
    may (breed_parent2 io fexp p b parent1) parent2 /\ may (breed_from io mdl ms p b parent1 parent2) x /\
    fle (fitness io parent1) (fitness io x) = true /\
    (forall q, parent2 = Some q -> fle (fitness io q) (fitness io x) = true).
Proof.
  intros Hk Hs Hn H; destruct (breed_keeps_best io fexp mdl ms p b x Hk Hs Hn H) as (i1 & p1 & p2 & A & B & C & D & E & F & G).
  exists i1, p1, p2; repeat split; auto; intros q Hq; apply F; auto.
Qed.

Lemma c52_threshold ms p b x (t : f64) :
  (forall ms' o f q, m_can_survive mdl ms' o f q = Ret (fge (fitness io o) (fitness io f))) ->
  no_nan io (individuals p) ->
  must (select io fexp (parent_selector b) p) (fun r => In (snd r) (individuals p) /\ fle t (fitness io (snd r)) = true) ->
  may (breed io fexp mdl ms p b) x -> fle t (fitness io x) = true.
Proof.
  intros Hk Hn Hs H.
  assert (Hs' : selects_members io fexp (parent_selector b) p) by (eapply must_mono; [|exact Hs]; cbv beta; intros a Ha; apply Ha).
  destruct (c52 ms p b x Hk Hs' Hn H) as (i1 & p1 & p2 & A & _ & _ & D & _).
  apply (must_may _ _ _ Hs) in A as [_ A]; cbn [snd] in A.
  apply fle_spec in A as (N1 & N2 & K1); apply fle_spec in D as (N3 & N4 & K2); apply fle_spec; repeat split; auto; lra.
Qed.

Lemma c52_member_or_valid ms p b x :
  selects_members io fexp (parent_selector b) p -> may (breed io fexp mdl ms p b) x ->
  (In x (individuals p) \/ is_valid io x = true) /\
  ((forall y, In y (individuals p) -> is_valid io y = true) -> is_valid io x = true).
Proof.
  intros Hs H; split; [|intros Hv; eapply breed_valid; eauto].
  unfold breed in H; apply may_bind in H as ([i1 parent1] & H1 & H); apply may_bind in H as (o & Ho & H).
  pose proof (must_may _ _ _ Hs H1) as Hin; cbn [snd] in Hin.
  pose proof (must_may _ _ _ (parent2_must io fexp p b parent1 Hs) Ho) as Hp2; cbv beta in Hp2.
  unfold breed_from in H; apply may_bind in H as (o1 & _ & H).
  apply may_bind in H as (u & _ & H); apply may_bind in H as (o2 & _ & H).
  apply may_bind in H as (o3 & _ & H); apply may_bind in H as (o4 & _ & H).
  apply may_bind in H as (sv & Hsv & H); cbn in H.
  destruct sv; [subst x; destruct (is_valid io o4) eqn:V; auto; cbn in Hsv; discriminate|].
  subst x; left; destruct o as [q|]; auto; destruct (fgt _ _); auto; apply Hp2; auto.
Qed.

Lemma must_in_members s p : selector_ok s -> individuals p <> [] -> fits_usize (length (individuals p)) ->
  selects_members io fexp s p.
Proof.
  intros A B C; eapply must_mono; [|apply select_must; auto]; intros [i x] H; cbv beta.
  eapply nth_error_In; exact H.
Qed.
End Statements.
