(** * PGpxSteps: GPX2 loses at most one of the steps its parents share (C118). *)
From Coq Require Import List Bool Arith NArith Lia Permutation.
From Verif Require Import Rnd LRnd MOperators MCrossover Spec SpecC SpecD LGenes POperatorsRandom POperatorsNeighbors
  PCrossoverGpx PCrossoverSame PSteps PCommon PNested.
Import ListNotations.

Lemma adj_sym {G} (l : list G) a b : cyc_adj l a b -> cyc_adj l b a.
Proof. unfold cyc_adj; tauto. Qed.

Section Parts.
Context {G : Type}.
Variables g1 g2 : list G.
Let n := length g1.
Variable ps : list (list G).
Hypothesis Hnd : NoDup g1.
Hypothesis Hn : 3 <= n.
Hypothesis Hps : NoDup (concat ps).
Hypothesis Hin : forall x, In x (concat ps) <-> In x g1.
Hypothesis Hpath : forall p a b, In p ps -> consec p a b -> cyc_adj g1 a b /\ cyc_adj g2 a b.
Hypothesis Hends : forall before p after, ps = before ++ p :: after ->
      (forall z b, last (map Some p) None = Some z -> cyc_adj g1 z b -> cyc_adj g2 z b ->
         In b (concat before ++ p)) /\
      (exists h t, p = h :: t /\ first_not_in g1 (concat before) h).

Lemma same_pos i j x : nth_error g1 i = Some x -> nth_error g1 j = Some x -> i = j.
Proof. apply NoDup_nth_inj; auto. Qed.

Lemma part_split p : In p ps -> exists before after, ps = before ++ p :: after.
Proof. apply in_split. Qed.

Lemma part_nodup before p after : ps = before ++ p :: after ->
  NoDup p /\ (forall x, In x p -> ~ In x (concat before)) /\ (forall x, In x p -> ~ In x (concat after)) /\
  (forall x, In x (concat before) -> ~ In x (concat after)).
Proof.
  intros E; pose proof Hps as H; rewrite E, concat_app in H; cbn [concat] in H.
  destruct (NoDup_app_inv _ _ H) as (_ & H1 & H2); destruct (NoDup_app_inv _ _ H1) as (H3 & _ & H4).
  split; auto; split; [|split].
  - intros x Hx Hb; apply (H2 x); auto; apply in_or_app; auto.
  - intros x Hx Ha; apply (H4 x); auto.
  - intros x Hx Ha; apply (H2 x); auto; apply in_or_app; auto.
Qed.

Lemma part_incl before p after x : ps = before ++ p :: after -> In x p -> In x g1.
Proof.
  intros E Hx; apply Hin; rewrite E, concat_app; cbn [concat]; apply in_or_app; right; apply in_or_app; auto.
Qed.

(** A partition starts at some position and runs in one direction. *)
Lemma part_runs before p after : ps = before ++ p :: after ->
  exists s, s < n /\ 0 < length p /\ length p <= n /\ nth_error p 0 = nth_error g1 s /\
    (forall k x, k < s -> nth_error g1 k = Some x -> In x (concat before)) /\
    ((forall i, i < length p -> nth_error p i = nth_error g1 ((s + i) mod n)) \/
     (forall i, i < length p -> nth_error p i = nth_error g1 ((s + (n - i)) mod n))).
Proof.
  intros E; destruct (part_nodup _ _ _ E) as (Np & _).
  destruct (proj2 (Hends _ _ _ E)) as (h & t & Ep & l1 & l2 & E1 & _ & Hl1).
  assert (Hs : nth_error g1 (length l1) = Some h).
  { rewrite E1, nth_error_app2, Nat.sub_diag by lia; auto. }
  pose proof (nth_error_some_lt _ _ _ Hs) as Hlt.
  assert (Hlen : length p <= n).
  { apply NoDup_incl_length; auto; intros x; eapply part_incl; eauto. }
  exists (length l1); split; auto; split; [rewrite Ep; cbn; lia|]; split; auto.
  split; [rewrite Ep, Hs; auto|]; split.
  - intros k x Hk Hx; apply Hl1; rewrite E1, nth_error_app1 in Hx by auto; eapply nth_error_In; eauto.
  - apply tour_path; auto.
    + rewrite Nat.mod_small by auto; rewrite Ep, Hs; auto.
    + rewrite Ep; discriminate.
    + intros a b Hab; apply (Hpath p); auto; rewrite E; apply in_or_app; right; left; auto.
Qed.

(** A partition other than the first is a run of parent1. *)
Lemma later_run p0 before p after : ps = p0 :: before ++ p :: after ->
  exists s, s + length p <= n /\ 0 < length p /\ (forall i, i < length p -> nth_error p i = nth_error g1 (s + i)) /\
    (forall k x, k < s -> nth_error g1 k = Some x -> In x (concat (p0 :: before))).
Proof.
  intros E0; assert (E : ps = (p0 :: before) ++ p :: after) by exact E0.
  destruct (part_runs _ _ _ E) as (s & Hs & Hpos & Hle & Hh & Hb & HR).
  destruct (part_nodup _ _ _ E) as (Np & Nb & _).
  destruct (nth_error_lt g1 0) as [x0 Hx0]; [fold n; lia|].
  assert (H0 : In x0 (concat (p0 :: before))).
  { destruct (part_runs [] p0 (before ++ p :: after) E0) as (s0 & _ & H1 & _ & H2 & H3 & _).
    assert (s0 = 0).
    { destruct s0; auto; exfalso; apply (H3 0 x0); auto; lia. }
    subst s0; cbn [concat]; apply in_or_app; left; rewrite Hx0 in H2; eapply nth_error_In; eauto. }
  assert (Hs0 : s <> 0).
  { intros ->; rewrite Hx0 in Hh; apply (Nb x0); auto; eapply nth_error_In; eauto. }
  destruct HR as [HR|HR].
  - assert (Hwrap : s + length p <= n).
    { destruct (Nat.le_gt_cases (s + length p) n) as [|Hw]; auto; exfalso.
      specialize (HR (n - s) ltac:(lia)); replace (s + (n - s)) with n in HR by lia.
      rewrite Nat.mod_same, Hx0 in HR by lia; apply (Nb x0); auto; eapply nth_error_In; eauto. }
    exists s; split; auto; split; auto; split; auto.
    intros i Hi; rewrite HR by auto; rewrite Nat.mod_small by lia; auto.
  - destruct (Nat.eq_dec (length p) 1) as [E1|E1].
    + exists s; split; [lia|]; split; auto; split; auto.
      intros i Hi; replace i with 0 by lia; rewrite Nat.add_0_r; auto.
    + exfalso; specialize (HR 1 ltac:(lia)); replace (s + (n - 1)) with (s - 1 + 1 * n) in HR by lia.
      rewrite Nat.mod_add, Nat.mod_small in HR by lia.
      destruct (nth_error_lt g1 (s - 1)) as [y Hy]; [fold n; lia|]; rewrite Hy in HR.
      apply (Nb y); [eapply nth_error_In; eauto|]; apply (Hb (s - 1)); auto; lia.
Qed.

Lemma run_has p s : (forall i, i < length p -> nth_error p i = nth_error g1 (s + i)) ->
  forall k x, nth_error g1 k = Some x -> In x p <-> s <= k < s + length p.
Proof.
  intros H k x Hx; split.
  - intros Hi; apply In_nth_error in Hi as (i & Hi); pose proof (nth_error_some_lt _ _ _ Hi).
    rewrite H in Hi by auto; pose proof (same_pos _ _ _ Hi Hx); lia.
  - intros Hk; apply (nth_error_In _ (k - s)); rewrite H by lia; rewrite <- Hx; f_equal; lia.
Qed.

Lemma run_last p s : 0 < length p -> (forall i, i < length p -> nth_error p i = nth_error g1 (s + i)) ->
  last (map Some p) None = nth_error g1 (s + length p - 1).
Proof.
  intros Hp H; destruct (last_some p) as (z & Hz & Hz2); [destruct p; cbn in *; [lia|discriminate]|].
  rewrite Hz, <- Hz2, H by lia; f_equal; lia.
Qed.

Definition joined (a b : G) : Prop := exists p, In p ps /\ (consec p a b \/ consec p b a).

(** The first partition: forward from the first gene or backward from it. *)
Lemma first_part p0 after : ps = p0 :: after ->
  0 < length p0 /\ length p0 <= n /\
  ((forall i, i < length p0 -> nth_error p0 i = nth_error g1 i) \/
   (2 <= length p0 /\ forall i, 0 < i -> i < length p0 -> nth_error p0 i = nth_error g1 (n - i))) /\
  nth_error p0 0 = nth_error g1 0.
Proof.
  intros E; destruct (part_runs [] p0 after E) as (s & Hs & Hp & Hl & Hh & Hb & HR).
  assert (s = 0).
  { destruct s; auto; exfalso; destruct (nth_error_lt g1 0) as [x0 Hx0]; [fold n; lia|]; apply (Hb 0 x0); auto; lia. }
  subst s; split; auto; split; auto; split; auto.
  destruct HR as [HR|HR].
  - left; intros i Hi; rewrite HR by auto; rewrite Nat.mod_small by lia; auto.
  - destruct (Nat.eq_dec (length p0) 1) as [E1|E1].
    + left; intros i Hi; replace i with 0 by lia; auto.
    + right; split; [lia|]; intros i Hi0 Hi; rewrite HR by auto; rewrite Nat.mod_small by lia; auto.
Qed.

(** In a backward first partition. *)
Lemma back_has p0 : 0 < length p0 -> length p0 <= n -> nth_error p0 0 = nth_error g1 0 ->
  (forall i, 0 < i -> i < length p0 -> nth_error p0 i = nth_error g1 (n - i)) ->
  forall k x, nth_error g1 k = Some x -> In x p0 <-> k = 0 \/ n - length p0 < k.
Proof.
  intros Hp Hle H0 H k x Hx; pose proof (nth_error_some_lt _ _ _ Hx) as Hk; fold n in Hk; split.
  - intros Hi; apply In_nth_error in Hi as (i & Hi); pose proof (nth_error_some_lt _ _ _ Hi).
    destruct (Nat.eq_dec i 0) as [->|Hi0].
    + rewrite H0 in Hi; left; eapply same_pos; eauto.
    + rewrite H in Hi by lia; right; pose proof (same_pos _ _ _ Hi Hx); lia.
  - intros [->|Hk2].
    + apply (nth_error_In _ 0); congruence.
    + apply (nth_error_In _ (n - k)); rewrite H by lia; rewrite <- Hx; f_equal; lia.
Qed.

Lemma inner_step k a b : 0 < k -> k + 1 < n -> nth_error g1 k = Some a -> nth_error g1 (k + 1) = Some b ->
  cyc_adj g1 a b -> cyc_adj g2 a b -> joined a b.
Proof.
  intros Hk0 Hkn Ha Hb Hc1 Hc2.
  assert (Hia : In a (concat ps)) by (apply Hin; eapply nth_error_In; eauto).
  apply in_concat in Hia as (p & Hp & Hap); pose proof Hp as Hp'; apply part_split in Hp' as (before & after & E).
  destruct before as [|p0 before].
  - (* the first partition *)
    destruct (first_part p after E) as (Hpos & Hle & HR & H0).
    destruct HR as [HR|[H2 HR]].
    + pose proof (proj1 (run_has p 0 HR k a Ha) Hap) as Hr.
      destruct (Nat.eq_dec (k + 1) (length p)) as [El|El].
      * exfalso; assert (Hlast : last (map Some p) None = Some a) by (rewrite (run_last p 0) by auto; rewrite <- Ha; f_equal; lia).
        pose proof (proj1 (Hends [] p after E) a b Hlast Hc1 Hc2) as Hbp; cbn [concat app] in Hbp.
        apply (run_has p 0 HR (k + 1) b Hb) in Hbp; lia.
      * exists p; split; auto; left; exists k; rewrite !HR by lia; rewrite <- Nat.add_1_r; auto.
    + pose proof (proj1 (back_has p Hpos Hle H0 HR k a Ha) Hap) as Hr.
      exists p; split; auto; right; exists (n - (k + 1)); rewrite !HR by lia.
      replace (n - (n - (k + 1))) with (k + 1) by lia; replace (n - S (n - (k + 1))) with k by lia; auto.
  - destruct (later_run p0 before p after E) as (s & Hs & Hpos & HR & Hbef).
    pose proof (proj1 (run_has p s HR k a Ha) Hap) as Hr.
    destruct (Nat.eq_dec (k + 1) (s + length p)) as [El|El].
    2: { exists p; split; auto; left; exists (k - s); rewrite !HR by lia.
         replace (s + (k - s)) with k by lia; replace (s + S (k - s)) with (k + 1) by lia; auto. }
    exfalso.
    assert (Hlast : last (map Some p) None = Some a) by (rewrite (run_last p s) by auto; rewrite <- Ha; f_equal; lia).
    pose proof (proj1 (Hends (p0 :: before) p after E) a b Hlast Hc1 Hc2) as Hbp.
    apply in_app_or in Hbp as [Hbp|Hbp]; [|apply (run_has p s HR (k + 1) b Hb) in Hbp; lia].
    apply in_concat in Hbp as (q & Hq & Hbq).
    destruct (part_nodup _ _ _ E) as (_ & Nb & _); specialize (Nb a Hap).
    destruct Hq as [<-|Hq].
    + (* in the first partition *)
      assert (Na : ~ In a p0) by (intros Hi; apply Nb; cbn [concat]; apply in_or_app; auto).
      destruct (first_part p0 (before ++ p :: after) E) as (Hpos0 & Hle0 & HR0 & H0).
      destruct HR0 as [HR0|[H2 HR0]].
      * apply (run_has p0 0 HR0 (k + 1) b Hb) in Hbq; apply Na, (run_has p0 0 HR0 k a Ha); lia.
      * apply (back_has p0 Hpos0 Hle0 H0 HR0 (k + 1) b Hb) in Hbq.
        assert (Hk1 : k + 1 = n - length p0 + 1).
        { destruct (Nat.eq_dec (k + 1) (n - length p0 + 1)); auto.
          exfalso; apply Na, (back_has p0 Hpos0 Hle0 H0 HR0 k a Ha); lia. }
        assert (Hl0 : last (map Some p0) None = Some b).
        { destruct (last_some p0) as (z & Hz & Hz2); [destruct p0; cbn in *; [lia|discriminate]|].
          rewrite Hz, <- Hz2, HR0 by lia; rewrite <- Hb; f_equal; lia. }
        apply Na; apply (proj1 (Hends [] p0 (before ++ p :: after) E) b a Hl0); apply adj_sym; auto.
    + apply in_split in Hq as (b1 & b2 & Eb).
      assert (E2 : ps = p0 :: b1 ++ q :: (b2 ++ p :: after)).
      { rewrite E, Eb; cbn [app]; f_equal; rewrite <- app_assoc; auto. }
      destruct (later_run p0 b1 q _ E2) as (s' & Hs' & Hpos' & HR' & Hbef').
      apply (run_has q s' HR' (k + 1) b Hb) in Hbq.
      apply Nb; cbn [concat]; rewrite Eb, concat_app; cbn [concat].
      destruct (Nat.eq_dec s' (k + 1)) as [Es|Es].
      * specialize (Hbef' k a ltac:(lia) Ha); cbn [concat] in Hbef'.
        apply in_app_or in Hbef' as [H|H]; apply in_or_app; auto; right; apply in_or_app; auto.
      * apply in_or_app; right; apply in_or_app; right; apply in_or_app; left.
        apply (run_has q s' HR' k a Ha); lia.
Qed.

(** The two steps at the first gene. *)
Lemma outer_steps a0 a1 z : nth_error g1 0 = Some a0 -> nth_error g1 1 = Some a1 -> nth_error g1 (n - 1) = Some z ->
  (cyc_adj g2 a0 a1 -> joined a0 a1) \/ (cyc_adj g2 z a0 /\ joined z a0).
Proof.
  intros H0 H1 Hz.
  destruct ps as [|p0 after] eqn:Eps.
  { exfalso; apply (Hin a0); eapply nth_error_In; eauto. }
  rewrite <- Eps in *.
  destruct (first_part p0 after Eps) as (Hpos & Hle & HR & Hh).
  assert (Hp0 : In p0 ps) by (rewrite Eps; left; auto).
  destruct HR as [HR|[H2 HR]].
  - left; intros Hc2; destruct (Nat.eq_dec (length p0) 1) as [E1|E1].
    + exfalso; assert (Hlast : last (map Some p0) None = Some a0) by (rewrite (run_last p0 0) by auto; rewrite E1; auto).
      assert (Hc1 : cyc_adj g1 a0 a1) by (left; exists 0; fold n; rewrite Nat.mod_small by lia; auto).
      pose proof (proj1 (Hends [] p0 after Eps) a0 a1 Hlast Hc1 Hc2) as Hi; cbn [concat app] in Hi.
      apply (run_has p0 0 HR 1 a1 H1) in Hi; lia.
    + exists p0; split; auto; left; exists 0; rewrite !HR by lia; auto.
  - right; assert (Hj : consec p0 a0 z) by (exists 0; rewrite Hh, HR by lia; auto).
    split; [apply adj_sym; apply (Hpath p0 a0 z Hp0 Hj)|exists p0; auto].
Qed.

Lemma steps_joined : exists e, (e = 0 \/ e = n - 1) /\
  (forall k a b, k <> e -> nth_error g1 k = Some a -> nth_error g1 ((k + 1) mod n) = Some b -> cyc_adj g2 a b -> joined a b) /\
  (e = 0 -> forall z a, nth_error g1 (n - 1) = Some z -> nth_error g1 0 = Some a -> cyc_adj g2 z a).
Proof.
  destruct (nth_error_lt g1 0) as [a0 H0]; [fold n; lia|]; destruct (nth_error_lt g1 1) as [a1 H1]; [fold n; lia|].
  destruct (nth_error_lt g1 (n - 1)) as [z Hz]; [fold n; lia|].
  assert (K : forall k a b, 0 < k -> k + 1 < n -> nth_error g1 k = Some a -> nth_error g1 ((k + 1) mod n) = Some b ->
    cyc_adj g2 a b -> joined a b).
  { intros k a b Hk1 Hk2 Ha Hb Hc; pose proof Hb as Hb'; rewrite Nat.mod_small in Hb' by lia.
    apply (inner_step k); auto; left; exists k; auto. }
  destruct (outer_steps a0 a1 z H0 H1 Hz) as [H|[Hc H]].
  - exists (n - 1); split; auto; split; [|intros E; lia].
    intros k a b Hk Ha Hb Hc; pose proof (nth_error_some_lt _ _ _ Ha) as Hlt; fold n in Hlt.
    destruct (Nat.eq_dec k 0) as [->|Hk0]; [|apply (K k); auto; lia].
    rewrite Nat.mod_small in Hb by lia; cbn [Nat.add] in Hb.
    assert (a = a0) by congruence; assert (b = a1) by congruence; subst; auto.
  - exists 0; split; auto; split; [|intros _ z' a' Hz' Ha'; congruence].
    intros k a b Hk Ha Hb Hc'; pose proof (nth_error_some_lt _ _ _ Ha) as Hlt; fold n in Hlt.
    destruct (Nat.eq_dec k (n - 1)) as [->|Hk0]; [|apply (K k); auto; lia].
    replace (n - 1 + 1) with n in Hb by lia; rewrite Nat.mod_same in Hb by lia.
    assert (a = z) by congruence; assert (b = a0) by congruence; subst; auto.
Qed.

End Parts.

Lemma consec_app {A} (u v w : list A) a b : consec v a b -> consec (u ++ v ++ w) a b.
Proof.
  intros (i & Ha & Hb); exists (length u + i).
  pose proof (nth_error_some_lt _ _ _ Ha); pose proof (nth_error_some_lt _ _ _ Hb).
  rewrite nth_error_app2, nth_error_app1 by lia; replace (length u + i - length u) with i by lia; split; auto.
  rewrite nth_error_app2, nth_error_app1 by lia; replace (S (length u + i) - length u) with (S i) by lia; auto.
Qed.

Lemma consec_concat {A} (qs : list (list A)) p a b : In p qs -> consec p a b -> consec (concat qs) a b.
Proof.
  intros Hp H; apply in_split in Hp as (q1 & q2 & ->); rewrite concat_app; cbn [concat]; apply consec_app; auto.
Qed.

Lemma consec_cyc {A} (l : list A) a b : consec l a b -> cyc_next l a b.
Proof.
  intros (i & Ha & Hb); exists i; pose proof (nth_error_some_lt _ _ _ Hb).
  rewrite Nat.mod_small, Nat.add_1_r by lia; auto.
Qed.

Section Gpx2.
Context {G : Type} (eqb ltb : G -> G -> bool).
Hypothesis Heq : eq_ok eqb.
Hypothesis Ht : lt_total ltb.
Context {S0 : Type} (sel : S0 -> option G -> list (list G) -> M (nat * S0)).
Hypothesis Hsel : forall s o ps, ps <> [] -> must (sel s o ps) (fun r => fst r < length ps).

Lemma gpx2_joined (p1 p2 : list G) s : NoDup p1 -> 3 <= length p1 -> 3 <= length p2 ->
  must (generalized_partition_2_crossover eqb ltb p1 p2 sel s) (fun r =>
    exists e, (e = 0 \/ e = length p1 - 1) /\
    (forall k a b, k <> e -> nth_error p1 k = Some a -> nth_error p1 ((k + 1) mod length p1) = Some b ->
       cyc_adj p2 a b -> cyc_adj r a b) /\
    (e = 0 -> forall z a, nth_error p1 (length p1 - 1) = Some z -> nth_error p1 0 = Some a -> cyc_adj p2 z a)).
Proof.
  intros Hnd H1 H2; eapply must_mono; [|apply (gpx2_genes eqb ltb Heq sel Hsel)].
  intros r (_ & _ & ps & qs & Ep & HP & ->).
  destruct (common_partitions_raw eqb ltb Heq p1 p2) as (ps' & E' & N1 & N2 & N3 & N4 & _).
  rewrite Ep in E'; injection E' as <-.
  pose proof (common_partitions_order eqb ltb p1 p2 Heq Ht ltac:(lia) H2) as HO; rewrite Ep in HO; cbn [must] in HO.
  destruct (steps_joined p1 p2 ps Hnd H1 N1 N2 N4 HO) as (e & He & HJ & HE).
  exists e; split; auto; split; auto.
  intros k a b Hk Ha Hb Hc; destruct (HJ k a b Hk Ha Hb Hc) as (p & Hp & Hab).
  assert (Hq : In p qs) by (eapply Permutation_in; eauto).
  destruct Hab as [Hab|Hab]; [left|right]; apply consec_cyc; eapply consec_concat; eauto.
Qed.

Lemma c118_one (p1 p2 : list G) s : NoDup p1 -> 3 <= length p1 -> 3 <= length p2 ->
  must (generalized_partition_2_crossover eqb ltb p1 p2 sel s) (fun r =>
    loses_one p1 p2 r).
Proof.
  intros Hnd H1 H2; eapply must_mono; [|apply (gpx2_joined p1 p2 s); auto].
  intros r (e & He & HJ & _); cbn.
  destruct (nth_error_lt p1 e) as [x Hx]; [lia|].
  destruct (nth_error_lt p1 ((e + 1) mod length p1)) as [y Hy]; [apply Nat.mod_upper_bound; lia|].
  exists x, y.
  assert (K : forall a b, cyc_next p1 a b -> cyc_adj p2 a b -> (a, b) <> (x, y) -> cyc_adj r a b).
  { intros a b (k & Ha & Hb) Hc Hne; apply (HJ k); auto; intros ->; apply Hne; congruence. }
  intros a b [Hab|Hab] Hc Hxy Hyx; [apply K; auto|].
  apply adj_sym, K; auto; apply adj_sym; auto.
Qed.

Lemma c118_all (p1 p2 : list G) s : NoDup p1 -> 3 <= length p1 -> 3 <= length p2 ->
  (forall x y, hd_error p1 = Some x -> last (map Some p1) None = Some y -> ~ cyc_adj p2 x y) ->
  must (generalized_partition_2_crossover eqb ltb p1 p2 sel s) (fun r =>
    forall a b, cyc_adj p1 a b -> cyc_adj p2 a b -> cyc_adj r a b).
Proof.
  intros Hnd H1 H2 HN; eapply must_mono; [|apply (gpx2_joined p1 p2 s); auto].
  intros r (e & He & HJ & HE); cbn.
  destruct (nth_error_lt p1 0) as [x Hx]; [lia|].
  destruct (last_some p1) as (y & Hy & Hy2); [intros ->; cbn in *; lia|].
  assert (Hxy : ~ cyc_adj p2 y x).
  { intros H; apply (HN x y); [destruct p1; cbn in *; congruence|auto|apply adj_sym; auto]. }
  assert (K : forall a b, cyc_next p1 a b -> cyc_adj p2 a b -> cyc_adj r a b).
  { intros a b (k & Ha & Hb) Hc; apply (HJ k); auto; intros ->.
    destruct He as [-> | ->]; [apply Hxy, HE; auto|].
    replace (length p1 - 1 + 1) with (length p1) in Hb by lia; rewrite Nat.mod_same in Hb by lia.
    apply Hxy; congruence. }
  intros a b [Hab|Hab] Hc; [apply K; auto|].
  apply adj_sym, K; auto; apply adj_sym; auto.
Qed.

(** In terms of the number of common neighbours. *)
Hypothesis Hirr : forall a, ltb a a = false.

Lemma count_one (p1 p2 r : list G) : NoDup p1 -> Permutation p1 p2 -> Permutation p1 r -> 3 <= length p1 ->
  loses_one p1 p2 r ->
  must (common_neighbors eqb ltb p1 p2) (fun c => must (common_neighbors eqb ltb p1 r) (fun c1 =>
    length c <= length c1 + 1)).
Proof.
  intros Hnd P2 Pr H3 (x & y & H).
  pose proof (Permutation_length P2) as L2; pose proof (Permutation_length Pr) as Lr.
  eapply must_mono; [|apply must_and; [apply (c117_once eqb ltb p1 p2); auto|apply common_neighbors_exact; auto; lia]].
  intros c [[N1 _] R1].
  eapply must_mono; [|apply common_neighbors_exact; auto; lia].
  intros c1 R2.
  replace (length c1 + 1) with (length (c1 ++ [neighbor ltb x y])) by (rewrite app_length; auto).
  apply NoDup_incl_length; auto; intros [a b] Hab.
  pose proof (proj1 (R1 a b) Hab) as (Ho & Ha1 & Ha2).
  assert (dec : forall u v : G * G, {u = v} + {u <> v}).
  { intros [u1 u2] [v1 v2]; destruct (gene_dec eqb Heq u1 v1) as [->|]; [destruct (gene_dec eqb Heq u2 v2) as [->|]; [left; auto|]|]; right; congruence. }
  apply in_or_app; destruct (dec (a, b) (x, y)) as [E|N]; [|destruct (dec (b, a) (x, y)) as [E|N']].
  - right; left; injection E as -> ->; unfold neighbor.
    destruct (gene_dec eqb Heq x y) as [->|Hne]; [destruct (ltb y y); auto|].
    rewrite (Ht x y Hne), Ho; auto.
  - right; left; injection E as -> ->; unfold neighbor; rewrite Ho; auto.
  - left; apply R2; split; auto.
Qed.

Lemma c118_counts (p1 p2 : list G) s : NoDup p1 -> Permutation p1 p2 -> 3 <= length p1 ->
  must (generalized_partition_2_crossover eqb ltb p1 p2 sel s) (fun r =>
    must (common_neighbors eqb ltb p1 p2) (fun c =>
      must (common_neighbors eqb ltb p1 r) (fun c1 => length c <= length c1 + 1) /\
      must (common_neighbors eqb ltb p2 r) (fun c2 => length c <= length c2 + 1))).
Proof.
  intros Hnd P2 H3; pose proof (Permutation_length P2) as L2.
  assert (Hnd2 : NoDup p2) by (eapply Permutation_NoDup; eauto).
  eapply must_mono; [|apply must_and; [apply (c118_one p1 p2 s); auto; lia|apply (gpx2_perm eqb ltb Heq sel Hsel); eauto]].
  intros r [HL Pr]; cbn.
  pose proof (count_one p1 p2 r Hnd P2 Pr H3 HL) as C1.
  assert (HL2 : loses_one p2 p1 r).
  { destruct HL as (x & y & H); exists x, y; intros a b Ha Hb; apply H; auto. }
  assert (Pr2 : Permutation p2 r) by (eapply Permutation_trans; [apply Permutation_sym; eauto|auto]).
  pose proof (count_one p2 p1 r Hnd2 (Permutation_sym P2) Pr2 ltac:(lia) HL2) as C2.
  pose proof (c117_symmetric eqb ltb Heq Ht Hirr p1 p2 Hnd P2 H3) as Y.
  destruct (common_ret eqb ltb Heq p1 p2) as [c Ec]; destruct (common_ret eqb ltb Heq p2 p1) as [c' Ec'].
  rewrite Ec in *; rewrite Ec' in *; cbn in *; apply Permutation_length in Y; rewrite Y; rewrite Y in C1; auto.
Qed.

End Gpx2.

(** ** Witnesses *)
Lemma not_adj (r : list nat) a b : nextb r a b || nextb r b a = false -> ~ cyc_adj r a b.
Proof.
  intros H; apply orb_false_iff in H as [H1 H2]; intros [K|K]; apply nextb_ok in K; congruence.
Qed.

Lemma nextb_iff l a b : nextb l a b = true -> cyc_next l a b.
Proof.
  intros H; apply existsb_exists in H as (i & _ & H); exists i.
  destruct (nth_error l i) as [x|]; [|discriminate]; destruct (nth_error l ((i + 1) mod length l)) as [y|]; [|discriminate].
  apply andb_true_iff in H as [H1 H2]; apply Nat.eqb_eq in H1, H2; subst; auto.
Qed.

Definition adjb (l : list nat) a b := nextb l a b || nextb l b a.
Lemma adjb_iff l a b : adjb l a b = true -> cyc_adj l a b.
Proof. intros H; apply orb_true_iff in H as [H|H]; apply nextb_iff in H; unfold cyc_adj; auto. Qed.

Lemma two_lost (p1 p2 r : list nat) a b c d :
  adjb p1 a b && adjb p2 a b && negb (adjb r a b) && (adjb p1 c d && adjb p2 c d && negb (adjb r c d)) = true ->
  (a, b) <> (c, d) -> (a, b) <> (d, c) -> ~ loses_one p1 p2 r.
Proof.
  intros H N1 N2 (x & y & K); rewrite !andb_true_iff, !negb_true_iff in H.
  destruct H as (((A1 & A2) & A3) & ((C1 & C2) & C3)).
  apply not_adj in A3, C3; apply adjb_iff in A1, A2, C1, C2.
  destruct (Nat.eq_dec a x) as [Ea|Ea]; destruct (Nat.eq_dec b y) as [Eb|Eb];
  destruct (Nat.eq_dec b x) as [Fb|Fb]; destruct (Nat.eq_dec a y) as [Fa|Fa];
    try (apply A3, K; auto; congruence);
    apply C3, K; auto; intros E; injection E as E1 E2; subst; congruence.
Qed.

Lemma c118_others s : s <> GeneralizedPartition2 -> s <> SinglePoint ->
  exists (p1 p2 r : list nat), NoDup p1 /\ Permutation p1 p2 /\
    may (crossover Nat.eqb Nat.ltb 100 s p1 p2) r /\ ~ loses_one p1 p2 r.
Proof.
  intros H1 H2; exists [0; 1; 2; 3; 4; 5].
  assert (N : forall l, NoDup l -> length l = 6 -> (forall x, In x l -> x < 6) -> Permutation [0; 1; 2; 3; 4; 5] l).
  { intros l Hl HL Hx; apply Permutation_sym, NoDup_Permutation_bis; auto; [cbn; lia|].
    intros x Hi; specialize (Hx x Hi); cbn; lia. }
  assert (N0 : NoDup [0; 1; 2; 3; 4; 5]) by (repeat constructor; cbn; lia).
  destruct s; try congruence.
  - exists [1; 2; 3; 4; 0; 5], [2; 3; 4; 0; 1; 5]; split; auto.
    split; [apply N; [repeat constructor; cbn; lia|auto|cbn; lia]|split].
    + eapply (run_strict_may _ [2]%N); vm_compute; reflexivity.
    + apply (two_lost _ _ _ 1 2 0 5); [vm_compute; reflexivity|discriminate..].
  - exists [2; 3; 1; 0; 4; 5], [2; 1; 3; 4; 5; 0]; split; auto.
    split; [apply N; [repeat constructor; cbn; lia|auto|cbn; lia]|split].
    + eapply (run_strict_may _ [2; 0; 0; 0; 0; 0; 0; 0; 0; 0; 0]%N); vm_compute; reflexivity.
    + apply (two_lost _ _ _ 2 3 0 1); [vm_compute; reflexivity|discriminate..].
  - exists [1; 2; 3; 4; 0; 5], [0; 1; 3; 4; 2; 5]; split; auto.
    split; [apply N; [repeat constructor; cbn; lia|auto|cbn; lia]|split].
    + eapply (run_strict_may _ [1; 0]%N); vm_compute; reflexivity.
    + apply (two_lost _ _ _ 1 2 2 3); [vm_compute; reflexivity|discriminate..].
  - exists [1; 2; 3; 0; 4; 5], [0; 1; 3; 4; 5; 2]; split; auto.
    split; [apply N; [repeat constructor; cbn; lia|auto|cbn; lia]|split].
    + eapply (run_strict_may _ [1; 0]%N); vm_compute; reflexivity.
    + apply (two_lost _ _ _ 1 2 2 3); [vm_compute; reflexivity|discriminate..].
  - exists [2; 3; 4; 1; 0; 5], [0; 3; 2; 1; 4; 5]; split; auto.
    split; [apply N; [repeat constructor; cbn; lia|auto|cbn; lia]|split].
    + eapply (run_strict_may _ []%N); vm_compute; reflexivity.
    + apply (two_lost _ _ _ 0 1 3 4); [vm_compute; reflexivity|discriminate..].
Qed.

Lemma c118_tight : exists p1 p2 r : list nat, NoDup p1 /\ Permutation p1 p2 /\
  may (crossover Nat.eqb Nat.ltb 0 GeneralizedPartition2 p1 p2) r /\
  ~ (forall a b, cyc_adj p1 a b -> cyc_adj p2 a b -> cyc_adj r a b).
Proof.
  exists [1; 2; 3; 4; 5; 6], [6; 1; 2; 4; 3; 5], [1; 2; 5; 6; 3; 4].
  assert (N0 : NoDup [1; 2; 3; 4; 5; 6]) by (repeat constructor; cbn; lia).
  split; auto; split; [apply NoDup_Permutation; [auto|repeat constructor; cbn; lia|intros x; cbn; lia]|split].
  - eapply (run_strict_may _ [0; 0; 0]%N); vm_compute; reflexivity.
  - intros H; apply (not_adj [1; 2; 5; 6; 3; 4] 6 1); [vm_compute; reflexivity|].
    apply H; apply adjb_iff; vm_compute; reflexivity.
Qed.

Lemma c118_example :
  common_partitions Nat.eqb Nat.ltb [1; 2; 3; 4; 5; 6] [2; 1; 4; 3; 6; 5] = Ret [[1; 2]; [3; 4]; [5; 6]] /\
  common_neighbors Nat.eqb Nat.ltb [1; 2; 3; 4; 5; 6] [2; 1; 4; 3; 6; 5] = Ret [(1, 2); (3, 4); (5, 6)] /\
  ~ cyc_adj [2; 1; 4; 3; 6; 5] 1 6 /\
  run (crossover Nat.eqb Nat.ltb 0 GeneralizedPartition2 [1; 2; 3; 4; 5; 6] [2; 1; 4; 3; 6; 5]) [1; 0; 0]%N = Some [3; 4; 1; 2; 5; 6].
Proof.
  split; [vm_compute; reflexivity|split; [vm_compute; reflexivity|split; [|vm_compute; reflexivity]]].
  apply not_adj; vm_compute; reflexivity.
Qed.
