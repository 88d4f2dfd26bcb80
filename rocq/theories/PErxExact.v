(** * PErxExact: the possible offspring of ERX, exactly (C14, C125). *)
From Coq Require Import List Bool Arith NArith Lia Permutation.
From Verif Require Import Rnd LRnd MOperators MCrossover Spec SpecC POperatorsNeighbors LGenes PCrossoverErx PCommon.
Import ListNotations.

Section Exact.
Context {G : Type} (eqb : G -> G -> bool).
Hypothesis Heq : eq_ok eqb.

Lemma degree_unique (p1 p2 used : list G) g d e : erx_degree p1 p2 used g d -> erx_degree p1 p2 used g e -> d = e.
Proof.
  intros (l & Nl & <- & Hl) (k & Nk & <- & Hk); apply Permutation_length, NoDup_Permutation; auto.
  intros x; rewrite Hl, Hk; tauto.
Qed.
Lemma first_not_in_unique (l used : list G) x y : first_not_in l used x -> first_not_in l used y -> x = y.
Proof.
  intros (a & b & E & Hx & Ha) (c & d & E' & Hy & Hc); subst l; revert c E' Hc; induction a as [|z a IH]; intros [|w c] E' Hc; cbn in E'; injection E' as E1 E2; auto.
  - subst w; exfalso; apply Hx, Hc; left; auto.
  - subst z; exfalso; apply Hy, Ha; left; auto.
  - subst w; eapply IH; eauto; intros v Hv; [apply Ha|apply Hc]; right; auto.
Qed.
Lemma min_head (x : G) d l : (forall e, In e l -> d <= snd e) -> min_by_key ((x, d) :: l) = Some (x, d).
Proof.
  intros H; cbn [min_by_key]; destruct (min_by_key l) as [[y e]|] eqn:E; auto.
  apply (min_by_key_spec [] [] (Permutation_refl _)) in E as [Hi _]; specialize (H _ Hi); cbn in H.
  rewrite (proj2 (Nat.ltb_ge e d)) by auto; auto.
Qed.

Variables p1 p2 : list G.
Hypothesis Hnd : NoDup p1.
Hypothesis HP : Permutation p1 p2.

Lemma edge_next_reach m used cur nx : In cur p1 ->
  nmap_ok eqb (fun g => In g p1) (erx_free p1 p2 used) m -> erx_rule p1 p2 used cur nx -> may (edge_next eqb p1 m used cur) nx.
Proof.
  intros Hc Hm Hr; unfold edge_next.
  destruct (Hm cur Hc) as (s & Es & Hns & Hxs); rewrite Es; cbn [bind].
  assert (Hin1 : forall x, In x s -> In x p1).
  { intros x Hs; apply Hxs in Hs as [[Ha|Ha] _]; apply cyc_adj_In in Ha; auto.
    eapply Permutation_in; [symmetry|]; eauto. }
  destruct Hr as [(Hf & d & Hd & Hmin)|[Hno Hfst]].
  - assert (Hs : In nx s) by (apply Hxs; auto); apply in_split in Hs as (s1 & s2 & ->).
    set (order := nx :: s1 ++ s2).
    assert (Ho : Permutation (s1 ++ nx :: s2) order) by (symmetry; apply Permutation_middle).
    apply may_bind; exists order; split; [apply may_pick_from, in_perms; auto|].
    assert (Hord : forall y, In y order <-> erx_free p1 p2 used cur y).
    { intros y; rewrite <- Hxs; split; apply Permutation_in; [symmetry|]; auto. }
    assert (Hfil : filter (fun g => negb (mem eqb g used)) order = order).
    { assert (H : forall x, In x order -> mem eqb x used = false).
      { intros x Hx; apply (mem_notIn eqb Heq); apply Hord in Hx; apply Hx. }
      clear -H; induction order as [|x order IH]; cbn; auto.
      rewrite H by (left; auto); cbn; f_equal; apply IH; intros; apply H; right; auto. }
    rewrite Hfil; clear Hfil.
    assert (Hin : forall x, In x order -> In x p1) by (intros x Hx; apply Hin1; eapply Permutation_in; [symmetry|]; eauto).
    assert (Hkeyed : forall l, incl l order -> exists keyed, mapM (fun g => ns <- nmap_get eqb m g ;; Ret (g, length ns)) l = Ret keyed /\
      forall g e, In (g, e) keyed -> In g l /\ erx_degree p1 p2 used g e).
    { induction l as [|x l IH]; intros Hl; [exists []; split; auto; intros g e []|].
      destruct IH as (k & Ek & Hk); [intros y Hy; apply Hl; right; auto|].
      destruct (Hm x (Hin x (Hl x (or_introl eq_refl)))) as (t & Et & Hnt & Hxt).
      exists ((x, length t) :: k); cbn [mapM]; rewrite Et; cbn [bind]; rewrite Ek; cbn [bind]; split; auto.
      intros g e [E|H]; [injection E as <- <-; split; [left; auto|exists t; auto]|]. destruct (Hk _ _ H); split; auto; right; auto. }
    destruct (Hkeyed (s1 ++ s2)) as (keyed & Ek & Hk); [intros y Hy; right; auto|].
    destruct (Hm nx (Hin nx (or_introl eq_refl))) as (t & Et & Hnt & Hxt).
    assert (Ed : length t = d) by (apply (degree_unique p1 p2 used nx); auto; exists t; auto).
    unfold order; cbn [mapM]; rewrite Et; cbn [bind]; rewrite Ek; cbn [bind]; rewrite min_head; [reflexivity|].
    intros [g e] Hg; cbn [snd]; destruct (Hk _ _ Hg) as [Hg1 Hg2].
    destruct (Hmin g) as (dy & Hdy & Hle); [apply Hord; right; auto|].
    rewrite (degree_unique _ _ _ _ _ _ Hg2 Hdy), Ed; auto.
  - assert (s = []) by (destruct s as [|y s]; auto; exfalso; apply (Hno y), Hxs; left; auto); subst s.
    apply may_bind; exists []; split; [apply may_pick_from, in_perms; auto|]; cbn [filter mapM bind min_by_key].
    assert (Hx : first_unvisited eqb p1 used = Some nx).
    { destruct Hfst as (l1 & l2 & -> & Hx & Hl); unfold first_unvisited; clear -Heq Hx Hl; induction l1 as [|y l1 IH]; cbn [app find].
      - rewrite (proj2 (mem_notIn eqb Heq _ _) Hx); reflexivity.
      - rewrite (proj2 (mem_In eqb Heq _ _) (Hl y (or_introl eq_refl))); apply IH; intros z Hz; apply Hl; right; auto. }
    rewrite Hx; reflexivity.
Qed.

Lemma erx_loop_reach rest : forall m visited cur,
  incl (cur :: rest) p1 ->
  nmap_ok eqb (fun g => In g p1) (erx_free p1 p2 visited) m ->
  (forall i c x, nth_error (cur :: rest) i = Some c -> nth_error rest i = Some x ->
      erx_rule p1 p2 (visited ++ firstn (S i) (cur :: rest)) c x) ->
  may (erx_loop eqb p1 (length rest) m visited cur) rest.
Proof.
  induction rest as [|nx rest IH]; intros m visited cur Hi Hm Hr; [reflexivity|].
  cbn [length erx_loop]; cbv zeta; pose proof (nmap_remove_ok eqb Heq p1 p2 visited m cur Hm) as Hm'.
  apply may_bind; exists nx; split.
  - apply edge_next_reach; auto; [apply Hi; left; auto|].
    eapply erx_rule_ext; [|apply (Hr 0 cur nx); reflexivity]; intros y; rewrite in_app_iff; cbn; tauto.
  - apply may_bind; exists rest; split; [|reflexivity].
    apply IH; auto; [intros x Hx; apply Hi; right; auto|].
    intros i c x Hc Hx; eapply erx_rule_ext; [|apply (Hr (S i) c x); auto].
    intros y; cbn [firstn]; rewrite !in_app_iff; cbn [In]; tauto.
Qed.

Lemma erx_reach pivot r : Permutation p1 r -> hd_error r = Some pivot ->
  (forall i c x, nth_error r i = Some c -> nth_error r (S i) = Some x -> erx_rule p1 p2 (firstn (S i) r) c x) ->
  may (edge_recombination_crossover eqb p1 p2 pivot) r.
Proof.
  intros Hpr Hh Hr; destruct r as [|v rest]; [discriminate|]; injection Hh as ->.
  pose proof (Permutation_length Hpr) as Hl; cbn [length] in Hl; pose proof (Permutation_length HP) as Hl2.
  unfold edge_recombination_crossover; rewrite Hl2, Nat.eqb_refl; cbn [massert bind]; rewrite <- Hl2.
  destruct (Nat.ltb_spec (length p1) 2) as [H|H].
  - destruct rest; [|cbn in Hl; lia]; apply Permutation_sym, Permutation_length_1_inv in Hpr; subst; reflexivity.
  - destruct (build_neighbors_ok eqb Heq p1 p2 HP) as (m & Em & Hm); [lia|]; rewrite Em; cbn [bind].
    apply may_bind; exists rest; split; [|reflexivity]; replace (length p1 - 1) with (length rest) by lia.
    apply erx_loop_reach; auto; intros x Hx; eapply Permutation_in; [symmetry; exact Hpr|auto].
Qed.
End Exact.

Lemma erx_exact {G} (eqb : G -> G -> bool) (p1 p2 : list G) pivot r : eq_ok eqb -> perm_parents p1 p2 -> In pivot p1 ->
  (may (edge_recombination_crossover eqb p1 p2 pivot) r <->
   Permutation p1 r /\ hd_error r = Some pivot /\
   forall i c x, nth_error r i = Some c -> nth_error r (S i) = Some x -> erx_rule p1 p2 (firstn (S i) r) c x).
Proof.
  intros He [Hn HP] Hp; split.
  - intros Hm; apply (must_may _ _ _ (erx_spec eqb He p1 p2 Hn HP pivot Hp) Hm).
  - intros (H1 & H2 & H3); apply erx_reach; auto.
Qed.

(** ** ERX reads its parents as tours *)
Section Tours.
Context {G : Type} (eqb : G -> G -> bool) (Heq : eq_ok eqb).
Implicit Types p q r used : list G.

Lemma tour_adj p q a b : turned p q \/ turned (rev p) q -> cyc_adj p a b <-> cyc_adj q a b.
Proof. intros H; split; [apply cyc_adj_turned; auto|apply turned_rev_back; auto]. Qed.
Lemma tour_perm p q : turned p q \/ turned (rev p) q -> Permutation p q.
Proof.
  intros [(k & _ & ->)|(k & _ & ->)]; unfold rotated.
  - rewrite Permutation_app_comm, firstn_skipn; auto.
  - etransitivity; [apply Permutation_rev|]; rewrite Permutation_app_comm, firstn_skipn; auto.
Qed.

Lemma free_adj p1 p2 q1 q2 used g x :
  (forall a b, cyc_adj p1 a b \/ cyc_adj p2 a b <-> cyc_adj q1 a b \/ cyc_adj q2 a b) -> erx_free p1 p2 used g x <-> erx_free q1 q2 used g x.
Proof. intros H; unfold erx_free; rewrite (H g x); tauto. Qed.
Lemma degree_adj p1 p2 q1 q2 used g d :
  (forall a b, cyc_adj p1 a b \/ cyc_adj p2 a b <-> cyc_adj q1 a b \/ cyc_adj q2 a b) -> erx_degree p1 p2 used g d -> erx_degree q1 q2 used g d.
Proof. intros H (l & H1 & H2 & H3); exists l; split; auto; split; auto; intros x; rewrite H3; apply free_adj; auto. Qed.
Lemma rule_adj p1 p2 q1 q2 used c x :
  (forall a b, cyc_adj p1 a b \/ cyc_adj p2 a b <-> cyc_adj q1 a b \/ cyc_adj q2 a b) ->
  p1 = q1 \/ erx_free p1 p2 used c x -> erx_rule p1 p2 used c x -> erx_rule q1 q2 used c x.
Proof.
  intros H Hc [(H1 & d & Hd & Hm)|[H1 H2]].
  - left; split; [apply (free_adj p1 p2 q1 q2); auto|]; exists d; split; [apply (degree_adj p1 p2 q1 q2); auto|].
    intros y Hy; destruct (Hm y) as (dy & Hdy & Hle); [apply (free_adj p1 p2 q1 q2); auto|].
    exists dy; split; auto; apply (degree_adj p1 p2 q1 q2); auto.
  - destruct Hc as [->|Hf]; [|exfalso; apply (H1 x); auto].
    right; split; auto; intros y Hy; apply (H1 y); eapply free_adj; eauto.
Qed.

Lemma erx_second p1 p2 q2 v r : perm_parents p1 p2 -> turned p2 q2 \/ turned (rev p2) q2 -> In v p1 ->
  (may (edge_recombination_crossover eqb p1 p2 v) r <-> may (edge_recombination_crossover eqb p1 q2 v) r).
Proof.
  intros [Hn HP] Ht Hv.
  assert (HQ : perm_parents p1 q2) by (split; auto; rewrite HP; apply tour_perm; auto).
  rewrite (erx_exact eqb p1 p2), (erx_exact eqb p1 q2) by (auto; split; auto).
  pose proof (fun a b => tour_adj p2 q2 a b Ht) as A.
  split; intros (H1 & H2 & H3); split; auto; split; auto; intros i c x Hc Hx;
    (eapply rule_adj; [|left; reflexivity|apply H3; eauto]); intros a b; rewrite (A a b); tauto.
Qed.

Lemma NoDup_firstn_notin r i (x : G) : NoDup r -> nth_error r i = Some x -> ~ In x (firstn i r).
Proof.
  intros Hn Hx Hi; apply In_nth_error in Hi as [j Hj].
  assert (Hj' : j < i) by (pose proof (nth_error_some_lt _ _ _ Hj) as L; rewrite firstn_length in L; lia).
  rewrite <- (firstn_skipn i r) in Hx; rewrite <- (firstn_skipn i r) in Hn.
  pose proof (nth_error_some_lt _ _ _ Hx) as Lx.
  assert (E : nth_error (firstn i r ++ skipn i r) j = Some x) by (rewrite nth_error_app1; auto; eapply nth_error_some_lt; eauto).
  assert (i = j) by (apply (NoDup_nth_inj _ i j x Hn); auto); lia.
Qed.
(** Offspring that only take steps of the parents *)
Lemma erx_linked p1 p2 q1 q2 v r : perm_parents p1 p2 -> perm_parents q1 q2 -> Permutation p1 q1 ->
  (forall a b, cyc_adj p1 a b \/ cyc_adj p2 a b <-> cyc_adj q1 a b \/ cyc_adj q2 a b) -> In v p1 ->
  (forall i c x, nth_error r i = Some c -> nth_error r (S i) = Some x -> cyc_adj p1 c x \/ cyc_adj p2 c x) ->
  (may (edge_recombination_crossover eqb p1 p2 v) r <-> may (edge_recombination_crossover eqb q1 q2 v) r).
Proof.
  intros Hp Hq Hpq A Hv Hl.
  rewrite (erx_exact eqb p1 p2), (erx_exact eqb q1 q2) by (auto; eapply Permutation_in; eauto).
  split; intros (H1 & H2 & H3); (split; [|split; auto]).
  - rewrite <- Hpq; auto.
  - intros i c x Hc Hx; apply (rule_adj p1 p2 q1 q2); auto; right; split; [apply (Hl i); auto|].
    apply NoDup_firstn_notin; auto; eapply Permutation_NoDup; [exact H1|apply Hp].
  - rewrite Hpq; auto.
  - intros i c x Hc Hx; apply (rule_adj q1 q2 p1 p2); auto; [intros a b; symmetry; auto|].
    right; split; [apply A, (Hl i); auto|].
    apply NoDup_firstn_notin; auto; eapply Permutation_NoDup; [exact H1|apply Hq].
Qed.
Lemma erx_swapped p1 p2 v r : perm_parents p1 p2 -> In v p1 ->
  (forall i c x, nth_error r i = Some c -> nth_error r (S i) = Some x -> cyc_adj p1 c x \/ cyc_adj p2 c x) ->
  (may (edge_recombination_crossover eqb p1 p2 v) r <-> may (edge_recombination_crossover eqb p2 p1 v) r).
Proof.
  intros [Hn HP] Hv Hl; apply erx_linked; auto; [split; auto|split; [eapply Permutation_NoDup; eauto|symmetry; auto]|].
  intros a b; tauto.
Qed.
Lemma erx_first p1 q1 p2 v r : perm_parents p1 p2 -> turned p1 q1 \/ turned (rev p1) q1 -> In v p1 ->
  (forall i c x, nth_error r i = Some c -> nth_error r (S i) = Some x -> cyc_adj p1 c x \/ cyc_adj p2 c x) ->
  (may (edge_recombination_crossover eqb p1 p2 v) r <-> may (edge_recombination_crossover eqb q1 p2 v) r).
Proof.
  intros [Hn HP] Ht Hv Hl; pose proof (tour_perm _ _ Ht) as Hpq; apply erx_linked; auto.
  - split; auto.
  - split; [eapply Permutation_NoDup; eauto|rewrite <- Hpq; auto].
  - intros a b; rewrite (tour_adj p1 q1 a b Ht); tauto.
Qed.
End Tours.
