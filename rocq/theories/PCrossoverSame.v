(** * PCrossoverSame: SCX, ERX and GPX2 of a genome with itself. *)
From Coq Require Import List Bool Arith NArith Lia Permutation.
From Verif Require Import Rnd LRnd MOperators MCrossover Spec SpecC POperatorsRandom POperatorsNeighbors LGenes
  PCrossoverGpx PCrossoverScx PCrossoverErx PCrossoverPmx PCrossoverOx PCrossoverCx PCrossoverAll PCrossoverAny DocExamples.
Import ListNotations.

Section Tour.
Context {G : Type}.
Variable p : list G.
Hypothesis Hnd : NoDup p.
Let n := length p.
Let f j := nth_error p (j mod n).

Lemma tour_some j : 0 < n -> exists x, f j = Some x.
Proof. intros Hn; apply nth_error_lt; apply Nat.mod_upper_bound; unfold n in *; lia. Qed.

Lemma tour_next c x j : cyc_next p c x -> f j = Some c -> f (j + 1) = Some x.
Proof.
  intros (i & Hi & Hx) Hj; pose proof (nth_error_some_lt _ _ _ Hi) as Hlt; fold n in Hlt, Hx.
  assert (E : i = j mod n) by (eapply NoDup_nth_inj; [exact Hnd|exact Hi|exact Hj]).
  unfold f; rewrite <- Hx, E; f_equal.
  rewrite Nat.add_mod_idemp_l; auto; lia.
Qed.

Lemma succ_mod_inj i j : i < n -> (i + 1) mod n = (j + 1) mod n -> i = j mod n.
Proof.
  intros Hi E; rewrite <- (Nat.add_mod_idemp_l j 1 n) in E by lia.
  assert (Hj : j mod n < n) by (apply Nat.mod_upper_bound; lia).
  revert Hj E; generalize (j mod n); intros k Hk E.
  destruct (Nat.eq_dec (i + 1) n) as [E1|E1]; destruct (Nat.eq_dec (k + 1) n) as [E2|E2]; try lia.
  - rewrite E1, Nat.mod_same, Nat.mod_small in E by lia; lia.
  - rewrite E2, Nat.mod_same, Nat.mod_small in E by lia; lia.
  - rewrite !Nat.mod_small in E by lia; lia.
Qed.

Lemma tour_prev c x j : cyc_next p x c -> f (j + 1) = Some c -> f j = Some x.
Proof.
  intros (i & Hi & Hx) Hj; pose proof (nth_error_some_lt _ _ _ Hi) as Hlt; fold n in Hlt, Hx.
  assert (E : (i + 1) mod n = (j + 1) mod n) by (eapply NoDup_nth_inj; [exact Hnd|exact Hx|exact Hj]).
  apply succ_mod_inj in E; auto; unfold f; rewrite <- E; auto.
Qed.

Lemma tour_is_next c x j : f j = Some c -> f (j + 1) = Some x -> cyc_next p c x.
Proof.
  intros Hc Hx; assert (0 < n).
  { destruct (Nat.eq_dec n 0) as [E|]; [|lia]; unfold f in Hc; unfold n in E.
    apply length_zero_iff_nil in E; rewrite E in Hc; destruct (j mod n); discriminate. }
  exists (j mod n); fold n; split; auto; rewrite Nat.add_mod_idemp_l; auto; lia.
Qed.

Lemma tour_inj j j' x : j < n -> j' < n -> forall k, f (k + j) = Some x -> f (k + j') = Some x -> j = j'.
Proof.
  intros Hj Hj' k H1 H2.
  assert (E : (k + j) mod n = (k + j') mod n) by (eapply NoDup_nth_inj; [exact Hnd|exact H1|exact H2]).
  clear H1 H2.
  assert (K : forall u v, u < n -> v < n -> forall k, (k + u) mod n = (k + v) mod n -> u <= v).
  { clear; intros u v Hu Hv k E.
    rewrite <- (Nat.add_mod_idemp_l k u), <- (Nat.add_mod_idemp_l k v) in E by lia.
    assert (Hk : k mod n < n) by (apply Nat.mod_upper_bound; lia).
    revert Hk E; generalize (k mod n); intros q Hq E.
    assert (M : forall w, w < n -> (q + w) mod n = if q + w <? n then q + w else q + w - n).
    { intros w Hw; destruct (Nat.ltb_spec (q + w) n); [apply Nat.mod_small; auto|].
      replace (q + w) with (q + w - n + 1 * n) at 1 by lia; rewrite Nat.mod_add, Nat.mod_small by lia; auto. }
    rewrite !M in E by auto; destruct (Nat.ltb_spec (q + u) n); destruct (Nat.ltb_spec (q + v) n); lia. }
  apply Nat.le_antisymm; eapply K; eauto.
Qed.

(** A path of different genes along the cycle goes in one direction. *)
Lemma tour_path (r : list G) k : NoDup r -> length r <= n -> hd_error r = f k -> r <> [] ->
  (forall a b, consec r a b -> cyc_adj p a b) ->
  (forall i, i < length r -> nth_error r i = f (k + i)) \/
  (forall i, i < length r -> nth_error r i = f (k + (n - i))).
Proof.
  intros Hr Hl Hh Hne Hadj.
  assert (H0 : nth_error r 0 = f k) by (destruct r; cbn in *; auto).
  assert (Hpos : 0 < length r) by (destruct r; [congruence|cbn; lia]).
  assert (Hkn : f (k + n) = f k).
  { unfold f; replace (k + n) with (k + 1 * n) by lia; rewrite Nat.mod_add; auto; lia. }
  enough (K : forall m, 0 < m -> m <= length r ->
    (forall i, i < m -> nth_error r i = f (k + i)) \/ (forall i, i < m -> nth_error r i = f (k + (n - i)))).
  { apply K; auto. }
  intros [|[|m]]; [lia| |].
  { intros _ _; left; intros i Hi; replace i with 0 by lia; rewrite Nat.add_0_r; auto. }
  intros _; induction m as [|m IH]; intros Hm.
  - destruct (nth_error_lt r 0) as [x0 Hx0]; [lia|]; destruct (nth_error_lt r 1) as [x1 Hx1]; [lia|].
    rewrite Hx0 in H0; symmetry in H0.
    destruct (Hadj x0 x1) as [H|H]; [exists 0; auto| |].
    + left; intros i Hi; destruct i as [|[|i]]; [rewrite Nat.add_0_r; congruence| |lia].
      rewrite Hx1; symmetry; apply (tour_next _ _ _ H); auto.
    + right; intros i Hi; destruct i as [|[|i]]; [rewrite Nat.sub_0_r; congruence| |lia].
      rewrite Hx1; symmetry; apply (tour_prev _ _ _ H).
      replace (k + (n - 1) + 1) with (k + n) by lia; rewrite Hkn; auto.
  - destruct (nth_error_lt r (S (S m))) as [y Hy]; [lia|].
    destruct (nth_error_lt r (S m)) as [c Hc]; [lia|].
    destruct (nth_error_lt r m) as [b Hb]; [lia|].
    assert (Hby : y <> b).
    { intros ->; assert (S (S m) = m) by (eapply NoDup_nth_inj; [exact Hr|exact Hy|exact Hb]); lia. }
    assert (Hcy : cyc_adj p c y) by (apply Hadj; exists (S m); auto).
    destruct IH as [IH|IH]; [lia| |].
    + left; intros i Hi; destruct (Nat.eq_dec i (S (S m))) as [->|]; [|apply IH; lia].
      pose proof (IH (S m) ltac:(lia)) as E1; pose proof (IH m ltac:(lia)) as E2.
      rewrite Hc in E1; rewrite Hb in E2; symmetry in E1, E2.
      destruct Hcy as [H|H].
      * rewrite Hy; symmetry; replace (k + S (S m)) with (k + S m + 1) by lia; apply (tour_next _ _ _ H); auto.
      * exfalso; apply Hby; replace (k + S m) with (k + m + 1) in E1 by lia.
        apply (tour_prev _ _ _ H) in E1; congruence.
    + right; intros i Hi; destruct (Nat.eq_dec i (S (S m))) as [->|]; [|apply IH; lia].
      pose proof (IH (S m) ltac:(lia)) as E1; pose proof (IH m ltac:(lia)) as E2.
      rewrite Hc in E1; rewrite Hb in E2; symmetry in E1, E2.
      destruct Hcy as [H|H].
      * exfalso; apply Hby; apply (tour_next _ _ _ H) in E1.
        replace (k + (n - S m) + 1) with (k + (n - m)) in E1 by lia; congruence.
      * rewrite Hy; symmetry; apply (tour_prev _ _ _ H).
        replace (k + (n - S (S m)) + 1) with (k + (n - S m)) by lia; auto.
Qed.

Lemma forward_turned (r : list G) k :
  k < n -> length r = n -> (forall i, i < n -> nth_error r i = f (k + i)) -> r = rotated p k.
Proof.
  intros Hk Hl H; apply list_ext; intros i; destruct (Nat.lt_ge_cases i n) as [Hi|Hi].
  - rewrite H, nth_error_rotated by (unfold n in *; lia); auto.
  - rewrite !(proj2 (nth_error_None _ _)); auto; [rewrite rotated_length; auto|lia].
Qed.

Lemma nth_error_rev (l : list G) i : i < length l -> nth_error (rev l) i = nth_error l (length l - 1 - i).
Proof.
  intros Hi; destruct (nth_error_lt l (length l - 1 - i)) as [x Hx]; [lia|]; rewrite Hx.
  rewrite (nth_error_nth' (rev l) x) by (rewrite rev_length; auto).
  rewrite rev_nth by auto; f_equal.
  replace (length l - S i) with (length l - 1 - i) by lia; apply nth_error_nth; auto.
Qed.

Lemma backward_turned (r : list G) k :
  k < n -> length r = n -> (forall i, i < n -> nth_error r i = f (k + (n - i))) -> r = rotated (rev p) (n - 1 - k).
Proof.
  intros Hk Hl H; apply list_ext; intros i; destruct (Nat.lt_ge_cases i n) as [Hi|Hi].
  - assert (Hn0 : n <> 0) by lia.
    rewrite H by auto; rewrite nth_error_rotated by (rewrite rev_length; fold n; lia).
    rewrite rev_length; fold n.
    rewrite nth_error_rev by (apply Nat.mod_upper_bound; auto); fold n; unfold f; f_equal.
    destruct (Nat.le_gt_cases i k) as [Hik|Hik].
    + rewrite (Nat.mod_small (n - 1 - k + i)) by lia.
      replace (k + (n - i)) with (k - i + 1 * n) by lia; rewrite Nat.mod_add, Nat.mod_small by lia; lia.
    + replace (n - 1 - k + i) with (i - 1 - k + 1 * n) by lia; rewrite Nat.mod_add by auto.
      rewrite (Nat.mod_small (i - 1 - k)), Nat.mod_small by lia; lia.
  - rewrite !(proj2 (nth_error_None _ _)); auto; [rewrite rotated_length, rev_length; auto|lia].
Qed.

(** The next gene along the tour is not in the path yet. *)
Lemma path_open (r : list G) k : NoDup r -> length r < n -> hd_error r = f k -> r <> [] ->
  (forall a b, consec r a b -> cyc_adj p a b) ->
  forall z, last (map Some r) None = Some z -> exists y, cyc_adj p z y /\ ~ In y r.
Proof.
  intros Hr Hl Hh Hne Hadj z Hz.
  destruct (last_some r Hne) as (z' & Hz' & Hz2); rewrite Hz in Hz'; injection Hz' as <-.
  assert (Hpos : 0 < length r) by (destruct r; [congruence|cbn; lia]).
  destruct (tour_path r k Hr (Nat.lt_le_incl _ _ Hl) Hh Hne Hadj) as [H|H].
  - destruct (tour_some (k + length r)) as [y Hy]; [lia|].
    rewrite H in Hz2 by lia; exists y; split.
    + left; apply (tour_is_next z y (k + (length r - 1))); auto; rewrite <- Hy; f_equal; lia.
    + intros Hi; apply In_nth_error in Hi as (i & Hi).
      pose proof (nth_error_some_lt _ _ _ Hi) as Hlt; rewrite H in Hi by auto.
      assert (i = length r) by (eapply tour_inj; [| |exact Hi|exact Hy]; lia); lia.
  - destruct (tour_some (k + (n - length r))) as [y Hy]; [lia|].
    rewrite H in Hz2 by lia; exists y; split.
    + right; apply (tour_is_next y z (k + (n - length r))); auto; rewrite <- Hz2; f_equal; lia.
    + intros Hi; apply In_nth_error in Hi as (i & Hi).
      pose proof (nth_error_some_lt _ _ _ Hi) as Hlt; rewrite H in Hi by auto.
      destruct (Nat.eq_dec i 0) as [->|Hi0].
      * assert (E : n - length r = 0); [|lia].
        eapply (tour_inj _ _ y); [| |exact Hy|]; try lia.
        rewrite <- Hi, Nat.sub_0_r, Nat.add_0_r; unfold f; f_equal.
        replace (k + n) with (k + 1 * n) by lia; rewrite Nat.mod_add; auto; lia.
      * assert (n - i = n - length r) by (eapply tour_inj; [| |exact Hi|exact Hy]; lia); lia.
Qed.

Lemma path_turned (r : list G) k : k < n -> NoDup r -> length r = n -> hd_error r = f k ->
  (forall a b, consec r a b -> cyc_adj p a b) ->
  r = rotated p k \/ r = rotated (rev p) (n - 1 - k).
Proof.
  intros Hk Hr Hl Hh Hadj.
  assert (Hne : r <> []) by (intros ->; cbn in Hl; lia).
  destruct (tour_path r k Hr ltac:(lia) Hh Hne Hadj) as [H|H]; rewrite Hl in H.
  - left; apply forward_turned; auto.
  - right; apply backward_turned; auto.
Qed.

End Tour.

Section Same.
Context {G : Type} (eqb ltb : G -> G -> bool).
Hypothesis Heq : eq_ok eqb.
Variable p : list G.
Hypothesis Hnd : NoDup p.

Lemma tour_at k pivot : nth_error p k = Some pivot -> nth_error p (k mod length p) = Some pivot.
Proof. intros H; rewrite Nat.mod_small; auto; eapply nth_error_some_lt; eauto. Qed.

Lemma scx_same k pivot : nth_error p k = Some pivot ->
  must (sequential_constructive_crossover eqb p p pivot) (fun r => r = rotated p k).
Proof.
  intros Hk; eapply must_mono; [|apply (scx_spec eqb Heq p p Hnd (Permutation_refl p) pivot); eapply nth_error_In; eauto].
  intros r (HP & Hh & Hrule).
  pose proof (nth_error_some_lt _ _ _ Hk) as Hkn.
  pose proof (Permutation_length HP) as Hl.
  assert (Hr : NoDup r) by (eapply Permutation_NoDup; eauto).
  apply (forward_turned p); auto.
  intros i; induction i as [i IH] using lt_wf_ind; intros Hi.
  destruct i as [|i].
  - rewrite Nat.add_0_r, (tour_at _ _ Hk); destruct r; auto.
  - destruct (nth_error_lt r i) as [c Hc]; [lia|]; destruct (nth_error_lt r (S i)) as [x Hx]; [lia|].
    destruct (Hrule i c x Hc Hx) as (n1 & n2 & H1 & H2 & HR).
    pose proof (IH i ltac:(lia) ltac:(lia)) as Ei; rewrite Hc in Ei; symmetry in Ei.
    apply (tour_next p Hnd _ _ _ H1) in Ei as E1; apply (tour_next p Hnd _ _ _ H2) in Ei as E2.
    assert (n2 = n1) by congruence; subst n2.
    assert (Hu : ~ In n1 (firstn (S i) r)).
    { intros Hin; apply In_nth_error in Hin as (j & Hj).
      pose proof (nth_error_some_lt _ _ _ Hj) as Hjl; rewrite firstn_length in Hjl.
      rewrite nth_error_firstn' in Hj by lia; rewrite IH in Hj by lia.
      replace (k + i + 1) with (k + S i) in E1 by lia.
      assert (j = S i) by (eapply (tour_inj p Hnd); [| |exact Hj|exact E1]; lia); lia. }
    replace (k + S i) with (k + i + 1) by lia; rewrite Hx, E1; f_equal.
    destruct HR as [(A & _)|[(A & _)|[(_ & A & _)|(_ & _ & u & v & _ & _ & ->)]]]; try tauto.
    destruct (u <? v); auto.
Qed.

Lemma firstn_S_snoc {A} (l : list A) i x : nth_error l i = Some x -> firstn (S i) l = firstn i l ++ [x].
Proof.
  revert l; induction i as [|i IH]; intros [|h t] H; cbn in H; try discriminate.
  - injection H as ->; auto.
  - cbn [firstn app]; f_equal; apply IH; auto.
Qed.

Lemma firstn_hd {A} (l : list A) i : hd_error (firstn (S i) l) = hd_error l.
Proof. destruct l; auto. Qed.

Lemma consec_firstn {A} (l : list A) m a b : consec (firstn m l) a b -> consec l a b.
Proof.
  intros (i & Ha & Hb); exists i.
  pose proof (nth_error_some_lt _ _ _ Hb) as Hi; rewrite firstn_length in Hi.
  rewrite nth_error_firstn' in Ha, Hb by lia; auto.
Qed.

Lemma NoDup_firstn {A} (l : list A) m : NoDup l -> NoDup (firstn m l).
Proof. intros H; rewrite <- (firstn_skipn m l) in H; eapply NoDup_app_l; eauto. Qed.

Lemma erx_same k pivot : nth_error p k = Some pivot ->
  must (edge_recombination_crossover eqb p p pivot)
    (fun r => r = rotated p k \/ r = rotated (rev p) (length p - 1 - k)).
Proof.
  intros Hk; eapply must_mono; [|apply (erx_spec eqb Heq p p Hnd (Permutation_refl p) pivot); eapply nth_error_In; eauto].
  intros r (HP & Hh & Hrule).
  pose proof (nth_error_some_lt _ _ _ Hk) as Hkn.
  pose proof (Permutation_length HP) as Hl.
  assert (Hr : NoDup r) by (eapply Permutation_NoDup; eauto).
  apply (path_turned p Hnd); auto; [rewrite (tour_at _ _ Hk); auto|].
  enough (K : forall m, forall a b, consec (firstn m r) a b -> cyc_adj p a b).
  { intros a b H; apply (K (length r)); rewrite firstn_all; auto. }
  induction m as [|m IH]; intros a b H; [destruct H as (i & H & _); destruct i; discriminate|].
  destruct (nth_error r m) as [x|] eqn:Hx.
  2: { apply IH; rewrite firstn_all2 in *; auto; apply nth_error_None in Hx; lia. }
  rewrite (firstn_S_snoc _ _ _ Hx) in H; apply consec_snoc in H as [H|[H ->]]; auto.
  destruct m as [|m]; [discriminate|].
  pose proof (nth_error_some_lt _ _ _ Hx) as Hm.
  assert (Hne : firstn (S m) r <> []) by (intros E; rewrite E in H; discriminate).
  assert (Ha : nth_error r m = Some a).
  { destruct (last_some _ Hne) as (z & Hz & Hz'); rewrite H in Hz; injection Hz as <-.
    rewrite firstn_length_le in Hz' by lia; rewrite nth_error_firstn' in Hz' by lia.
    replace (S m - 1) with m in Hz' by lia; auto. }
  destruct (Hrule m a x Ha Hx) as [(Hf & _)|(Hf & _)].
  - destruct Hf as [[Hf|Hf] _]; auto.
  - exfalso; destruct (path_open p Hnd (firstn (S m) r) k) with (z := a) as (y & Hy & Hny); auto.
    + apply NoDup_firstn; auto.
    + rewrite firstn_length_le; lia.
    + rewrite firstn_hd, (tour_at _ _ Hk); auto.
    + apply (Hf y); split; auto.
Qed.

(** The common partitions of a genome with itself: the whole tour. *)
Lemma partitions_same : 3 <= length p ->
  exists q, common_partitions eqb ltb p p = Ret [q] /\ (turned p q \/ turned (rev p) q).
Proof.
  intros H3; unfold common_partitions.
  destruct (common_neighbors_raw eqb ltb Heq p p) as (cn & E & Hcn); [lia|lia|]; rewrite E; cbn [bind].
  assert (Hrel : forall a b, cn_rel cn a b <-> cyc_adj p a b).
  { intros a b; unfold cn_rel; rewrite !Hcn; split.
    - intros [[(x & y & Hxy & Exy) _]|[(x & y & Hxy & Exy) _]]; destruct (neighbor_cases ltb x y) as [En|En];
        rewrite En in Exy; injection Exy as -> ->; [left|right|right|left]; auto.
    - intros [H|H].
      + destruct (neighbor_cases ltb a b) as [En|En]; [left|right]; split; exists a, b; auto.
      + destruct (neighbor_cases ltb b a) as [En|En]; [right|left]; split; exists b, a; auto. }
  destruct (partitions_loop_spec eqb ltb Heq cn p []) as (ps & Ep & Hn & Hin & Hne & Hc & Hmax & Hhd).
  { intros x Hx; apply in_flat_map in Hx as ([a b] & Hab & Hx).
    assert (Hab' : cyc_adj p a b) by (apply Hrel; left; auto).
    apply cyc_adj_in in Hab'; cbn in *; intuition (subst; auto). }
  rewrite Ep.
  destruct (nth_error_lt p 0) as [p0 Hp0]; [lia|].
  destruct ps as [|q ps].
  { exfalso; apply nth_error_In in Hp0; apply (proj2 (Hin p0)); auto. }
  destruct q as [|h t]; [exfalso; apply (Hne [] (or_introl eq_refl)); auto|].
  assert (Hh : h = p0).
  { destruct (Hhd [] h t ps eq_refl) as (l1 & l2 & El & Hl1); destruct l1 as [|y l1].
    - rewrite El in Hp0; cbn in Hp0; congruence.
    - exfalso; apply (Hl1 y); left; auto. }
  subst h; set (q := p0 :: t) in *.
  assert (Hndq : NoDup q) by (cbn [concat] in Hn; apply NoDup_app_inv in Hn; tauto).
  assert (Hcq : forall a b, consec q a b -> cyc_adj p a b).
  { intros a b Hab; apply Hrel, (Hc q); auto; left; auto. }
  assert (Hle : length q <= length p).
  { apply NoDup_incl_length; auto; intros x Hx; apply (Hin x); cbn [concat]; apply in_or_app; auto. }
  assert (Hq : length q = length p).
  { destruct (Nat.eq_dec (length q) (length p)) as [|Hneq]; auto; exfalso.
    destruct (last_some q) as (z & Hz & _); [discriminate|].
    destruct (path_open p Hnd q 0) with (z := z) as (y & Hy & Hny); auto.
    - lia.
    - rewrite Nat.mod_0_l by lia; auto.
    - discriminate.
    - apply Hny; apply Hrel in Hy; specialize (Hmax [] q ps z y eq_refl Hz Hy); cbn [app concat] in Hmax; auto. }
  assert (Eps : ps = []).
  { destruct ps as [|q' ps]; auto; exfalso.
    destruct q' as [|y q']; [apply (Hne [] (or_intror (or_introl eq_refl))); auto|].
    assert (Hy : In y p) by (apply (Hin y); cbn [concat]; apply in_or_app; right; left; auto).
    assert (Hyq : In y q).
    { assert (Hi : incl p q); [|apply Hi; auto].
      apply (NoDup_length_incl Hndq); [rewrite Hq; auto|].
      intros x Hx; apply (Hin x); cbn [concat]; apply in_or_app; auto. }
    cbn [concat] in Hn; apply NoDup_app_inv in Hn as (_ & _ & Hd); apply (Hd y); auto; left; auto. }
  exists q; subst ps; split; auto.
  destruct (path_turned p Hnd q 0) as [Et|Et]; auto; try lia.
  - rewrite Nat.mod_0_l by lia; auto.
  - left; exists 0; split; [lia|auto].
  - right; exists (length p - 1 - 0); rewrite rev_length; split; [lia|auto].
Qed.

Lemma short_turned (r : list G) : length p <= 2 -> Permutation p r -> turned p r.
Proof.
  intros Hl HP; destruct p as [|x [|y [|z t]]]; cbn in Hl; [| | |lia].
  - apply Permutation_nil in HP; subst; exists 0; auto.
  - apply Permutation_length_1_inv in HP; subst; exists 0; cbn; auto.
  - apply Permutation_length_2_inv in HP as [-> | ->]; [exists 0|exists 1]; cbn; auto.
Qed.

Lemma gpx2_same {S0} (sel : S0 -> option G -> list (list G) -> M (nat * S0)) s :
  (forall s o ps, ps <> [] -> must (sel s o ps) (fun r => fst r < length ps)) ->
  must (generalized_partition_2_crossover eqb ltb p p sel s) (fun r => turned p r \/ turned (rev p) r).
Proof.
  intros Hsel; destruct (Nat.le_gt_cases (length p) 2) as [H|H].
  - eapply must_mono; [|apply (gpx2_perm eqb ltb Heq sel Hsel p p s Hnd)].
    intros r HP; left; apply short_turned; auto.
  - destruct (partitions_same H) as (q & E & Hq).
    eapply must_mono; [|apply (gpx2_genes eqb ltb Heq sel Hsel p p s)].
    intros r (_ & _ & ps & qs & E' & HP & ->); rewrite E in E'; injection E' as <-.
    apply Permutation_length_1_inv in HP; subst qs; cbn; rewrite app_nil_r; auto.
Qed.

(** All permutation strategies keep the tour. *)
Lemma crossover_same fuel s : p <> [] -> length p < fuel ->
  must (crossover eqb ltb fuel s p p) (fun r => turned p r \/ turned (rev p) r).
Proof.
  intros Hne Hf.
  assert (Hpos : 1 <= length p) by (destruct p; cbn; [congruence|lia]).
  assert (Ht : turned p p) by (exists 0; split; [lia|unfold rotated; cbn; rewrite app_nil_r; auto]).
  destruct s; cbn [crossover].
  - apply gpx2_same; apply gpx2_selector_ok.
  - apply must_bind, must_choose; auto; intros x Hx; cbn.
    apply In_nth_error in Hx as (k & Hk); eapply must_mono; [|apply (scx_same k); auto].
    cbn; intros r ->; left; exists k; split; auto; apply nth_error_some_lt in Hk; lia.
  - apply must_bind, must_choose; auto; intros x Hx; cbn.
    apply In_nth_error in Hx as (k & Hk); eapply must_mono; [|apply (erx_same k); auto].
    apply nth_error_some_lt in Hk.
    cbn; intros r [-> | ->]; [left; exists k; split; auto; lia|].
    right; exists (length p - 1 - k); rewrite rev_length; split; auto; lia.
  - apply must_bind; eapply must_mono; [|apply random_range_must; auto].
    intros [a b] H; cbn in H; eapply must_mono; [|apply pmx_same; auto; lia]; cbn; intros r ->; auto.
  - apply must_bind; eapply must_mono; [|apply random_range_must; auto].
    intros [a b] H; cbn in H; eapply must_mono; [|apply ox_same; auto; lia]; cbn; intros r ->; auto.
  - eapply must_mono; [|apply cx_same; auto]; cbn; intros r ->; auto.
  - apply must_bind, must_gen_range; split; [lia|].
    intros i Hi; eapply must_mono; [|apply spx_same]; cbn; intros r ->; auto.
Qed.
End Same.

Lemma same_example :
  NoDup parent1 /\ parent1 <> [] /\ length parent1 < 11 /\
  run (sequential_constructive_crossover Nat.eqb parent1 parent1 3) [] = Some (rotated parent1 3) /\
  may (edge_recombination_crossover Nat.eqb [0; 1; 2; 3] [0; 1; 2; 3] 1) (rotated (rev [0; 1; 2; 3]) 2).
Proof.
  split; [exact (proj1 (proj1 (proj2 doc_parents_perm)))|]; split; [discriminate|]; split; [repeat constructor|].
  split; [vm_compute; reflexivity|].
  assert (T : forall t, run (edge_recombination_crossover Nat.eqb [0; 1; 2; 3] [0; 1; 2; 3] 1) [t] = Some [1; 0; 3; 2] ->
    may (edge_recombination_crossover Nat.eqb [0; 1; 2; 3] [0; 1; 2; 3] 1) [1; 0; 3; 2]).
  { intros t H; eapply run_may; [|exact H]; apply (erx_spec Nat.eqb Nat.eqb_eq); auto.
    - repeat constructor; cbn; intuition discriminate.
    - cbn; auto. }
  first [apply (T 0%N); vm_compute; reflexivity|apply (T 1%N); vm_compute; reflexivity].
Qed.
