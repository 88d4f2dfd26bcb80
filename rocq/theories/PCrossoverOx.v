(** * PCrossoverOx: proofs about OX. *)
From Coq Require Import List Bool Arith NArith Lia Permutation.
From Verif Require Import Rnd LRnd MOperators MCrossover Spec POperatorsNeighbors LGenes PCrossoverPmx.
Import ListNotations.

Lemma filter_perm {A} (f : A -> bool) l l' : Permutation l l' -> Permutation (filter f l) (filter f l').
Proof.
  induction 1 as [|x l l' H IH|x y l|l l' l'' H IH H' IH']; cbn; auto.
  - destruct (f x); auto.
  - destruct (f x); destruct (f y); auto; apply perm_swap.
  - etransitivity; eauto.
Qed.

Lemma filter_all {A} (f : A -> bool) l : (forall x, In x l -> f x = true) -> filter f l = l.
Proof.
  induction l as [|h t IH]; cbn; intros H; auto.
  rewrite H by (left; auto); f_equal; apply IH; intros; apply H; right; auto.
Qed.

Lemma filter_none {A} (f : A -> bool) l : (forall x, In x l -> f x = false) -> filter f l = [].
Proof.
  induction l as [|h t IH]; cbn; intros H; auto.
  rewrite H by (left; auto); apply IH; intros; apply H; right; auto.
Qed.

Lemma rotated_length {A} (l : list A) b : length (rotated l b) = length l.
Proof. unfold rotated; rewrite app_length, Nat.add_comm, <- app_length, firstn_skipn; auto. Qed.

Lemma rotated_perm {A} (l : list A) b : Permutation l (rotated l b).
Proof. unfold rotated; rewrite <- (firstn_skipn b l) at 1; apply Permutation_app_comm. Qed.

Lemma nth_error_firstn' {A} (l : list A) b i : i < b -> nth_error (firstn b l) i = nth_error l i.
Proof.
  revert l i; induction b as [|b IH]; intros l i H; [lia|].
  destruct l as [|h t]; auto; destruct i as [|i]; cbn; auto; apply IH; lia.
Qed.

Lemma nth_error_skipn' {A} (l : list A) b i : nth_error (skipn b l) i = nth_error l (b + i).
Proof.
  revert l; induction b as [|b IH]; intros l; auto.
  destruct l as [|h t]; cbn; auto; destruct i; auto.
Qed.

Lemma nth_error_rotated {A} (l : list A) b i :
  b <= length l -> i < length l -> nth_error (rotated l b) i = nth_error l ((b + i) mod length l).
Proof.
  intros Hb Hi; unfold rotated.
  destruct (Nat.lt_ge_cases i (length l - b)) as [H|H].
  - rewrite nth_error_app1 by (rewrite skipn_length; lia).
    rewrite nth_error_skipn', Nat.mod_small by lia; auto.
  - rewrite nth_error_app2 by (rewrite skipn_length; lia).
    rewrite skipn_length, nth_error_firstn' by lia.
    replace (b + i) with (i - (length l - b) + 1 * length l) by lia.
    rewrite Nat.mod_add, Nat.mod_small by lia; auto.
Qed.

Section Ox.
Context {G : Type} (eqb : G -> G -> bool).
Hypothesis Heq : eq_ok eqb.
Variables p1 p2 : list G.
Hypothesis Hnd : NoDup p1.
Hypothesis HP : Permutation p1 p2.
Variables a b : nat.
Hypothesis Hab : a < b.
Hypothesis Hb : b <= length p1.

Let Hlen : length p2 = length p1.
Proof. symmetry; apply Permutation_length; auto. Qed.

Let n := length p1.
Let seg := segment p1 a b.
Let out g := negb (mem eqb g seg).
Let R := filter out (rotated p2 b).

Lemma ox_R_length : length R = n - (b - a).
Proof.
  assert (H : Permutation R (filter out p1)).
  { apply filter_perm; etransitivity; [symmetry; apply rotated_perm|symmetry; auto]. }
  apply Permutation_length in H; rewrite H.
  pose proof (segment_split p1 a b (Nat.lt_le_incl _ _ Hab)) as Hs.
  assert (Hn' := Hnd); rewrite Hs in Hn'.
  rewrite Hs at 1; rewrite !filter_app, !app_length.
  rewrite (filter_all out (firstn a p1)), (filter_none out (segment p1 a b)), (filter_all out (skipn b p1)).
  - cbn; rewrite firstn_length_le, skipn_length by lia; unfold n; lia.
  - intros x Hx; apply negb_true_iff, (mem_notIn eqb Heq); intros Hi.
    apply NoDup_app_r in Hn'; apply in_split in Hi as (l1 & l2 & E); fold seg in Hn'; rewrite E in Hn'.
    rewrite <- app_assoc in Hn'; apply NoDup_remove_2 in Hn'; apply Hn'; rewrite !in_app_iff; auto.
  - intros x Hx; apply negb_false_iff, (mem_In eqb Heq); auto.
  - intros x Hx; apply negb_true_iff, (mem_notIn eqb Heq); intros Hi.
    apply in_split in Hx as (l1 & l2 & E); rewrite E, <- app_assoc in Hn'; cbn in Hn'.
    apply NoDup_remove_2 in Hn'; apply Hn'; rewrite !in_app_iff; auto.
Qed.

Let c t := (b + t) mod n.

Lemma ox_c_lt t : c t < n.
Proof. apply Nat.mod_upper_bound; unfold n; lia. Qed.

Lemma ox_c_next t : c (S t) = if c t + 1 =? n then 0 else c t + 1.
Proof.
  unfold c; replace (b + S t) with (b + t + 1) by lia.
  assert (Hn0 : n <> 0) by (unfold n; lia).
  rewrite Nat.add_mod by auto; pose proof (ox_c_lt t) as H; unfold c in H.
  destruct (Nat.eq_dec n 1) as [E|E].
  - assert (E0 : (b + t) mod n = 0) by lia; rewrite E0, E; reflexivity.
  - rewrite (Nat.mod_small 1) by lia.
    destruct (Nat.eqb_spec ((b + t) mod n + 1) n) as [E'|E'].
    + rewrite E', Nat.mod_same; auto.
    + apply Nat.mod_small; lia.
Qed.

Lemma ox_c_small t : t < n -> c t = if t <? n - b then b + t else b + t - n.
Proof.
  intros Ht; unfold c; destruct (Nat.ltb_spec t (n - b)) as [H|H].
  - apply Nat.mod_small; lia.
  - assert (b <= n) by (unfold n; auto).
    replace (b + t) with (b + t - n + 1 * n) at 1 by lia.
    rewrite Nat.mod_add, Nat.mod_small by lia; auto.
Qed.

(** Partial result after [k] genes were placed. *)
Definition ox_inv (k : nat) (g : list G) : Prop :=
  length g = n /\ (forall i, a <= i < b -> nth_error g i = nth_error p1 i) /\
  (forall t, t < k -> nth_error g (c t) = nth_error R t).

Lemma ox_inv_seg k g : ox_inv k g -> segment g a b = seg.
Proof.
  intros (H1 & H2 & _); apply list_ext; intros i; unfold seg.
  rewrite !nth_error_segment by (try rewrite H1; unfold n; lia).
  destruct (Nat.ltb_spec i (b - a)); auto; apply H2; lia.
Qed.

Lemma ox_stop k : k <= n - (b - a) -> (c k =? a) = (k =? n - (b - a)).
Proof.
  intros Hk; assert (b <= n) by (unfold n; auto).
  rewrite ox_c_small by lia.
  destruct (Nat.eqb_spec k (n - (b - a))) as [E|E]; destruct (Nat.ltb_spec k (n - b)) as [H'|H'];
    [apply Nat.eqb_eq|apply Nat.eqb_eq|apply Nat.eqb_neq|apply Nat.eqb_neq]; lia.
Qed.

Lemma ox_loop_spec fuel j genome :
  j <= n -> n < j + fuel ->
  ox_inv (length (filter out (firstn j (rotated p2 b)))) genome ->
  must (ox_loop eqb fuel p2 n a b genome (c (length (filter out (firstn j (rotated p2 b))))) (c j))
    (ox_inv (n - (b - a))).
Proof.
  revert j genome; induction fuel as [|fuel IH]; intros j genome Hj Hf Hinv; [lia|].
  set (k := length (filter out (firstn j (rotated p2 b)))) in *.
  assert (Hsplit : R = filter out (firstn j (rotated p2 b)) ++ filter out (skipn j (rotated p2 b)))
    by (unfold R; rewrite <- filter_app, firstn_skipn; auto).
  assert (Hk : k <= n - (b - a)).
  { rewrite <- ox_R_length, Hsplit, app_length; unfold k; lia. }
  cbn [ox_loop]; rewrite ox_stop by auto.
  destruct (Nat.eqb_spec k (n - (b - a))) as [E|E]; [cbn; rewrite <- E; auto|].
  assert (Hrl : length (rotated p2 b) = n) by (rewrite rotated_length; auto).
  assert (Hjn : j < n).
  { destruct (Nat.eq_dec j n) as [Ej|]; [|lia].
    exfalso; apply E; rewrite <- ox_R_length; unfold k; rewrite Ej, <- Hrl, firstn_all; auto. }
  pose proof Hinv as (Hi1 & Hi2 & Hi3).
  rewrite slice_ok by (try rewrite Hi1; unfold n; lia); cbn [bind].
  fold (segment genome a b); rewrite (ox_inv_seg k) by auto.
  destruct (nth_error_lt (rotated p2 b) j) as [g Hg]; [lia|].
  assert (Hg' : nth_error p2 (c j) = Some g).
  { rewrite nth_error_rotated in Hg by lia; rewrite Hlen in Hg; auto. }
  rewrite (idx_some _ _ _ Hg'); cbn [bind].
  rewrite <- (ox_c_next j).
  assert (Hfs : firstn (S j) (rotated p2 b) = firstn j (rotated p2 b) ++ [g]).
  { apply list_ext; intros i; destruct (Nat.lt_ge_cases i j) as [H|H].
    - rewrite nth_error_firstn', nth_error_app1, nth_error_firstn' by (try rewrite firstn_length_le; lia); auto.
    - destruct (Nat.eq_dec i j) as [->|H'].
      + rewrite nth_error_firstn', nth_error_app2 by (try rewrite firstn_length_le; lia).
        rewrite firstn_length_le by lia; rewrite Nat.sub_diag; auto.
      + rewrite !(proj2 (nth_error_None _ _)); auto; [rewrite app_length|]; rewrite firstn_length_le by lia; cbn; lia. }
  pose proof (IH (S j)) as IH'; rewrite Hfs, filter_app, app_length in IH'.
  fold k in IH'.
  assert (Hf1 : filter out [g] = if negb (mem eqb g seg) then [g] else []) by reflexivity.
  rewrite Hf1 in IH'.
  destruct (negb (mem eqb g seg)) eqn:Eg; cbn [length] in IH'.
  - rewrite set_ok by (rewrite Hi1; apply ox_c_lt); cbn [bind].
    rewrite <- (ox_c_next k); replace (S k) with (k + 1) by lia; apply IH'; try lia.
    split; [rewrite upd_length; auto|]; split.
    + intros i Hi; rewrite nth_error_upd_ne; auto.
      rewrite ox_c_small by lia; destruct (Nat.ltb_spec k (n - b)); unfold n in *; lia.
    + intros t Ht; destruct (Nat.eq_dec t k) as [->|Htk].
      * rewrite nth_error_upd_eq by (rewrite Hi1; apply ox_c_lt).
        rewrite Hsplit, nth_error_app2 by (fold k; lia); fold k; rewrite Nat.sub_diag.
        assert (Hsk : exists tl, skipn j (rotated p2 b) = g :: tl).
        { pose proof (nth_error_skipn' (rotated p2 b) j 0) as H; rewrite Nat.add_0_r, Hg in H.
          destruct (skipn j (rotated p2 b)) as [|g1 tl]; [discriminate|]; injection H as ->; exists tl; auto. }
        destruct Hsk as [tl ->]; cbn [filter]; unfold out; rewrite Eg; auto.
      * rewrite nth_error_upd_ne; [apply Hi3; lia|].
        rewrite !ox_c_small by lia.
        destruct (Nat.ltb_spec k (n - b)); destruct (Nat.ltb_spec t (n - b)); unfold n in *; lia.
  - rewrite Nat.add_0_r in IH'; apply IH'; auto; lia.
Qed.

(** OX: the offspring, read cyclically from the end of the range, is the genes
    of parent 2 (read the same way) that are not in the segment, then the segment. *)
Lemma ox_spec_raw fuel :
  n < fuel ->
  must (order_crossover eqb fuel p1 p2 (a, b)) (fun r =>
    Permutation p1 r /\ length r = length p1 /\
    rotated r b = filter (fun g => negb (mem eqb g (segment p1 a b))) (rotated p2 b) ++ segment p1 a b).
Proof.
  intros Hf.
  assert (Hfin : forall r, ox_inv (n - (b - a)) r -> length r = length p1 /\ rotated r b = R ++ seg).
  { intros r (H1 & H2 & H3); split; auto.
    apply list_ext; intros i.
    destruct (Nat.lt_ge_cases i n) as [Hi|Hi].
    - rewrite nth_error_rotated by (rewrite H1; unfold n in *; lia).
      rewrite H1; fold (c i).
      destruct (Nat.lt_ge_cases i (n - (b - a))) as [H|H].
      + rewrite nth_error_app1 by (rewrite ox_R_length; auto); apply H3; auto.
      + rewrite nth_error_app2 by (rewrite ox_R_length; auto); rewrite ox_R_length.
        unfold seg; rewrite nth_error_segment by lia.
        rewrite ox_c_small by auto.
        destruct (Nat.ltb_spec i (n - b)); [unfold n in *; lia|].
        destruct (Nat.ltb_spec (i - (n - (b - a))) (b - a)); [|unfold n in *; lia].
        replace (a + (i - (n - (b - a)))) with (b + i - n) by (unfold n in *; lia).
        apply H2; unfold n in *; lia.
    - rewrite !(proj2 (nth_error_None _ _)); auto.
      + rewrite app_length, ox_R_length; unfold seg; rewrite segment_length by lia; unfold n in *; lia.
      + rewrite rotated_length, H1; auto. }
  enough (H : must (order_crossover eqb fuel p1 p2 (a, b)) (fun r => length r = length p1 /\ rotated r b = R ++ seg)).
  { eapply must_mono; [|exact H]; intros r [Hl Hr]; split; [|split; auto].
    etransitivity; [|symmetry; apply (rotated_perm r b)]; rewrite Hr; unfold R.
    (* genes outside the segment, then the segment *)
    apply NoDup_Permutation_bis; auto.
    - rewrite app_length; fold R; rewrite ox_R_length; unfold seg; rewrite segment_length by lia; unfold n; lia.
    - intros x Hx; apply in_or_app.
      destruct (mem eqb x seg) eqn:E.
      + right; apply (mem_In eqb Heq); auto.
      + left; apply filter_In; split; [|unfold out; rewrite E; auto].
        eapply Permutation_in; [apply rotated_perm|eapply Permutation_in; eauto]. }
  unfold order_crossover.
  rewrite <- Hlen, Nat.eqb_refl; cbn [massert bind]; rewrite Hlen.
  destruct (Nat.ltb_spec (length p1) 2) as [H|H].
  - cbn; split; auto.
    assert (E : p1 = p2) by (apply perm_short; auto).
    assert (a = 0 /\ b = 1 /\ length p1 = 1) as (Ea & Eb & En) by lia.
    destruct (length_one p1 En) as [x Ex].
    unfold R, out, seg; rewrite <- E, Ea, Eb, Ex; cbn; rewrite (eqb_refl eqb Heq); auto.
  - destruct (nth_error_lt p1 0) as [g0 Hg0]; [lia|].
    rewrite (idx_some _ _ _ Hg0); cbn [bind].
    rewrite (slice_ok p1 a b) by lia; cbn [bind]; fold (segment p1 a b).
    rewrite copy_range_ok; [cbn [bind]|lia|rewrite repeat_length; auto|rewrite segment_length; lia].
    fold n; replace (if negb (b =? n) then b else 0) with (c 0).
    2: { rewrite ox_c_small by (unfold n; lia); rewrite Nat.add_0_r.
         destruct (Nat.eqb_spec b n); destruct (Nat.ltb_spec 0 (n - b)); cbn; unfold n in *; lia. }
    eapply must_mono; [exact Hfin|].
    apply (ox_loop_spec fuel 0); [lia|lia|].
    split; [|split].
    + rewrite !app_length, segment_length by lia.
      rewrite firstn_length_le by (rewrite repeat_length; unfold n; lia); rewrite skipn_length, repeat_length; unfold n; lia.
    + intros i Hi.
      assert (Lf : length (firstn a (repeat g0 n)) = a) by (rewrite firstn_length_le; auto; rewrite repeat_length; unfold n; lia).
      rewrite nth_error_app2 by lia; rewrite nth_error_app1 by (rewrite Lf, segment_length; lia).
      rewrite Lf, nth_error_segment by lia.
      destruct (Nat.ltb_spec (i - a) (b - a)); [|lia]; f_equal; lia.
    + cbn; intros t Ht; lia.
Qed.

Lemma ox_spec fuel :
  length p1 < fuel ->
  must (order_crossover eqb fuel p1 p2 (a, b)) (fun r =>
    Permutation p1 r /\
    (forall i, a <= i < b -> nth_error r i = nth_error p1 i) /\
    forall keep : G -> bool, (forall g, keep g = true <-> ~ In g (segment p1 a b)) ->
      rotated r b = filter keep (rotated p2 b) ++ segment p1 a b).
Proof.
  intros Hf; eapply must_mono; [|apply ox_spec_raw; exact Hf].
  intros r (H1 & Hl & Hr); split; auto; split.
  - intros i Hi.
    assert (Hj : nth_error (rotated r b) (n - (b - a) + (i - a)) = nth_error p1 i).
    { rewrite Hr; fold seg; fold out; fold R.
      rewrite nth_error_app2 by (rewrite ox_R_length; lia); rewrite ox_R_length.
      unfold seg; rewrite nth_error_segment by lia.
      destruct (Nat.ltb_spec (n - (b - a) + (i - a) - (n - (b - a))) (b - a)); [|lia]; f_equal; lia. }
    rewrite <- Hj, nth_error_rotated by (unfold n; lia).
    f_equal; rewrite Hl; fold n.
    replace (b + (n - (b - a) + (i - a))) with (i + 1 * n) by (unfold n; lia).
    rewrite Nat.mod_add, Nat.mod_small by (unfold n; lia); auto.
  - intros keep Hk; rewrite Hr; f_equal; apply filter_ext; intros g.
    destruct (keep g) eqn:E.
    + apply Hk in E; apply negb_true_iff, (mem_notIn eqb Heq); auto.
    + apply negb_false_iff, (mem_In eqb Heq).
      destruct (in_dec (gene_dec eqb Heq) g (segment p1 a b)) as [Hi|Hi]; auto.
      apply Hk in Hi; rewrite Hi in E; discriminate.
Qed.

End Ox.

Lemma ox_same {G} (eqb : G -> G -> bool) fuel (p : list G) a b :
  eq_ok eqb -> NoDup p -> a < b -> b <= length p -> length p < fuel ->
  must (order_crossover eqb fuel p p (a, b)) (fun r => r = p).
Proof.
  intros Heq Hnd Hab Hb Hf.
  eapply must_mono; [|apply (ox_spec eqb Heq p p Hnd (Permutation_refl p) a b Hab Hb fuel Hf)].
  intros r (HP & _ & Hr).
  specialize (Hr (fun g => negb (mem eqb g (segment p a b)))).
  assert (Hs := segment_split p a b (Nat.lt_le_incl _ _ Hab)).
  assert (Hdis : forall x, In x (segment p a b) -> ~ In x (skipn b p ++ firstn a p)).
  { intros x Hx Hi; assert (Hn := Hnd); rewrite Hs in Hn.
    apply in_split in Hx as (l1 & l2 & E); rewrite E in Hn.
    rewrite <- app_assoc, app_assoc in Hn; cbn in Hn; apply NoDup_remove_2 in Hn; apply Hn.
    rewrite !in_app_iff; apply in_app_or in Hi; tauto. }
  assert (Hrot : rotated p b = (skipn b p ++ firstn a p) ++ segment p a b).
  { unfold rotated; rewrite <- app_assoc; f_equal.
    rewrite Hs at 1; rewrite app_assoc, firstn_app.
    rewrite app_length, firstn_length_le, segment_length by lia.
    replace (b - (a + (b - a))) with 0 by lia; cbn; rewrite app_nil_r, firstn_all2; auto.
    rewrite app_length, firstn_length_le, segment_length by lia; lia. }
  assert (E : rotated r b = rotated p b).
  { rewrite Hr.
    - rewrite Hrot at 1; rewrite filter_app, (filter_all _ (skipn b p ++ firstn a p)), (filter_none _ (segment p a b)).
      + rewrite app_nil_r; auto.
      + intros x Hx; apply negb_false_iff, (mem_In eqb Heq); auto.
      + intros x Hx; apply negb_true_iff, (mem_notIn eqb Heq); intros Hi; eapply Hdis; eauto.
    - intros g; rewrite negb_true_iff; apply (mem_notIn eqb Heq). }
  apply Permutation_length in HP.
  unfold rotated in E; apply (f_equal (fun l => skipn (length p - b) l)) in E as E1.
  apply (f_equal (fun l => firstn (length p - b) l)) in E as E2.
  rewrite !skipn_app, !skipn_length in E1; rewrite !firstn_app, !skipn_length in E2.
  rewrite <- HP, Nat.sub_diag in E1, E2; cbn in E1, E2.
  rewrite !skipn_all2 in E1 by (rewrite skipn_length; lia); cbn in E1.
  rewrite !app_nil_r in E2; rewrite !firstn_all2 in E2 by (rewrite skipn_length; lia).
  rewrite <- (firstn_skipn b r), <- (firstn_skipn b p), E1, E2; auto.
Qed.

Lemma ox_bad_range {G} (eqb : G -> G -> bool) fuel p1 p2 a b :
  length p1 = length p2 -> 2 <= length p1 -> b < a \/ length p1 < b ->
  must_fail (order_crossover eqb fuel p1 p2 (a, b)) Panic.
Proof.
  intros Hl H2 Hr; unfold order_crossover.
  rewrite Hl, Nat.eqb_refl; cbn [massert bind]; rewrite <- Hl.
  rewrite (proj2 (Nat.ltb_ge _ _)) by auto.
  destruct (nth_error_lt p1 0) as [g0 Hg0]; [lia|]; rewrite (idx_some _ _ _ Hg0); cbn [bind].
  apply must_fail_bind_l; unfold slice.
  destruct Hr as [Hr|Hr].
  - rewrite (proj2 (Nat.leb_gt a b)) by auto; reflexivity.
  - rewrite (proj2 (Nat.leb_gt b (length p1))) by auto; rewrite andb_false_r; reflexivity.
Qed.

(** Empty ranges. *)
Lemma ox_empty_range {G} (eqb : G -> G -> bool) fuel p1 p2 a g0 :
  length p1 = length p2 -> 2 <= length p1 -> a < length p1 -> hd_error p1 = Some g0 -> 0 < fuel ->
  must (order_crossover eqb fuel p1 p2 (a, a)) (fun r => r = repeat g0 (length p1)).
Proof.
  intros Hl H2 Ha Hg Hf; unfold order_crossover.
  rewrite Hl, Nat.eqb_refl; cbn [massert bind]; rewrite <- Hl.
  rewrite (proj2 (Nat.ltb_ge _ _)) by auto.
  assert (Hg0 : nth_error p1 0 = Some g0) by (destruct p1; auto).
  rewrite (idx_some _ _ _ Hg0); cbn [bind].
  rewrite (slice_ok p1 a a) by lia; cbn [bind].
  rewrite Nat.sub_diag; cbn [firstn].
  rewrite copy_range_ok; [cbn [bind]|lia|rewrite repeat_length; lia|rewrite Nat.sub_diag; auto].
  rewrite (proj2 (Nat.eqb_neq a (length p1))) by lia; cbn [negb].
  destruct fuel as [|fuel]; [lia|]; cbn [ox_loop]; rewrite Nat.eqb_refl; cbn.
  apply firstn_skipn.
Qed.

Lemma ox_end_range_diverges {G} (eqb : G -> G -> bool) fuel (p1 p2 : list G) :
  length p1 = length p2 -> 2 <= length p1 ->
  must_fail (order_crossover eqb fuel p1 p2 (length p1, length p1)) NoFuel.
Proof.
  intros Hl H2; unfold order_crossover.
  rewrite Hl, Nat.eqb_refl; cbn [massert bind]; rewrite <- Hl.
  rewrite (proj2 (Nat.ltb_ge _ _)) by auto.
  destruct (nth_error_lt p1 0) as [g0 Hg0]; [lia|]; rewrite (idx_some _ _ _ Hg0); cbn [bind].
  set (n := length p1) in *.
  rewrite (slice_ok p1 n n) by (unfold n; lia); cbn [bind].
  rewrite Nat.sub_diag; cbn [firstn].
  rewrite copy_range_ok; [cbn [bind]|lia|rewrite repeat_length; lia|rewrite Nat.sub_diag; auto].
  cbn [negb].
  assert (H : forall f g i1 i2, length g = n -> i1 < n -> i2 < n -> must_fail (ox_loop eqb f p2 n n n g i1 i2) NoFuel).
  { induction f as [|f IH]; intros g i1 i2 Hg H1 H3; cbn [ox_loop]; [reflexivity|].
    rewrite (proj2 (Nat.eqb_neq i1 n)) by lia.
    rewrite slice_ok by (rewrite ?Hg; lia); cbn [bind]; rewrite Nat.sub_diag; cbn [firstn].
    destruct (nth_error_lt p2 i2) as [x Hx]; [lia|]; rewrite (idx_some _ _ _ Hx); cbn [bind mem existsb negb].
    rewrite set_ok by lia; cbn [bind]; apply IH.
    - rewrite upd_length; auto.
    - destruct (Nat.eqb_spec (i1 + 1) n); lia.
    - destruct (Nat.eqb_spec (i2 + 1) n); lia. }
  apply H; try lia.
  rewrite !app_length; cbn; rewrite <- app_length, firstn_skipn, repeat_length; auto.
Qed.

Lemma ox_diverges (fuel : nat) :
  must_fail (order_crossover Nat.eqb fuel [0; 1] [0; 0] (0, 1)) NoFuel.
Proof.
  unfold order_crossover; cbn.
  assert (H : forall f i, i < 2 -> must_fail (ox_loop Nat.eqb f [0; 0] 2 0 1 [0; 0] 1 i) NoFuel).
  { induction f as [|f IH]; intros i Hi; cbn; auto.
    destruct i as [|[|i]]; [| |lia]; cbn; apply IH; lia. }
  apply H; lia.
Qed.
