(** * PShuffle: the laws of shuffle and of scramble mutation (C77). *)
From Coq Require Import List Bool Arith NArith Reals Lia Lra Permutation Factorial.
From Verif Require Import Rnd Prob LRnd LProb MOperators MMutation Spec LGenes POperatorsNeighbors
  PCrossoverPmx PCrossoverOx POperatorsRandom PMutation PMutationProb.
Import ListNotations.

Lemma NoDup_app_r {A} (l r : list A) : NoDup (l ++ r) -> NoDup r.
Proof. induction l; cbn; auto; intros H; inversion H; auto. Qed.
Lemma NoDup_app_l {A} (l r : list A) : NoDup (l ++ r) -> NoDup l.
Proof.
  induction l as [|a l IH]; cbn; intros H; [constructor|]; inversion H; subst; constructor; auto.
  intros Ha; apply H2, in_or_app; auto.
Qed.

Section Shuffle.
Context {G : Type}.

(** Positions above [i] are left alone *)
Lemma shuffle_loop_above i (l : list G) r : i < length l \/ i = 0 -> may (shuffle_loop i l) r ->
  length r = length l /\ forall k, i < k -> nth_error r k = nth_error l k.
Proof.
  revert l; induction i as [|i IH]; intros l Hi H; [cbn in H; subst; auto|].
  cbn [shuffle_loop] in H; apply may_bind in H as (j & Hj & H); apply may_bind in H as (l' & Hl' & H).
  assert (Hj' : j < S i + 1) by (apply (must_may _ (fun j => j < S i + 1) _) in Hj; auto; apply must_gen_range; split; [lia|intros; lia]).
  destruct (nth_error_lt l (S i)) as [a Ha]; [lia|]; destruct (nth_error_lt l j) as [b Hb]; [lia|].
  rewrite (swap_ok _ _ _ _ _ Ha Hb) in Hl'; cbn in Hl'; subst l'.
  destruct (IH (upd (upd l (S i) b) j a)) as [A B]; [rewrite !upd_length; lia|exact H|].
  rewrite !upd_length in A; split; auto; intros k Hk; rewrite B by lia.
  rewrite !nth_error_upd_ne by lia; auto.
Qed.

Lemma prob_zero {A} (m : M A) P Q : must m Q -> (forall a, may m a -> P a = false) -> prob m P = 0%R.
Proof.
  intros Hq H; rewrite (prob_ext_supp m P (fun _ => false) H); clear H; induction m as [a|e|n k IH|n k IH]; cbn in *; auto.
  - destruct Hq as [Hn Hq]; rewrite (Rsum_ext _ _ (fun _ => 0%R)) by (intros i Hi; apply IH, Hq; lia).
    rewrite Rsum_const; unfold Rdiv; ring.
  - destruct Hq as [Hn Hq]; destruct (N.to_nat n) as [|n'] eqn:E; [lia|]; cbn [seq map fold_right].
    rewrite (IH (N.of_nat 0) (Hq 0%N ltac:(lia))).
    assert (G0 : (0 <= fold_right Rmin 1 (map (fun i => prob (k (N.of_nat i)) (fun _ : A => false)) (seq 1 n')))%R).
    { assert (S : forall i, In i (seq 1 n') -> i < N.to_nat n) by (intros i Hi; apply in_seq in Hi; lia).
      induction (seq 1 n') as [|x t IHt]; cbn; [lra|]; apply Rmin_glb; [|apply IHt; intros; apply S; right; auto].
      rewrite IH by (apply Hq; specialize (S x (or_introl eq_refl)); lia); lra. }
    apply Rmin_left; auto.
Qed.

Lemma shuffle_loop_law i (l r : list G) P : NoDup l -> i < length l -> Permutation l r ->
  (forall k, i < k -> nth_error r k = nth_error l k) -> (forall x, P x = true <-> x = r) ->
  prob (shuffle_loop i l) P = (/ INR (fact (i + 1)))%R.
Proof.
  revert l; induction i as [|i IH]; intros l Hn Hi HP Hk HPr.
  - cbn [shuffle_loop prob]; replace (P l) with true; [cbn; lra|].
    symmetry; apply HPr; apply list_ext; intros [|k]; [|symmetry; apply Hk; lia].
    destruct l as [|x l]; [cbn in Hi; lia|]; destruct r as [|y r]; [apply Permutation_length in HP; discriminate|].
    cbn; f_equal.
    assert (l = r) by (apply list_ext; intros k; symmetry; apply (Hk (S k)); lia); subst r.
    apply Permutation_in with (x := x) in HP; [|left; auto]; destruct HP as [E|E]; auto; inversion Hn; contradiction.
  - assert (Ht : exists x, nth_error r (S i) = Some x) by (apply nth_error_lt; rewrite <- (Permutation_length HP); auto).
    destruct Ht as [x Hx].
    assert (Hj : exists j0, nth_error l j0 = Some x).
    { apply In_nth_error; eapply Permutation_in; [symmetry; exact HP|eapply nth_error_In; eauto]. }
    destruct Hj as [j0 Hj0].
    assert (Nr : NoDup r) by (eapply Permutation_NoDup; eauto).
    assert (Lj : j0 <= S i).
    { destruct (le_lt_dec j0 (S i)); auto; exfalso; rewrite <- Hk in Hj0 by auto.
      assert (j0 = S i) by (apply (NoDup_nth_inj r j0 (S i) x); auto); lia. }
    cbn [shuffle_loop]; rewrite prob_expect, expect_bind, expect_gen_range by lia.
    rewrite (Rsum_single _ j0).
    + rewrite Nat.sub_0_r, Nat.add_0_l, <- prob_expect.
      destruct (nth_error_lt l (S i) Hi) as [a Ha]; rewrite (swap_ok _ _ _ _ _ Ha Hj0); cbn [bind].
      assert (HPl : Permutation (upd (upd l (S i) x) j0 a) l) by (apply swap_perm; auto).
      rewrite IH; [|eapply Permutation_NoDup; [symmetry|]; eauto|rewrite !upd_length; lia|etransitivity; eauto| |auto].
      * replace (S i + 1) with (S (i + 1)) by lia; rewrite (fact_simpl (i + 1)), mult_INR; field.
        split; apply not_0_INR; [|lia]; apply fact_neq_0.
      * intros k Hk'; destruct (Nat.eq_dec k (S i)) as [->|Hne].
        -- rewrite nth_error_upd, !upd_length; destruct (Nat.eqb_spec j0 (S i)) as [E|E]; cbn [andb].
           ++ rewrite (proj2 (Nat.ltb_lt _ _)) by lia; subst j0; rewrite Hx; congruence.
           ++ rewrite nth_error_upd_eq by auto; auto.
        -- rewrite Hk by lia; rewrite !nth_error_upd_ne by lia; auto.
    + lia.
    + intros j Hj Hjne; rewrite Nat.add_0_l, <- prob_expect.
      destruct (nth_error_lt l (S i) Hi) as [a Ha]; destruct (nth_error_lt l j) as [b Hb]; [lia|].
      rewrite (swap_ok _ _ _ _ _ Ha Hb); cbn [bind].
      apply prob_zero with (Q := fun r => Permutation (upd (upd l (S i) b) j a) r); [apply shuffle_loop_spec; rewrite !upd_length; lia|].
      intros y Hy; apply shuffle_loop_above in Hy as [_ Hy]; [|rewrite !upd_length; lia].
      destruct (P y) eqn:E; auto; apply HPr in E; subst y; exfalso.
      specialize (Hy (S i) ltac:(lia)); rewrite Hx, nth_error_upd, !upd_length in Hy; destruct (Nat.eqb_spec j (S i)) as [E|E]; cbn [andb] in Hy.
      * rewrite (proj2 (Nat.ltb_lt _ _)) in Hy by lia; subst j; injection Hy as ->; apply Hjne, (NoDup_nth_inj l _ _ a); auto.
      * rewrite nth_error_upd_eq in Hy by auto; injection Hy as ->; apply Hjne, (NoDup_nth_inj l _ _ b); auto.
Qed.

Lemma shuffle_law (l r : list G) P : NoDup l -> Permutation l r -> (forall x, P x = true <-> x = r) ->
  prob (shuffle l) P = (/ INR (fact (length l)))%R.
Proof.
  intros Hn HP HPr; unfold shuffle; destruct l as [|x l].
  - apply Permutation_nil in HP; subst r; cbn; rewrite (proj2 (HPr []) eq_refl); lra.
  - rewrite (shuffle_loop_law _ _ r); auto.
    + cbn [length]; do 3 f_equal; lia.
    + cbn; lia.
    + intros k Hk; rewrite (proj2 (nth_error_None r k)), (proj2 (nth_error_None (x :: l) k)); auto; rewrite <- ?(Permutation_length HP); cbn [length] in *; lia.
Qed.

Lemma scramble_law (l r : list G) P (ind : nat -> nat -> bool) : NoDup l -> 2 <= length l ->
  (forall x, P x = true <-> x = r) -> (forall a b, ind a b = true <-> scrambled a b l r) ->
  prob (scramble_mutation l) P =
    Rsum (length l - 1) (fun k => Rsum (length l - (k + 2) + 1) (fun a =>
      if ind a (a + (k + 2)) then (/ (INR (length l - 1) * INR (length l - (k + 2) + 1) * INR (fact (k + 2))))%R else 0%R)).
Proof.
  intros Hn Hl HPr Hind; unfold scramble_mutation; rewrite (proj2 (Nat.ltb_ge _ _)) by auto.
  unfold bounded_random_range; rewrite prob_expect, expect_bind, expect_bind, expect_gen_range_incl by lia.
  replace (S (length l) - 2) with (length l - 1) by lia; unfold Rdiv; rewrite <- Rsum_mult_r.
  apply Rsum_ext; intros k Hk; unfold massert; rewrite (proj2 (Nat.leb_le _ _)) by lia; cbn [bind].
  rewrite expect_bind, expect_gen_range_incl by lia; unfold Rdiv; rewrite Rmult_assoc, <- Rsum_mult_r.
  replace (S (length l - (2 + k)) - 0) with (length l - (k + 2) + 1) by lia.
  apply Rsum_ext; intros a Ha; cbn [expect]; rewrite Nat.add_0_l; replace (2 + k) with (k + 2) by lia.
  set (b := a + (k + 2)); assert (Hb : a + 2 <= b /\ b <= length l) by (unfold b; lia).
  assert (Hba : b - a = k + 2) by (unfold b; lia).
  cbn beta iota; rewrite slice_ok by lia; cbn [bind]; fold (segment l a b).
  assert (Ls : length (segment l a b) = k + 2) by (rewrite segment_length; lia).
  assert (Ns : NoDup (segment l a b)).
  { unfold segment; rewrite <- (firstn_skipn a l) in Hn; apply NoDup_app_r in Hn.
    rewrite <- (firstn_skipn (b - a) (skipn a l)) in Hn; apply NoDup_app_l in Hn; auto. }
  rewrite <- prob_expect.
  rewrite (prob_bind_supp _ _ _ (fun s => P (firstn a l ++ s ++ skipn b l))).
  2: { intros s Hs; pose proof (must_may _ _ _ (shuffle_spec (segment l a b)) Hs) as Hp; apply Permutation_length in Hp.
       rewrite copy_range_ok by lia; eexists; split; reflexivity. }
  assert (Nz : INR (length l - 1) <> 0%R /\ INR (length l - (k + 2) + 1) <> 0%R /\ INR (fact (k + 2)) <> 0%R).
  { repeat split; apply not_0_INR; try lia; apply fact_neq_0. }
  destruct (ind a b) eqn:E.
  - apply Hind in E as (E1 & E2 & E3).
    rewrite (shuffle_law _ (segment r a b)); auto.
    + rewrite Ls; field; tauto.
    + intros s; rewrite HPr; split.
      * intros <-; symmetry.
        destruct (le_lt_dec (b - a) (length s)) as [L|L].
        { rewrite !app_length, firstn_length_le, skipn_length in E1 by lia; apply segment_splice; lia. }
        rewrite !app_length, firstn_length_le, skipn_length in E1 by lia; lia.
      * intros ->; apply list_ext; intros j; rewrite nth_error_splice by (try rewrite segment_length; lia).
        destruct (Nat.leb_spec a j); destruct (Nat.ltb_spec j b); cbn [andb]; try (symmetry; apply E2; lia).
        rewrite nth_error_segment by lia; rewrite (proj2 (Nat.ltb_lt _ _)) by lia; f_equal; lia.
  - rewrite (prob_zero _ _ (fun s => Permutation (segment l a b) s)); [ring|apply shuffle_spec|].
    intros s Hs; pose proof (must_may _ _ _ (shuffle_spec (segment l a b)) Hs) as Hp; cbn beta in Hp.
    pose proof (Permutation_length Hp) as Hpl; rewrite Ls in Hpl.
    destruct (P _) eqn:E'; auto; exfalso; apply HPr in E'; subst r.
    assert (ind a b = true); [|congruence]; apply Hind; split; [apply splice_length; lia|]; split.
    + intros j Hj; rewrite nth_error_splice by lia.
      destruct (Nat.leb_spec a j); destruct (Nat.ltb_spec j b); cbn [andb]; auto; lia.
    + rewrite segment_splice by lia; auto.
Qed.

Lemma scramble_identity_law (l : list G) P : NoDup l -> 2 <= length l -> (forall x, P x = true <-> x = l) ->
  prob (scramble_mutation l) P = (Rsum (length l - 1) (fun k => / INR (fact (k + 2))) / INR (length l - 1))%R.
Proof.
  intros Hn Hl HP; rewrite (scramble_law l l P (fun _ _ => true)); auto; [|intros; split; auto; intros _; repeat split; auto].
  unfold Rdiv; rewrite <- Rsum_mult_r; apply Rsum_ext; intros k Hk.
  rewrite Rsum_const; field; repeat split; apply not_0_INR; try lia; apply fact_neq_0.
Qed.
End Shuffle.
