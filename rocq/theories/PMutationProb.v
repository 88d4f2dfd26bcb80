(** * PMutationProb: the laws of the mutations (C29). *)
From Coq Require Import List Bool Arith NArith Reals Lia Lra Permutation.
From Verif Require Import Rnd Prob LRnd LProb MOperators MMutation Spec LGenes POperatorsNeighbors
  PCrossoverPmx PCrossoverOx POperatorsRandom PMutation.
Import ListNotations.

Lemma prob_bind_supp {A B} (m : M A) (f : A -> M B) P Q :
  (forall a, may m a -> exists v, f a = Ret v /\ P v = Q a) -> prob (bind m f) P = prob m Q.
Proof.
  induction m as [a|e|n k IH|n k IH]; intros H; cbn; auto.
  - destruct (H a eq_refl) as (v & -> & E); cbn; rewrite E; auto.
  - f_equal; apply Rsum_ext; intros i Hi; apply IH; intros a Ha; apply H; exists (N.of_nat i); split; auto; lia.
  - f_equal; apply map_ext_in; intros i Hi; apply in_seq in Hi.
    apply IH; intros a Ha; apply H; exists (N.of_nat i); split; auto; lia.
Qed.

Lemma prob_ext_supp {A} (m : M A) P Q : (forall a, may m a -> P a = Q a) -> prob m P = prob m Q.
Proof.
  induction m as [a|e|n k IH|n k IH]; intros H; cbn; auto.
  - rewrite (H a eq_refl); auto.
  - f_equal; apply Rsum_ext; intros i Hi; apply IH; intros a Ha; apply H; exists (N.of_nat i); split; auto; lia.
  - f_equal; apply map_ext_in; intros i Hi; apply in_seq in Hi.
    apply IH; intros a Ha; apply H; exists (N.of_nat i); split; auto; lia.
Qed.

Lemma random_pair_prob_or n P Q :
  (2 <= n)%nat -> (forall r, P r && Q r = false) ->
  prob (random_pair n) (fun r => P r || Q r) = (prob (random_pair n) P + prob (random_pair n) Q)%R.
Proof.
  intros Hn HPQ; rewrite !prob_expect; unfold random_pair, massert.
  rewrite (proj2 (Nat.leb_le 2 n)) by lia; cbn [bind].
  rewrite !expect_bind, !expect_gen_range by lia.
  unfold Rdiv; rewrite <- Rmult_plus_distr_r, <- Rsum_plus; f_equal; apply Rsum_ext; intros i Hi.
  rewrite !expect_bind, !expect_gen_range by lia.
  unfold Rdiv; rewrite <- Rmult_plus_distr_r, <- Rsum_plus; f_equal; apply Rsum_ext; intros j Hj.
  cbn [expect]; set (r := ((0 + i)%nat, _)); specialize (HPQ r).
  destruct (P r), (Q r); cbn in *; try discriminate; lra.
Qed.

Lemma random_pair_prob2 n i j :
  (i < n)%nat -> (j < n)%nat -> i <> j ->
  prob (random_pair n) (fun r => (Nat.eqb (fst r) i && Nat.eqb (snd r) j) || (Nat.eqb (fst r) j && Nat.eqb (snd r) i))
  = (2 / (INR n * (INR n - 1)))%R.
Proof.
  intros Hi Hj Hij; rewrite random_pair_prob_or; [|lia|].
  - rewrite !random_pair_prob by auto; field.
    assert (2 <= INR n)%R by (replace 2%R with (INR 2) by reflexivity; apply le_INR; lia); lra.
  - intros r; destruct (Nat.eqb_spec (fst r) i); destruct (Nat.eqb_spec (fst r) j);
    rewrite ?andb_false_r; cbn [andb]; auto; lia.
Qed.

Section Law.
Context {G : Type}.
Implicit Types l r : list G.

Lemma rearranged_inj l r s1 s2 : NoDup l -> rearranged s1 l r -> rearranged s2 l r ->
  forall k, (s1 k < length l)%nat -> s1 k = s2 k.
Proof.
  intros Hn H1 H2 k Hk; destruct (nth_error_lt l _ Hk) as [g Hg].
  apply (NoDup_nth_inj l _ _ g); auto; rewrite <- H2, H1; auto.
Qed.

Lemma eqb_pair_spec (x y a b : nat) : (Nat.eqb x a && Nat.eqb y b = true) <-> (x = a /\ y = b).
Proof. rewrite andb_true_iff, !Nat.eqb_eq; tauto. Qed.

Lemma bool_iff (a b : bool) : (a = true <-> b = true) -> a = b.
Proof. destruct a, b; intuition. Qed.

Ltac cases := repeat (match goal with
  | H : context [?a =? ?b] |- _ => destruct (Nat.eqb_spec a b)
  | H : context [?a <=? ?b] |- _ => destruct (Nat.leb_spec a b)
  | H : context [?a <? ?b] |- _ => destruct (Nat.ltb_spec a b)
  end; cbn [andb] in *; try (exfalso; lia)); try lia.

Lemma swap_mutation_law l i j (P : list G -> bool) :
  NoDup l -> i < length l -> j < length l -> i <> j ->
  (forall r, P r = true <-> rearranged (swap_src i j) l r) ->
  prob (swap_mutation l) P = (2 / (INR (length l) * (INR (length l) - 1)))%R.
Proof.
  intros Hn Hi Hj Hij HP; unfold swap_mutation; rewrite (proj2 (Nat.ltb_ge _ _)) by lia.
  rewrite <- (random_pair_prob2 (length l) i j) by auto; apply prob_bind_supp; intros [x y] Hm.
  apply (must_may _ _ _ (random_pair_must (length l) ltac:(lia))) in Hm as (Hx & Hy & Hxy); cbn [fst snd] in *.
  destruct (nth_error_lt l x Hx) as [a Ha]; destruct (nth_error_lt l y Hy) as [b Hb].
  rewrite (swap_ok _ _ _ _ _ Ha Hb); eexists; split; [reflexivity|].
  pose proof (swap_rearranged l x y a b Ha Hb) as Hr.
  apply bool_iff; rewrite HP, orb_true_iff, !eqb_pair_spec; split.
  - intros Hr'; pose proof (rearranged_inj _ _ _ _ Hn Hr Hr') as E.
    pose proof (E x) as E1; pose proof (E y) as E2; clear E HP Hr Hr'; unfold swap_src in *; cases.
  - intros [[-> ->]|[-> ->]]; auto. intros k; rewrite Hr; f_equal; unfold swap_src.
    destruct (Nat.eqb_spec k i); destruct (Nat.eqb_spec k j); subst; lia.
Qed.

Lemma insertion_mutation_law l i j (P : list G -> bool) :
  NoDup l -> i < j -> j < length l ->
  (forall r, P r = true <-> rearranged (move_src j i) l r) ->
  prob (insertion_mutation l) P = (2 / (INR (length l) * (INR (length l) - 1)))%R.
Proof.
  intros Hn Hij Hj HP; unfold insertion_mutation; rewrite (proj2 (Nat.ltb_ge _ _)) by lia.
  rewrite <- (random_pair_prob2 (length l) i j) by lia; apply prob_bind_supp; intros [x y] Hm.
  apply (must_may _ _ _ (random_pair_must (length l) ltac:(lia))) in Hm as (Hx & Hy & Hxy); cbn [fst snd] in *.
  assert (Hp : exists p q, (if y <? x then (y, x) else (x, y)) = (p, q) /\ p < q /\ q < length l /\
    ((p = x /\ q = y) \/ (p = y /\ q = x))).
  { destruct (Nat.ltb_spec y x); [exists y, x|exists x, y]; repeat split; auto; lia. }
  destruct Hp as (p & q & -> & H1 & H2 & Hpq).
  rewrite slice_ok by lia; cbn [bind]; fold (segment l p (q + 1)).
  destruct (rotate_rearranged l p q H1 H2) as (s' & -> & Hs & _ & Hr); cbn [bind].
  rewrite copy_range_ok by (auto; lia); eexists; split; [reflexivity|].
  apply bool_iff; rewrite HP, orb_true_iff, !eqb_pair_spec.
  transitivity (p = i /\ q = j); [|lia]; split.
  - intros Hr'; pose proof (rearranged_inj _ _ _ _ Hn Hr Hr') as E; clear Hr Hr' HP Hs Hpq.
    assert (E0 : p = i).
    { pose proof (E p) as E1; pose proof (E i) as E2; clear E; unfold move_src in *; cases. }
    split; auto; subst p; pose proof (E i) as E1; unfold move_src in E1; rewrite Nat.eqb_refl in E1; auto.
  - intros [-> ->]; auto.
Qed.

Lemma duplicate_mutation_law l s t (P : list G -> bool) :
  NoDup l -> s < length l -> t < length l -> s <> t ->
  (forall r, P r = true <-> rearranged (copy_src s t) l r) ->
  prob (duplicate_mutation l) P = (1 / (INR (length l) * (INR (length l) - 1)))%R.
Proof.
  intros Hn Hi Hj Hij HP; unfold duplicate_mutation; rewrite (proj2 (Nat.ltb_ge _ _)) by lia.
  rewrite <- (random_pair_prob (length l) s t) by auto; apply prob_bind_supp; intros [x y] Hm.
  apply (must_may _ _ _ (random_pair_must (length l) ltac:(lia))) in Hm as (Hx & Hy & Hxy); cbn [fst snd] in *.
  destruct (nth_error_lt l x Hx) as [a Ha]; rewrite (idx_some _ _ _ Ha); cbn [bind].
  rewrite set_ok by auto; eexists; split; [reflexivity|].
  pose proof (copy_rearranged l x y a Hy Ha) as Hr.
  apply bool_iff; rewrite HP, eqb_pair_spec; split.
  - intros Hr'; pose proof (rearranged_inj _ _ _ _ Hn Hr Hr') as E.
    pose proof (E y) as E1; pose proof (E t) as E2; clear E HP Hr Hr'; unfold copy_src in *; cases.
  - intros [-> ->]; auto.
Qed.

Lemma inversion_mutation_law l a b (P : list G -> bool) :
  NoDup l -> a + 2 <= b -> b <= length l ->
  (forall r, P r = true <-> rearranged (reverse_src a b) l r) ->
  prob (inversion_mutation l) P = (1 / (INR (length l - 1) * INR (length l - (b - a) + 1)))%R.
Proof.
  intros Hn Ha Hb HP; unfold inversion_mutation; rewrite (proj2 (Nat.ltb_ge _ _)) by lia.
  replace (length l - 1) with (length l - 2 + 1) by lia.
  rewrite <- (bounded_random_range_prob (length l) 2 (length l) a (b - a)) by lia.
  replace (a + (b - a)) with b by lia.
  apply prob_bind_supp; intros [x y] Hm.
  apply (must_may _ _ _ (bounded_random_range_must (length l) 2 (length l) ltac:(lia) ltac:(lia))) in Hm as (H1 & H2 & H3).
  cbn [fst snd] in *.
  rewrite slice_ok by lia; cbn [bind]; fold (segment l x y).
  rewrite copy_range_ok by (try rewrite rev_length, segment_length; lia).
  eexists; split; [reflexivity|].
  pose proof (reverse_rearranged l x y H1 H2) as Hr.
  apply bool_iff; rewrite HP, eqb_pair_spec; split.
  - intros Hr'; pose proof (rearranged_inj _ _ _ _ Hn Hr Hr') as E; clear HP Hr Hr'.
    pose proof (E x) as E1; pose proof (E a) as E2; clear E.
    unfold reverse_src in *; cases.
  - intros [-> ->]; auto.
Qed.

End Law.

Lemma insertion_first_to_last : exists (l r : list nat) (s t : nat),
  NoDup l /\ s < length l /\ t < length l /\ s <> t /\
  rearranged (move_src s t) l r /\ ~ may (insertion_mutation l) r.
Proof.
  exists [0; 1; 2], [1; 2; 0], 0, 2.
  assert (Hn : NoDup [0; 1; 2]) by (repeat constructor; cbn; intuition discriminate).
  assert (Hr : rearranged (move_src 0 2) [0; 1; 2] [1; 2; 0]).
  { intros [|[|[|k]]]; try reflexivity. }
  repeat split; auto; try (cbn; lia).
  apply (insertion_no_forward _ _ 0 2); auto; cbn; lia.
Qed.

Section Statements.
Context {G : Type}.
Lemma mutate_perm_length (l : list G) s : s <> Duplicate ->
  must (mutate s l) (fun r => Permutation l r /\ length r = length l).
Proof.
  intros Hs; eapply must_mono; [|apply mutate_perm; eauto].
  intros r Hr; split; auto; symmetry; apply Permutation_length; auto.
Qed.
Lemma swap_effect (l : list G) : 2 <= length l -> must (swap_mutation l) (fun r =>
    exists i j, i < length l /\ j < length l /\ i <> j /\ rearranged (swap_src i j) l r).
Proof. intros H; eapply must_mono; [|apply swap_mutation_spec; auto]; cbn; tauto. Qed.
Lemma inversion_effect (l : list G) : 2 <= length l -> must (inversion_mutation l) (fun r =>
    exists a b, a + 2 <= b /\ b <= length l /\ rearranged (reverse_src a b) l r).
Proof. intros H; eapply must_mono; [|apply inversion_mutation_spec; auto]; cbn; tauto. Qed.
Lemma scramble_effect (l : list G) : 2 <= length l -> must (scramble_mutation l) (fun r =>
    exists a b, a + 2 <= b /\ b <= length l /\ scrambled a b l r).
Proof. intros H; eapply must_mono; [|apply scramble_mutation_spec; auto]; cbn; tauto. Qed.
Lemma insertion_effect (l : list G) : 2 <= length l -> must (insertion_mutation l) (fun r =>
    exists i j, i < j /\ j < length l /\ rearranged (move_src j i) l r).
Proof. intros H; eapply must_mono; [|apply insertion_mutation_spec; auto]; cbn; tauto. Qed.
End Statements.
