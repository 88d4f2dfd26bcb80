(** * PMutation: proofs about src/operators/mutation.rs (C24-C28). *)
From Coq Require Import List Bool Arith NArith Lia Permutation.
From Verif Require Import Rnd LRnd MOperators MMutation Spec LGenes POperatorsNeighbors PCrossoverPmx PCrossoverOx.
From Verif Require Import POperatorsRandom.
Import ListNotations.

Section Mut.
Context {G : Type}.
Implicit Types l r : list G.

Lemma rearranged_fun src l r r' : rearranged src l r -> rearranged src l r' -> r = r'.
Proof. intros H H'; apply list_ext; intros k; rewrite H, H'; reflexivity. Qed.

Lemma swap_rearranged l i j a b :
  nth_error l i = Some a -> nth_error l j = Some b ->
  rearranged (swap_src i j) l (upd (upd l i b) j a).
Proof.
  intros Ha Hb k; rewrite !nth_error_upd, !upd_length; unfold swap_src.
  pose proof (nth_error_some_lt _ _ _ Ha); pose proof (nth_error_some_lt _ _ _ Hb).
  rewrite (Nat.eqb_sym k i), (Nat.eqb_sym k j).
  destruct (Nat.eqb_spec i k) as [->|Hi]; destruct (Nat.eqb_spec j k) as [->|Hj]; cbn [andb].
  - rewrite (proj2 (Nat.ltb_lt _ _)) by auto; auto.
  - rewrite (proj2 (Nat.ltb_lt _ _)) by auto; auto.
  - rewrite (proj2 (Nat.ltb_lt _ _)) by auto; auto.
  - reflexivity.
Qed.

Lemma swap_mutation_spec l : 2 <= length l ->
  must (swap_mutation l) (fun r => Permutation l r /\
    exists i j, i < length l /\ j < length l /\ i <> j /\ rearranged (swap_src i j) l r).
Proof.
  intros Hl; unfold swap_mutation; rewrite (proj2 (Nat.ltb_ge _ _)) by auto.
  eapply must_bind_intro; [apply random_pair_must; auto|].
  intros [i j] (Hi & Hj & Hij); cbn [fst snd] in *.
  destruct (nth_error_lt l i Hi) as [a Ha]; destruct (nth_error_lt l j Hj) as [b Hb].
  rewrite (swap_ok _ _ _ _ _ Ha Hb); cbn; split; [symmetry; apply swap_perm; auto|].
  exists i, j; repeat split; auto; apply swap_rearranged; auto.
Qed.

Lemma swap_mutation_reach l r i j :
  i < length l -> j < length l -> i <> j -> rearranged (swap_src i j) l r -> may (swap_mutation l) r.
Proof.
  intros Hi Hj Hij Hr; unfold swap_mutation; rewrite (proj2 (Nat.ltb_ge _ _)) by lia.
  apply may_bind; exists (i, j); split; [apply random_pair_reach; auto|].
  destruct (nth_error_lt l i Hi) as [a Ha]; destruct (nth_error_lt l j Hj) as [b Hb].
  rewrite (swap_ok _ _ _ _ _ Ha Hb); cbn; eapply rearranged_fun; eauto; apply swap_rearranged; auto.
Qed.

Lemma nth_error_splice l a b src k :
  a <= b -> b <= length l -> length src = b - a ->
  nth_error (firstn a l ++ src ++ skipn b l) k =
  if (a <=? k) && (k <? b) then nth_error src (k - a) else nth_error l k.
Proof.
  intros H1 H2 H3.
  destruct (Nat.leb_spec a k) as [Hk|Hk]; cbn [andb].
  - rewrite nth_error_app2; rewrite firstn_length_le by lia; [|lia].
    destruct (Nat.ltb_spec k b) as [Hb|Hb].
    + rewrite nth_error_app1; auto; lia.
    + rewrite nth_error_app2 by lia; rewrite nth_error_skipn'; f_equal; lia.
  - rewrite nth_error_app1 by (rewrite firstn_length_le; lia); apply nth_error_firstn'; auto.
Qed.

Lemma splice_perm l a b src :
  a <= b -> b <= length l -> Permutation (segment l a b) src ->
  Permutation l (firstn a l ++ src ++ skipn b l).
Proof.
  intros H1 H2 HP; rewrite (segment_split l a b) at 1 by auto.
  apply Permutation_app_head, Permutation_app_tail; auto.
Qed.

Lemma nth_error_rev l k : k < length l -> nth_error (rev l) k = nth_error l (length l - 1 - k).
Proof.
  induction l as [|h t IH]; cbn [rev length]; [lia|]; intros Hk.
  destruct (Nat.eq_dec k (length t)) as [->|Hne].
  - rewrite nth_error_app2 by (rewrite rev_length; auto); rewrite rev_length, Nat.sub_diag.
    replace (S (length t) - 1 - length t) with 0 by lia; reflexivity.
  - rewrite nth_error_app1 by (rewrite rev_length; lia); rewrite IH by lia.
    replace (S (length t) - 1 - k) with (S (length t - 1 - k)) by lia; reflexivity.
Qed.

Lemma reverse_rearranged l a b :
  a <= b -> b <= length l ->
  rearranged (reverse_src a b) l (firstn a l ++ rev (segment l a b) ++ skipn b l).
Proof.
  intros H1 H2 k; rewrite nth_error_splice; auto; [|rewrite rev_length; apply segment_length; auto].
  unfold reverse_src; destruct (Nat.leb_spec a k); cbn [andb]; auto.
  destruct (Nat.ltb_spec k b); auto.
  rewrite nth_error_rev; rewrite segment_length by auto; [|lia].
  rewrite nth_error_segment by auto; rewrite (proj2 (Nat.ltb_lt _ _)) by lia; f_equal; lia.
Qed.

Lemma inversion_mutation_spec l : 2 <= length l ->
  must (inversion_mutation l) (fun r => Permutation l r /\
    exists a b, a + 2 <= b /\ b <= length l /\ rearranged (reverse_src a b) l r).
Proof.
  intros Hl; unfold inversion_mutation; rewrite (proj2 (Nat.ltb_ge _ _)) by auto.
  eapply must_bind_intro; [apply bounded_random_range_must; auto|].
  intros [a b] (H1 & H2 & H3); cbn [fst snd] in *.
  rewrite slice_ok by auto; cbn [bind]; fold (segment l a b).
  rewrite copy_range_ok; auto; [|rewrite rev_length; apply segment_length; auto].
  cbn; split; [apply splice_perm; auto; apply Permutation_rev|].
  exists a, b; split; [lia|split; auto]; apply reverse_rearranged; auto.
Qed.

Lemma inversion_mutation_reach l r a b :
  a + 2 <= b -> b <= length l -> rearranged (reverse_src a b) l r -> may (inversion_mutation l) r.
Proof.
  intros H1 H2 Hr; unfold inversion_mutation; rewrite (proj2 (Nat.ltb_ge _ _)) by lia.
  apply may_bind; exists (a, b); split; [apply bounded_random_range_reach; lia|].
  rewrite slice_ok by lia; cbn [bind]; fold (segment l a b).
  rewrite copy_range_ok; try lia; [|rewrite rev_length; apply segment_length; lia].
  cbn; eapply rearranged_fun; eauto; apply reverse_rearranged; lia.
Qed.

(** Shuffling. *)
Lemma shuffle_loop_spec i l : i < length l \/ i = 0 ->
  must (shuffle_loop i l) (fun r => Permutation l r).
Proof.
  revert l; induction i as [|i IH]; intros l Hi; cbn -[gen_range]; auto.
  apply must_bind, must_gen_range; split; [lia|]; intros j Hj.
  assert (Hi' : S i < length l) by lia.
  destruct (nth_error_lt l (S i) Hi') as [a Ha]; destruct (nth_error_lt l j) as [b Hb]; [lia|].
  rewrite (swap_ok _ _ _ _ _ Ha Hb); cbn [bind].
  eapply must_mono; [|apply IH; left; rewrite !upd_length; lia].
  intros r Hr; etransitivity; [symmetry; exact (swap_perm l (S i) j a b Ha Hb)|exact Hr].
Qed.

Lemma shuffle_spec l : must (shuffle l) (fun r => Permutation l r).
Proof. apply shuffle_loop_spec; destruct l; cbn; lia. Qed.

Lemma firstn_snoc l i x : nth_error l i = Some x -> firstn (S i) l = firstn i l ++ [x].
Proof.
  revert i; induction l as [|h t IH]; intros [|i]; cbn; try discriminate.
  - intros [= ->]; auto.
  - intros H; f_equal; apply IH; auto.
Qed.

Lemma skipn_nth l i x : nth_error l i = Some x -> skipn i l = x :: skipn (S i) l.
Proof.
  revert i; induction l as [|h t IH]; intros [|i]; cbn; try discriminate.
  - intros [= ->]; auto.
  - intros H; rewrite (IH _ H); auto.
Qed.

Lemma shuffle_loop_reach i l r :
  i < length l -> Permutation (firstn (S i) l) (firstn (S i) r) -> skipn (S i) l = skipn (S i) r ->
  may (shuffle_loop i l) r.
Proof.
  revert l; induction i as [|i IH]; intros l Hi HP Hs.
  - cbn [shuffle_loop may].
    rewrite <- (firstn_skipn 1 l), <- (firstn_skipn 1 r), Hs; f_equal.
    apply perm_short; auto; rewrite firstn_length; lia.
  - cbn -[gen_range firstn skipn].
    assert (Hlr : length r = length l).
    { rewrite <- (firstn_skipn (S (S i)) l), <- (firstn_skipn (S (S i)) r), !app_length, Hs.
      rewrite (Permutation_length HP); reflexivity. }
    destruct (nth_error_lt r (S i)) as [x Hx]; [lia|].
    assert (Hin : In x (firstn (S (S i)) l)).
    { eapply Permutation_in; [symmetry; exact HP|]; rewrite (firstn_snoc _ _ _ Hx), in_app_iff; cbn; auto. }
    apply In_nth_error in Hin as [j Hj].
    assert (Hjlt : j < S (S i)) by (apply nth_error_some_lt in Hj; rewrite firstn_length in Hj; lia).
    rewrite nth_error_firstn' in Hj by auto.
    apply may_bind; exists j; split; [apply may_gen_range; lia|].
    destruct (nth_error_lt l (S i) Hi) as [a Ha].
    rewrite (swap_ok _ _ _ _ _ Ha Hj); cbn [bind].
    set (l' := upd (upd l (S i) x) j a).
    assert (Hl' : length l' = length l) by (unfold l'; rewrite !upd_length; auto).
    assert (Hrear : rearranged (swap_src (S i) j) l l') by (apply swap_rearranged; auto).
    assert (Hl'i : nth_error l' (S i) = Some x).
    { rewrite Hrear; unfold swap_src; rewrite Nat.eqb_refl; auto. }
    assert (Htail : skipn (S (S i)) l' = skipn (S (S i)) l).
    { apply list_ext; intros k; rewrite !nth_error_skipn', Hrear; unfold swap_src.
      rewrite (proj2 (Nat.eqb_neq _ _)), (proj2 (Nat.eqb_neq _ _)) by lia; auto. }
    apply IH; [lia| |].
    + assert (HPl : Permutation l' l) by (apply swap_perm; auto).
      assert (HP2 : Permutation (firstn (S (S i)) l') (firstn (S (S i)) l)).
      { rewrite <- (firstn_skipn (S (S i)) l'), <- (firstn_skipn (S (S i)) l), Htail in HPl.
        eapply Permutation_app_inv_r; eauto. }
      assert (HP3 : Permutation (firstn (S i) l' ++ [x]) (firstn (S i) r ++ [x])).
      { rewrite <- (firstn_snoc _ _ _ Hl'i), <- (firstn_snoc _ _ _ Hx); etransitivity; eauto. }
      eapply Permutation_app_inv_r; eauto.
    + rewrite (skipn_nth _ _ _ Hl'i), (skipn_nth _ _ _ Hx), Htail, Hs; auto.
Qed.

Lemma shuffle_reach l r : Permutation l r -> may (shuffle l) r.
Proof.
  intros HP; unfold shuffle; destruct l as [|x l].
  - apply Permutation_nil in HP as ->; cbn; auto.
  - pose proof (Permutation_length HP) as Hl; cbn [length] in Hl |- *.
    replace (S (length l) - 1) with (length l) by lia.
    apply shuffle_loop_reach; [cbn; lia| |].
    + rewrite !firstn_all2; auto; cbn [length]; lia.
    + rewrite !skipn_all2; auto; cbn [length]; lia.
Qed.

Lemma segment_splice l a b src :
  a <= b -> b <= length l -> length src = b - a -> segment (firstn a l ++ src ++ skipn b l) a b = src.
Proof.
  intros H1 H2 H3; unfold segment.
  replace a with (length (firstn a l)) at 2 by (apply firstn_length_le; lia).
  rewrite skipn_app, skipn_all, Nat.sub_diag; cbn [skipn app].
  rewrite <- H3, firstn_app, Nat.sub_diag, firstn_all; cbn [firstn]; apply app_nil_r.
Qed.

Lemma splice_length l a b src :
  a <= b -> b <= length l -> length src = b - a -> length (firstn a l ++ src ++ skipn b l) = length l.
Proof. intros H1 H2 H3; rewrite !app_length, firstn_length_le, skipn_length; lia. Qed.

Lemma scramble_mutation_spec l : 2 <= length l ->
  must (scramble_mutation l) (fun r => Permutation l r /\
    exists a b, a + 2 <= b /\ b <= length l /\ scrambled a b l r).
Proof.
  intros Hl; unfold scramble_mutation; rewrite (proj2 (Nat.ltb_ge _ _)) by auto.
  eapply must_bind_intro; [apply bounded_random_range_must; auto|].
  intros [a b] (H1 & H2 & H3); cbn [fst snd] in *.
  rewrite slice_ok by auto; cbn [bind]; fold (segment l a b).
  eapply must_bind_intro; [apply shuffle_spec|]; intros s Hs.
  assert (Hsl : length s = b - a) by (rewrite <- (Permutation_length Hs); apply segment_length; auto).
  rewrite copy_range_ok by auto; cbn; split; [apply splice_perm; auto|].
  exists a, b; split; [lia|split; auto]; split; [apply splice_length; auto|]; split.
  - intros k Hk; rewrite nth_error_splice by auto.
    destruct (Nat.leb_spec a k); destruct (Nat.ltb_spec k b); cbn [andb]; auto; lia.
  - rewrite segment_splice; auto.
Qed.

Lemma scramble_mutation_reach l r a b :
  a + 2 <= b -> b <= length l -> scrambled a b l r -> may (scramble_mutation l) r.
Proof.
  intros H1 H2 (Hlen & Hout & HP); unfold scramble_mutation; rewrite (proj2 (Nat.ltb_ge _ _)) by lia.
  apply may_bind; exists (a, b); split; [apply bounded_random_range_reach; lia|].
  rewrite slice_ok by lia; cbn [bind]; fold (segment l a b).
  apply may_bind; exists (segment r a b); split; [apply shuffle_reach; auto|].
  assert (Hsl : length (segment r a b) = b - a) by (apply segment_length; lia).
  rewrite copy_range_ok by (auto; lia); cbn.
  apply list_ext; intros k; rewrite nth_error_splice by (auto; lia).
  destruct (Nat.leb_spec a k); destruct (Nat.ltb_spec k b); cbn [andb]; try (symmetry; apply Hout; lia).
  rewrite nth_error_segment by lia; rewrite (proj2 (Nat.ltb_lt _ _)) by lia; f_equal; lia.
Qed.

(** Insertion. *)
Lemma rotate_rearranged l i j :
  i < j -> j < length l ->
  exists s', rotate_right (segment l i (j + 1)) 1 = Ret s' /\ length s' = j + 1 - i /\
    Permutation (segment l i (j + 1)) s' /\
    rearranged (move_src j i) l (firstn i l ++ s' ++ skipn (j + 1) l).
Proof.
  intros H1 H2; unfold rotate_right.
  assert (Hsl : length (segment l i (j + 1)) = j + 1 - i) by (apply segment_length; lia).
  rewrite Hsl, (proj2 (Nat.leb_le 1 (j + 1 - i))) by lia.
  set (s := segment l i (j + 1)) in *; replace (j + 1 - i - 1) with (j - i) by lia.
  assert (Hsl' : length (skipn (j - i) s ++ firstn (j - i) s) = j + 1 - i).
  { rewrite app_length, skipn_length, firstn_length_le; lia. }
  eexists; split; [reflexivity|]; split; [exact Hsl'|]; split.
  { rewrite Permutation_app_comm, firstn_skipn; auto. }
  intros k; rewrite nth_error_splice by (auto; lia); unfold move_src.
  destruct (Nat.leb_spec i k) as [Hik|Hik]; cbn [andb].
  - destruct (Nat.ltb_spec k (j + 1)) as [Hkj|Hkj].
    + destruct (Nat.eqb_spec k i) as [->|Hne].
      * rewrite nth_error_app1 by (rewrite skipn_length; lia).
        rewrite nth_error_skipn'; unfold s; rewrite nth_error_segment by lia.
        rewrite (proj2 (Nat.ltb_lt _ _)) by lia; f_equal; lia.
      * rewrite nth_error_app2; rewrite skipn_length, Hsl; [|lia].
        rewrite nth_error_firstn' by lia; unfold s; rewrite nth_error_segment by lia.
        rewrite (proj2 (Nat.ltb_lt _ _)), (proj2 (Nat.ltb_lt _ _)), (proj2 (Nat.leb_le _ _)) by lia.
        cbn [andb]; f_equal; lia.
    + rewrite (proj2 (Nat.eqb_neq k i)), (proj2 (Nat.ltb_lt i k)), (proj2 (Nat.leb_gt k j)) by lia; cbn [andb].
      rewrite (proj2 (Nat.ltb_ge k i)), andb_false_r by lia; auto.
  - rewrite (proj2 (Nat.eqb_neq k i)), (proj2 (Nat.ltb_ge i k)), (proj2 (Nat.leb_gt j k)) by lia; auto.
Qed.

Lemma insertion_mutation_spec l : 2 <= length l ->
  must (insertion_mutation l) (fun r => Permutation l r /\
    exists i j, i < j /\ j < length l /\ rearranged (move_src j i) l r).
Proof.
  intros Hl; unfold insertion_mutation; rewrite (proj2 (Nat.ltb_ge _ _)) by auto.
  eapply must_bind_intro; [apply random_pair_must; auto|].
  intros [q1 q2] (Hi & Hj & Hij); cbn [fst snd] in *.
  assert (Hp : exists i j, (if q2 <? q1 then (q2, q1) else (q1, q2)) = (i, j) /\ i < j /\ j < length l).
  { destruct (Nat.ltb_spec q2 q1); [exists q2, q1|exists q1, q2]; repeat split; auto; lia. }
  destruct Hp as (i & j & -> & H1 & H2).
  rewrite slice_ok by lia; cbn [bind]; fold (segment l i (j + 1)).
  destruct (rotate_rearranged l i j H1 H2) as (s' & -> & Hs & HP & Hr); cbn [bind].
  rewrite copy_range_ok by (auto; lia); cbn; split; [apply splice_perm; auto; lia|].
  exists i, j; auto.
Qed.

Lemma insertion_mutation_reach l r i j :
  i < j -> j < length l -> rearranged (move_src j i) l r -> may (insertion_mutation l) r.
Proof.
  intros H1 H2 Hr; unfold insertion_mutation; rewrite (proj2 (Nat.ltb_ge _ _)) by lia.
  apply may_bind; exists (i, j); split; [apply random_pair_reach; lia|].
  rewrite (proj2 (Nat.ltb_ge j i)) by lia.
  rewrite slice_ok by lia; cbn [bind]; fold (segment l i (j + 1)).
  destruct (rotate_rearranged l i j H1 H2) as (s' & -> & Hs & HP & Hr'); cbn [bind].
  rewrite copy_range_ok by (auto; lia); cbn; eapply rearranged_fun; eauto.
Qed.

(** Moving a gene forward by two or more positions is never done (distinct genes). *)
Lemma insertion_no_forward l r s t :
  NoDup l -> s + 2 <= t -> t < length l -> rearranged (move_src s t) l r -> ~ may (insertion_mutation l) r.
Proof.
  intros Hn Hs Ht Hr Hm.
  assert (Hl : 2 <= length l) by lia.
  destruct (must_may _ _ _ (insertion_mutation_spec l Hl) Hm) as (_ & i & j & Hij & Hj & Hr').
  assert (Heq : forall k, k < length l -> move_src s t k = move_src j i k).
  { intros k Hk; assert (Hk' : nth_error l (move_src s t k) = nth_error l (move_src j i k)).
    { rewrite <- Hr, <- Hr'; auto. }
    assert (move_src s t k < length l).
    { unfold move_src; destruct (k =? t); [lia|].
      destruct ((t <? k) && (k <=? s)); [lia|].
      destruct (Nat.leb_spec s k); destruct (Nat.ltb_spec k t); cbn [andb]; lia. }
    destruct (nth_error_lt l (move_src s t k)) as [g Hg]; auto.
    apply (NoDup_nth_inj l _ _ g); auto; congruence. }
  pose proof (Heq s ltac:(lia)) as E1; pose proof (Heq (s + 1) ltac:(lia)) as E2; unfold move_src in E1, E2.
  repeat match type of E1 with context [?a =? ?b] => destruct (Nat.eqb_spec a b) end;
  repeat match type of E1 with context [?a <=? ?b] => destruct (Nat.leb_spec a b) end;
  repeat match type of E1 with context [?a <? ?b] => destruct (Nat.ltb_spec a b) end;
  cbn [andb] in E1; try lia;
  repeat match type of E2 with context [?a =? ?b] => destruct (Nat.eqb_spec a b) end;
  repeat match type of E2 with context [?a <=? ?b] => destruct (Nat.leb_spec a b) end;
  repeat match type of E2 with context [?a <? ?b] => destruct (Nat.ltb_spec a b) end;
  cbn [andb] in E2; try lia.
Qed.

(** Duplicate. *)
Lemma copy_rearranged l s t g : t < length l -> nth_error l s = Some g -> rearranged (copy_src s t) l (upd l t g).
Proof.
  intros Ht Hg k; rewrite nth_error_upd; unfold copy_src; rewrite (Nat.eqb_sym k t).
  destruct (Nat.eqb_spec t k) as [->|]; cbn [andb]; auto.
  rewrite (proj2 (Nat.ltb_lt _ _)) by auto; auto.
Qed.

Lemma duplicate_mutation_spec l : 2 <= length l ->
  must (duplicate_mutation l) (fun r =>
    exists s t, s < length l /\ t < length l /\ s <> t /\ rearranged (copy_src s t) l r).
Proof.
  intros Hl; unfold duplicate_mutation; rewrite (proj2 (Nat.ltb_ge _ _)) by auto.
  eapply must_bind_intro; [apply random_pair_must; auto|].
  intros [s t] (Hi & Hj & Hij); cbn [fst snd] in *.
  destruct (nth_error_lt l s Hi) as [a Ha]; rewrite (idx_some _ _ _ Ha); cbn [bind].
  rewrite set_ok by auto; cbn; exists s, t; repeat split; auto; apply copy_rearranged; auto.
Qed.

Lemma duplicate_mutation_reach l r s t :
  s < length l -> t < length l -> s <> t -> rearranged (copy_src s t) l r -> may (duplicate_mutation l) r.
Proof.
  intros Hi Hj Hij Hr; unfold duplicate_mutation; rewrite (proj2 (Nat.ltb_ge _ _)) by lia.
  apply may_bind; exists (s, t); split; [apply random_pair_reach; auto|].
  destruct (nth_error_lt l s Hi) as [a Ha]; rewrite (idx_some _ _ _ Ha); cbn [bind].
  rewrite set_ok by auto; cbn; eapply rearranged_fun; eauto; apply copy_rearranged; auto.
Qed.

(** All strategies. *)
Lemma mutate_short s l : length l < 2 -> mutate s l = Ret l.
Proof.
  intros H; destruct s; cbn;
  unfold swap_mutation, scramble_mutation, inversion_mutation, insertion_mutation, duplicate_mutation;
  rewrite (proj2 (Nat.ltb_lt _ _) H); auto.
Qed.

Lemma mutate_perm s l : s <> Duplicate -> must (mutate s l) (fun r => Permutation l r).
Proof.
  intros Hs; destruct (Nat.lt_ge_cases (length l) 2) as [H|H]; [rewrite mutate_short; cbn; auto|].
  destruct s; [eapply must_mono; [|apply swap_mutation_spec; auto]
              |eapply must_mono; [|apply scramble_mutation_spec; auto]
              |eapply must_mono; [|apply inversion_mutation_spec; auto]
              |eapply must_mono; [|apply insertion_mutation_spec; auto]
              |congruence]; cbn; tauto.
Qed.

Lemma rearranged_length src l r :
  (forall k, src k < length l <-> k < length l) -> rearranged src l r -> length r = length l.
Proof.
  intros Hs Hr.
  assert (H : forall k, k < length r <-> k < length l).
  { intros k; rewrite <- Hs, <- !nth_error_Some, Hr; tauto. }
  destruct (Nat.lt_trichotomy (length r) (length l)) as [Hlt|[E|Hlt]]; auto; apply H in Hlt; lia.
Qed.

Lemma mutate_length s l : must (mutate s l) (fun r => length r = length l).
Proof.
  destruct (Nat.lt_ge_cases (length l) 2) as [H|H]; [rewrite mutate_short; cbn; auto|].
  destruct s; try (eapply must_mono; [|apply mutate_perm; discriminate]; intros r Hr; symmetry; apply Permutation_length; auto).
  cbn; eapply must_mono; [|apply duplicate_mutation_spec; auto].
  intros r (s & t & Hs & Ht & Hst & Hr); eapply rearranged_length; eauto.
  intros k; unfold copy_src; destruct (Nat.eqb_spec k t); subst; tauto.
Qed.

End Mut.
