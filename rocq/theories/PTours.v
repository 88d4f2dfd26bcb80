(** * PTours: SCX and ERX on tours (C12, C125). *)
From Coq Require Import List Bool Arith NArith Lia Permutation.
From Verif Require Import Rnd LRnd MOperators MCrossover Spec SpecC POperatorsNeighbors LGenes PCrossoverErx PCrossoverAll PCommon PSteps PErxExact.
Import ListNotations.

Section Scx.
Context {G : Type} (eqb : G -> G -> bool).
Hypothesis Heq : eq_ok eqb.

Lemma next_unique (l : list G) a b c : NoDup l -> cyc_next l a b -> cyc_next l a c -> b = c.
Proof. intros Hn (i & H1 & H2) (j & H3 & H4); assert (i = j) by (apply (NoDup_nth_inj l i j a); auto); subst; congruence. Qed.
Lemma scx_rule_unique (p1 p2 used : list G) c x y : NoDup p1 -> NoDup p2 -> scx_rule p1 p2 used c x -> scx_rule p1 p2 used c y -> x = y.
Proof.
  intros N1 N2 (a & b & Ha & Hb & H) (a' & b' & Ha' & Hb' & H').
  assert (a = a') by exact (next_unique p1 c a a' N1 Ha Ha'); assert (b = b') by exact (next_unique p2 c b b' N2 Hb Hb'); subst a' b'.
  destruct H as [(A & B & H)|[(A & B & H)|[(A & B & H)|(A & B & i & j & I & J & H)]]];
  destruct H' as [(A' & B' & H')|[(A' & B' & H')|[(A' & B' & H')|(A' & B' & i' & j' & I' & J' & H')]]];
    try contradiction; try congruence; [eapply first_not_in_unique; eauto|].
  assert (i = i') by (apply (NoDup_nth_inj p2 i i' a); auto); assert (j = j') by (apply (NoDup_nth_inj p1 j j' b); auto); subst; congruence.
Qed.
Lemma rule_list_unique (R : list G -> G -> G -> Prop) (r s : list G) :
  (forall u c x y, R u c x -> R u c y -> x = y) -> length r = length s -> hd_error r = hd_error s ->
  (forall i c x, nth_error r i = Some c -> nth_error r (S i) = Some x -> R (firstn (S i) r) c x) ->
  (forall i c x, nth_error s i = Some c -> nth_error s (S i) = Some x -> R (firstn (S i) s) c x) -> r = s.
Proof.
  intros HR Hl Hh Hr Hs; assert (H : forall k, k <= length r -> firstn k r = firstn k s).
  { induction k as [|k IH]; intros Hk; [reflexivity|]; specialize (IH ltac:(lia)).
    destruct (nth_error_lt r k) as [x Hx]; [lia|]; destruct (nth_error_lt s k) as [y Hy]; [lia|].
    rewrite (PMutation.firstn_snoc r k x Hx), (PMutation.firstn_snoc s k y Hy), IH; do 2 f_equal.
    destruct k as [|k]; [destruct r, s; cbn in *; congruence|].
    destruct (nth_error_lt r k) as [c Hc]; [lia|].
    assert (Hc' : nth_error s k = Some c).
    { rewrite <- (firstn_skipn (S k) s), nth_error_app1 by (rewrite firstn_length; lia); rewrite <- IH.
      rewrite <- Hc; rewrite <- (firstn_skipn (S k) r) at 2; rewrite nth_error_app1; auto; rewrite firstn_length; lia. }
    eapply HR; [apply (Hr k c x); auto|rewrite IH; apply (Hs k c y); auto]. }
  specialize (H (length r) ltac:(lia)); rewrite firstn_all in H; rewrite H, Hl; apply firstn_all.
Qed.
Lemma scx_exact (p1 p2 : list G) pivot r : perm_parents p1 p2 -> In pivot p1 ->
  (may (sequential_constructive_crossover eqb p1 p2 pivot) r <->
   length r = length p1 /\ hd_error r = Some pivot /\
   forall i c x, nth_error r i = Some c -> nth_error r (S i) = Some x -> scx_rule p1 p2 (firstn (S i) r) c x).
Proof.
  intros Hp Hv; pose proof (scx_perm eqb p1 p2 pivot Heq Hp Hv) as M1; pose proof (scx_rule_all eqb p1 p2 pivot Heq Hp Hv) as M2.
  split.
  - intros Hm; destruct (must_may _ _ _ M1 Hm) as [H1 H2]; split; [symmetry; apply Permutation_length; auto|]; split; auto.
    apply (must_may _ _ _ M2 Hm).
  - intros (H1 & H2 & H3); destruct (must_exists _ _ M1) as (s & Hs); destruct (must_may _ _ _ M1 Hs) as [H4 H5].
    assert (r = s); [|subst; auto].
    apply (rule_list_unique (scx_rule p1 p2)); auto.
    + intros u c x y; apply scx_rule_unique; [apply Hp|]; destruct Hp as [Hn HP]; eapply Permutation_NoDup; eauto.
    + rewrite H1; apply Permutation_length; auto.
    + congruence.
    + apply (must_may _ _ _ M2 Hs).
Qed.
End Scx.

Definition eight := [0; 1; 2; 3; 4; 5; 6; 7].
Definition eight2 := [0; 1; 3; 2; 7; 5; 6; 4].
Lemma nat_eq_ok : eq_ok Nat.eqb. Proof. intros x y; apply Nat.eqb_eq. Qed.
Lemma eight_parents : perm_parents eight eight2.
Proof.
  split; [repeat constructor; cbn; intuition discriminate|].
  apply NoDup_Permutation; [repeat constructor; cbn; intuition discriminate|repeat constructor; cbn; intuition discriminate|].
  intros x; split; cbn [In eight eight2]; intros H; repeat (destruct H as [H|H]; [subst; auto 10|]); destruct H.
Qed.
Lemma in4 : In 4 eight. Proof. right; right; right; right; left; reflexivity. Qed.
Lemma in4' : In 4 (rotated eight 6). Proof. do 6 right; left; reflexivity. Qed.
Lemma erx_first_refuted : exists (p1 q1 p2 : list nat) (v : nat) (r : list nat),
  perm_parents p1 p2 /\ turned p1 q1 /\ In v p1 /\
  may (edge_recombination_crossover Nat.eqb p1 p2 v) r /\ ~ may (edge_recombination_crossover Nat.eqb q1 p2 v) r.
Proof.
  pose proof eight_parents as Hp.
  assert (Ht : turned eight (rotated eight 6)) by (exists 6; cbn; split; [lia|auto]).
  assert (Hq : perm_parents (rotated eight 6) eight2).
  { destruct Hp as [Hn HP]; pose proof (tour_perm _ _ (or_introl Ht)) as H; split; [eapply Permutation_NoDup; eauto|rewrite <- H; auto]. }
  exists eight, (rotated eight 6), eight2, 4, [4; 3; 1; 0; 7; 2; 5; 6].
  refine (conj Hp (conj Ht (conj _ (conj _ _)))); [right; right; right; right; left; reflexivity| |].
  - apply (run_may _ _ [0; 1; 0; 0; 0; 0; 0]%N _ (erx_perm Nat.eqb eight eight2 4 nat_eq_ok Hp in4)); vm_compute; reflexivity.
  - intros Hm; destruct (proj1 (erx_exact Nat.eqb _ _ 4 _ nat_eq_ok Hq in4') Hm) as (_ & _ & H).
    destruct (H 5 2 5 eq_refl eq_refl) as [([[H1|H1] _] & _)|(_ & l1 & l2 & E & _ & Hl)].
    + destruct H1 as [H1|H1]; apply nextb_ok in H1; vm_compute in H1; discriminate.
    + destruct H1 as [H1|H1]; apply nextb_ok in H1; vm_compute in H1; discriminate.
    + destruct l1 as [|y l1]; [vm_compute in E; discriminate|]; assert (y = 6) by (vm_compute in E; congruence); subst y.
      specialize (Hl 6 (or_introl eq_refl)); vm_compute in Hl; intuition discriminate.
Qed.
Lemma scx_second_refuted : exists (p1 p2 q2 : list nat) (v : nat) (r : list nat),
  perm_parents p1 p2 /\ turned p2 q2 /\ In v p1 /\
  may (sequential_constructive_crossover Nat.eqb p1 p2 v) r /\ ~ may (sequential_constructive_crossover Nat.eqb p1 q2 v) r.
Proof.
  exists [0; 1; 2], [0; 2; 1], [2; 1; 0], 0, [0; 2; 1]; split; [|split; [exists 1; cbn; split; [lia|auto]|split; [cbn; tauto|split]]].
  - split; [repeat constructor; cbn; intuition discriminate|repeat constructor].
  - vm_compute; reflexivity.
  - vm_compute; congruence.
Qed.
Lemma tours_example :
  perm_parents eight eight2 /\ turned (rev eight2) (rotated (rev eight2) 3) /\
  may (edge_recombination_crossover Nat.eqb eight (rotated (rev eight2) 3) 4) [4; 3; 1; 0; 7; 2; 5; 6].
Proof.
  pose proof eight_parents as Hp.
  assert (Ht : turned (rev eight2) (rotated (rev eight2) 3)) by (exists 3; cbn; split; [lia|auto]).
  refine (conj Hp (conj Ht _)).
  apply (proj1 (erx_second Nat.eqb nat_eq_ok eight eight2 _ 4 _ Hp (or_intror Ht) in4)).
  apply (run_may _ _ [0; 1; 0; 0; 0; 0; 0]%N _ (erx_perm Nat.eqb eight eight2 4 nat_eq_ok Hp in4)); vm_compute; reflexivity.
Qed.
