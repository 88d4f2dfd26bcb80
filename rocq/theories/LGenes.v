(** * LGenes: lemmas on gene lists shared by the crossover proofs. *)
From Coq Require Import List Bool Arith NArith Lia Permutation.
From Verif Require Import Rnd LRnd MOperators MCrossover Spec POperatorsNeighbors.
Import ListNotations.

Section Genes.
Context {G : Type} (eqb : G -> G -> bool).
Hypothesis Heq : eq_ok eqb.

Lemma find_position_some x l i :
  find_position eqb x l = Some i -> nth_error l i = Some x /\ forall j, j < i -> nth_error l j <> Some x.
Proof.
  revert i; induction l as [|h t IH]; cbn; intros i; [discriminate|].
  destruct (eqb h x) eqn:E.
  - apply Heq in E; subst; intros [= <-]; cbn; split; auto; lia.
  - destruct (find_position eqb x t) as [k|]; [|discriminate].
    intros [= <-]; destruct (IH k eq_refl) as [H1 H2]; cbn; split; auto.
    intros [|j] Hj; cbn.
    + apply (eqb_neq eqb Heq) in E; congruence.
    + apply H2; lia.
Qed.

Lemma find_position_none x l : find_position eqb x l = None <-> ~ In x l.
Proof.
  induction l as [|h t IH]; cbn; [tauto|].
  destruct (eqb h x) eqn:E.
  - apply Heq in E; subst; split; [discriminate|tauto].
  - apply (eqb_neq eqb Heq) in E.
    destruct (find_position eqb x t); [|tauto].
    split; [discriminate|]; intros H; exfalso; apply H; right.
    destruct (in_dec (gene_dec eqb Heq) x t) as [Hi|Hi]; auto; apply IH in Hi; discriminate.
Qed.

Lemma find_position_in x l : In x l -> exists i, find_position eqb x l = Some i /\ nth_error l i = Some x.
Proof.
  intros H; destruct (find_position eqb x l) as [i|] eqn:E.
  - exists i; split; auto; apply find_position_some in E; tauto.
  - apply find_position_none in E; tauto.
Qed.

Lemma NoDup_nth_inj (l : list G) i j x :
  NoDup l -> nth_error l i = Some x -> nth_error l j = Some x -> i = j.
Proof.
  intros Hnd Hi Hj; apply (proj1 (NoDup_nth_error l) Hnd); [eapply nth_error_some_lt; eauto|congruence].
Qed.

Lemma find_position_nodup x l i : NoDup l -> nth_error l i = Some x -> find_position eqb x l = Some i.
Proof.
  intros Hnd Hi; destruct (find_position_in x l) as (j & Ej & Hj); [eapply nth_error_In; eauto|].
  rewrite Ej; f_equal; eapply NoDup_nth_inj; eauto.
Qed.

Lemma find_first_not_in l used x :
  find (fun g => negb (mem eqb g used)) l = Some x -> first_not_in l used x.
Proof.
  induction l as [|h t IH]; cbn; [discriminate|].
  destruct (mem eqb h used) eqn:E; cbn.
  - intros H; destruct (IH H) as (l1 & l2 & -> & Hx & Hl); exists (h :: l1), l2; repeat split; auto.
    intros y [->|Hy]; auto; apply (mem_In eqb Heq); auto.
  - intros [= ->]; exists [], t; repeat split; auto.
    + apply (mem_notIn eqb Heq); auto.
    + intros y [].
Qed.

Lemma first_unvisited_exists (l used : list G) :
  NoDup l -> length used < length l -> exists x, first_unvisited eqb l used = Some x.
Proof.
  intros Hnd Hlen; unfold first_unvisited.
  destruct (find (fun g => negb (mem eqb g used)) l) as [x|] eqn:E; eauto.
  exfalso; assert (incl l used).
  { intros y Hy; eapply find_none in E; eauto; cbn in E.
    apply negb_false_iff, (mem_In eqb Heq) in E; auto. }
  pose proof (NoDup_incl_length Hnd H); lia.
Qed.

Lemma cyc_next_pos (l : list G) i a b :
  nth_error l i = Some a -> nth_error l (succ_pos (length l) i) = Some b -> cyc_next l a b.
Proof.
  intros Ha Hb; exists i; split; auto.
  pose proof (nth_error_some_lt _ _ _ Ha).
  unfold succ_pos in Hb; destruct (Nat.eqb_spec (i + 1) (length l)) as [E|E]; cbn in Hb.
  - rewrite E, Nat.mod_same by lia; auto.
  - rewrite Nat.mod_small by lia; auto.
Qed.

Lemma succ_pos_lt n i : i < n -> succ_pos n i < n.
Proof. unfold succ_pos; destruct (Nat.eqb_spec (i + 1) n); cbn; lia. Qed.

Lemma incl_Permutation (l l' : list G) :
  NoDup l -> NoDup l' -> incl l' l -> length l' = length l -> Permutation l l'.
Proof.
  intros H1 H2 Hi Hl; symmetry; apply NoDup_Permutation_bis; auto; lia.
Qed.

Lemma first_not_in_ext (l u u' : list G) x :
  (forall y, In y u <-> In y u') -> first_not_in l u x -> first_not_in l u' x.
Proof.
  intros H (l1 & l2 & E & Hx & Hl); exists l1, l2; repeat split; auto.
  - rewrite <- H; auto.
  - intros y Hy; apply H; auto.
Qed.

Lemma length_one (l : list G) : length l = 1 -> exists x, l = [x].
Proof. destruct l as [|x [|y t]]; try discriminate; intros _; exists x; auto. Qed.

Lemma perm_short (l l' : list G) : length l < 2 -> Permutation l l' -> l = l'.
Proof.
  intros H HP; destruct l as [|x [|y t]]; cbn in H; [|apply Permutation_length_1_inv in HP; auto|lia].
  apply Permutation_nil in HP; auto.
Qed.

End Genes.
