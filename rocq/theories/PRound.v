(** * PRound: from a population to a vector and back. *)
From Coq Require Import List Bool Arith NArith ZArith Reals Lia Lra Permutation.
From Flocq Require Import Core BinarySingleNaN.
From Verif Require Import Rnd LRnd F64 LF64 MStats MPopulation SpecF ExF PStats PPopulation.
Import ListNotations.

Section Round.
Context {I : Type} (io : individual_ops I).

(** Fitnesses that increase strictly. *)
Definition strict (l : list I) : Prop :=
  forall i j x y, i < j -> nth_error l i = Some x -> nth_error l j = Some y -> flt (fitness io x) (fitness io y) = true.

Lemma strict_tail a l : strict (a :: l) -> strict l.
Proof. intros H i j x y Hij Hi Hj; apply (H (S i) (S j)); auto; lia. Qed.

Lemma sorted_tail a l : sorted_by_fitness io (a :: l) -> sorted_by_fitness io l.
Proof. intros H i j x y Hij Hi Hj; apply (H (S i) (S j)); auto; lia. Qed.

(** A strictly sorted list is the only sorted permutation of itself *)
Lemma strict_unique l r : strict l -> Permutation l r -> sorted_by_fitness io r -> r = l.
Proof.
  revert r; induction l as [|a l IH]; intros r Hs HP Hr; [apply Permutation_nil in HP; auto|].
  destruct r as [|b r]; [apply Permutation_sym, Permutation_nil in HP; discriminate|].
  assert (E : b = a).
  { assert (Hb : In b (a :: l)) by (eapply Permutation_in; [apply Permutation_sym, HP|left; auto]).
    destruct Hb as [|Hb]; [auto|exfalso].
    assert (Ha : In a (b :: r)) by (eapply Permutation_in; [apply HP|left; auto]).
    destruct (In_nth_error _ _ Hb) as [j Hj]; pose proof (Hs 0 (S j) a b ltac:(lia) eq_refl Hj) as Hlt.
    apply flt_spec in Hlt as (_ & _ & Hlt).
    destruct Ha as [->|Ha]; [lra|].
    destruct (In_nth_error _ _ Ha) as [i Hi]; pose proof (Hr 0 (S i) b a ltac:(lia) eq_refl Hi) as Hle.
    apply fle_spec in Hle as (_ & _ & Hle); lra. }
  subst b; f_equal; apply IH; [eapply strict_tail; eauto|eapply Permutation_cons_inv; eauto|eapply sorted_tail; eauto].
Qed.

Lemma dedup_from_id k l : no_adjacent_equal io (k :: l) -> dedup_from io k l = l.
Proof.
  revert k; induction l as [|h t IH]; intros k H; [reflexivity|]; cbn [dedup_from].
  rewrite (H 0 k h eq_refl eq_refl); f_equal; apply IH.
  intros i x y Hi Hj; apply (H (S i)); auto.
Qed.
Lemma dedup_id l : no_adjacent_equal io l -> dedup io l = l.
Proof. destruct l as [|h t]; [reflexivity|]; intros H; cbn; f_equal; apply dedup_from_id; auto. Qed.

Lemma sorted_strict l : no_nan io l -> sorted_by_fitness io l ->
  (forall i j x y, i < j -> nth_error l i = Some x -> nth_error l j = Some y -> feq (fitness io x) (fitness io y) = false) ->
  strict l.
Proof.
  intros Hn Hs Hd i j x y Hij Hi Hj; pose proof (Hs i j x y Hij Hi Hj) as Hle; pose proof (Hd i j x y Hij Hi Hj) as Hne.
  apply fle_spec in Hle as (A & B & C); apply flt_spec; split; auto; split; auto.
  destruct (Rle_lt_or_eq_dec _ _ C) as [|E]; auto; exfalso.
  assert (feq (fitness io x) (fitness io y) = true) by (apply feq_spec; auto); congruence.
Qed.

Lemma into_spec l p : built_from io l p ->
  population_into p <> [] /\ same_individuals io l (population_into p) /\
  (no_nan io l -> sorted_by_fitness io (population_into p) /\
     exists x, nth_error (population_into p) (length (population_into p) - 1) = Some x /\
       forall y, In y (population_into p) -> fle (fitness io y) (fitness io x) = true).
Proof.
  intros H; pose proof (built_from_nonempty io _ _ H) as Hl.
  destruct (built_from_made io l p Hl H) as (A & B & _ & _ & _ & E); unfold population_into.
  split; auto; split; auto; intros Hn; destruct (E Hn) as [Hn' Hs]; split; auto.
  assert (Hlen : length (individuals p) - 1 < length (individuals p)) by (destruct (individuals p); [congruence|cbn; lia]).
  destruct (nth_error (individuals p) (length (individuals p) - 1)) as [x|] eqn:Hx; [|apply nth_error_None in Hx; lia].
  exists x; split; auto; intros y Hy; destruct (In_nth_error _ _ Hy) as [i Hi].
  assert (i < length (individuals p)) by (apply nth_error_Some; congruence).
  destruct (Nat.eq_dec i (length (individuals p) - 1)) as [->|Hne]; [|apply (Hs i (length (individuals p) - 1)); auto; lia].
  rewrite Hx in Hi; injection Hi as <-; apply fle_spec.
  pose proof (Hn' x (nth_error_In _ _ Hx)) as Hnx; repeat split; auto; lra.
Qed.

Lemma round_trip l p : built_from io l p -> no_nan io l ->
  (forall i j x y, i < j -> nth_error (individuals p) i = Some x -> nth_error (individuals p) j = Some y ->
     feq (fitness io x) (fitness io y) = false) ->
  must (population_try_from io (population_into p)) (fun o => exists q, o = inl q /\
    individuals q = individuals p /\ pop_stats q = pop_stats p /\ generation q = 0 /\ stagnation q = 0).
Proof.
  intros H Hn Hd; pose proof (built_from_nonempty io _ _ H) as Hl.
  destruct (built_from_made io l p Hl H) as (A & B & C & _ & D & E); destruct (E Hn) as [Hn' Hs].
  pose proof (sorted_strict _ Hn' Hs Hd) as Hst; unfold population_into.
  assert (G : must (population_new io (individuals p)) (fun q =>
    individuals q = individuals p /\ pop_stats q = pop_stats p /\ generation q = 0 /\ stagnation q = 0)).
  { eapply must_strengthen; [apply new_must; auto|]; intros q Hq _.
    apply (proj1 (new_may io (individuals p) q A)) in Hq as (s & HP & Hss & ->); cbn [individuals pop_stats generation stagnation].
    rewrite (strict_unique _ _ Hst HP (Hss Hn')), dedup_id by auto; repeat split; auto. }
  unfold population_try_from; destruct (individuals p) as [|h t]; [congruence|].
  eapply must_bind_intro; [exact G|]; intros q Hq; cbn; exists q; split; [auto|exact Hq].
Qed.
End Round.

(** Equal fitness: the way back may lose individuals *)
Lemma round_trip_shrinks : exists (l : list (nat * nat)) (p q : population (nat * nat)),
  may (population_new ex_io2 l) p /\ may (population_try_from ex_io2 (population_into p)) (inl q) /\
  length (individuals q) < length (individuals p).
Proof.
  exists [(1, 0); (1, 1); (1, 0)], (ex_popn ex_io2 [(1, 0); (1, 1); (1, 0)]), (ex_popn ex_io2 [(1, 0); (1, 1)]).
  assert (S : forall l : list (nat * nat), (forall x, In x l -> fst x = 1) -> sorted_by_fitness ex_io2 l).
  { intros l Hl i j x y Hij Hi Hj; cbn [fitness ex_io2]; rewrite (Hl x), (Hl y) by (eapply nth_error_In; eauto).
    vm_compute; reflexivity. }
  split; [|split; [|cbn; lia]].
  - apply new_may; [discriminate|]; exists [(1, 0); (1, 1); (1, 0)]; split; [apply Permutation_refl|]; split; [|reflexivity].
    intros _; apply S; cbn; intros x Hx; destruct Hx as [<-|[<-|[<-|[]]]]; reflexivity.
  - unfold population_into; cbn [individuals ex_popn population_try_from].
    apply may_bind; exists (ex_popn ex_io2 [(1, 0); (1, 1)]); split; [|reflexivity].
    apply new_may; [discriminate|]; exists [(1, 0); (1, 0); (1, 1)]; split; [|split; [|reflexivity]].
    + apply perm_skip, perm_swap.
    + intros _; apply S; cbn; intros x Hx; destruct Hx as [<-|[<-|[<-|[]]]]; reflexivity.
Qed.
