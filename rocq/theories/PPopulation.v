(** * PPopulation: proofs about src/population.rs and src/individual.rs (C46-C51). *)
From Coq Require Import List Bool Arith NArith ZArith Reals Lia Lra Permutation.
From Flocq Require Import Core BinarySingleNaN.
From Verif Require Import Rnd LRnd F64 LF64 MStats MPopulation MSelection SpecF PStats ExF.
Import ListNotations.

Section Pop.
Context {I : Type} (io : individual_ops I).
Implicit Types (l : list I) (p : population I).

Definition fk (x : I) : R := key (fitness io x).
Definition nn (x : I) : Prop := is_nan (fitness io x) = false.

(** ** The fitness order *)
Lemma compare_key x y : nn x -> nn y -> compare_fitness io x y = Rcompare (fk x) (fk y).
Proof. intros Hx Hy; unfold compare_fitness; rewrite fcmp_key by auto; reflexivity. Qed.

Lemma not_gt_key x y : nn x -> nn y -> (not_gt (compare_fitness io x y) = true <-> (fk x <= fk y)%R).
Proof.
  intros Hx Hy; rewrite compare_key by auto; destruct (Rcompare_spec (fk x) (fk y)); cbn; split; intros; try lra; try discriminate; auto.
Qed.

Lemma fle_key x y : nn x -> nn y -> (fle (fitness io x) (fitness io y) = true <-> (fk x <= fk y)%R).
Proof. intros Hx Hy; rewrite fle_spec; unfold nn, fk in *; tauto. Qed.

(** ** Sorting *)
Fixpoint insert (x : I) l : list I :=
  match l with
  | [] => [x]
  | h :: t => if Rle_dec (fk x) (fk h) then x :: l else h :: insert x t
  end.
Fixpoint isort l : list I := match l with [] => [] | h :: t => insert h (isort t) end.

Lemma insert_perm x l : Permutation (x :: l) (insert x l).
Proof.
  induction l as [|h t IH]; cbn; auto; destruct (Rle_dec _ _); auto.
  eapply Permutation_trans; [apply perm_swap|]; constructor; auto.
Qed.
Lemma isort_perm l : Permutation l (isort l).
Proof.
  induction l as [|h t IH]; cbn; auto; eapply Permutation_trans; [|apply insert_perm]; constructor; auto.
Qed.

Fixpoint ksorted l : Prop :=
  match l with
  | a :: ((b :: _) as t) => (fk a <= fk b)%R /\ ksorted t
  | _ => True
  end.

Lemma insert_sorted x l : ksorted l -> ksorted (insert x l).
Proof.
  induction l as [|h t IH]; cbn [insert]; intros H; [cbn; auto|].
  destruct (Rle_dec (fk x) (fk h)) as [Hle|Hgt]; [cbn; cbn in H; auto|].
  destruct t as [|h' t']; [cbn; split; auto; lra|].
  cbn [insert] in *; destruct H as [H1 H2]; specialize (IH H2).
  destruct (Rle_dec (fk x) (fk h')); cbn in *; split; auto; lra.
Qed.
Lemma isort_sorted l : ksorted (isort l).
Proof. induction l; cbn; auto; apply insert_sorted; auto. Qed.

Lemma sortedb_ksorted l : (forall x, In x l -> nn x) -> (sortedb io l = true <-> ksorted l).
Proof.
  induction l as [|a t IH]; intros H; [cbn; tauto|].
  destruct t as [|b t']; [cbn; tauto|].
  cbn [sortedb ksorted] in *; rewrite andb_true_iff, not_gt_key by (apply H; cbn; auto).
  rewrite IH by (intros; apply H; cbn; cbn in *; tauto); tauto.
Qed.

Lemma ksorted_all l : ksorted l -> forall i j x y, i < j -> nth_error l i = Some x -> nth_error l j = Some y -> (fk x <= fk y)%R.
Proof.
  induction l as [|a t IH]; intros H i j x y Hij Hi Hj; [destruct i; discriminate|].
  assert (Ht : ksorted t) by (destruct t; cbn in *; tauto).
  destruct j as [|j]; [lia|]; cbn in Hj.
  destruct i as [|i]; cbn in Hi; [|eapply (IH Ht i j); eauto; lia].
  injection Hi as ->.
  destruct t as [|b t']; [destruct j; discriminate|].
  cbn in H; destruct H as [Hab Hs].
  destruct j as [|j]; [cbn in Hj; injection Hj as ->; auto|].
  eapply Rle_trans; [exact Hab|]; eapply (IH Hs 0 (S j)); eauto; lia.
Qed.

Lemma ksorted_sorted l : (forall x, In x l -> nn x) -> (ksorted l <-> sorted_by_fitness io l).
Proof.
  intros Hn; split.
  - intros H i j x y Hij Hi Hj; apply fle_key; [apply Hn; eapply nth_error_In; eauto|apply Hn; eapply nth_error_In; eauto|].
    eapply ksorted_all; eauto.
  - induction l as [|a t IH]; [cbn; auto|]; intros H; destruct t as [|b t']; [cbn; auto|]; cbn [ksorted]; split.
    + apply fle_key; [apply Hn; cbn; auto|apply Hn; cbn; auto|]; apply (H 0 1); auto.
    + apply IH; [intros x Hx; apply Hn; cbn in *; tauto|].
      intros i j x y Hij Hi Hj; apply (H (S i) (S j)); auto; lia.
Qed.

Lemma no_nan_check l : forallb (fun i => negb (f_is_nan (fitness io i))) l = true <-> no_nan io l.
Proof.
  rewrite forallb_forall; unfold no_nan; split; intros H x Hx; specialize (H x Hx).
  - apply negb_true_iff; auto.
  - apply negb_true_iff; auto.
Qed.

Lemma sort_results_spec l r : In r (sort_results io l) <->
  Permutation l r /\ (no_nan io l -> sorted_by_fitness io r).
Proof.
  unfold sort_results; destruct (forallb _ l) eqn:E.
  - apply no_nan_check in E; rewrite filter_In, in_perms.
    split; intros [HP H]; split; auto.
    + intros _; assert (Hn : forall x, In x r -> nn x) by (intros x Hx; apply E; eapply Permutation_in; [apply Permutation_sym|]; eauto).
      apply ksorted_sorted; auto; apply sortedb_ksorted; auto.
    + specialize (H E); assert (Hn : forall x, In x r -> nn x) by (intros x Hx; apply E; eapply Permutation_in; [apply Permutation_sym|]; eauto).
      apply sortedb_ksorted; auto; apply ksorted_sorted; auto.
  - rewrite in_perms; split; [|tauto]. intros HP; split; auto; intros H; apply no_nan_check in H; congruence.
Qed.

Lemma sort_results_nonempty l : sort_results io l <> [].
Proof.
  assert (H : In (isort l) (sort_results io l)).
  { apply sort_results_spec; split; [apply isort_perm|]. intros Hn; apply ksorted_sorted; [|apply isort_sorted].
    intros x Hx; apply Hn; eapply Permutation_in; [apply Permutation_sym, isort_perm|]; auto. }
  intros E; rewrite E in H; destruct H.
Qed.

Lemma must_sort l P : must (par_sort_unstable io l) P <->
  forall r, Permutation l r -> (no_nan io l -> sorted_by_fitness io r) -> P r.
Proof.
  unfold par_sort_unstable; rewrite must_pick_from; split.
  - intros [_ H] r HP Hs; apply H, sort_results_spec; auto.
  - intros H; split; [apply sort_results_nonempty|]; intros r Hr; apply sort_results_spec in Hr as [HP Hs]; auto.
Qed.

Lemma may_sort l r : may (par_sort_unstable io l) r <-> Permutation l r /\ (no_nan io l -> sorted_by_fitness io r).
Proof. unfold par_sort_unstable; rewrite may_pick_from; apply sort_results_spec. Qed.

(** ** dedup *)
Inductive sublist : list I -> list I -> Prop :=
| sub_nil : sublist [] []
| sub_keep x a b : sublist a b -> sublist (x :: a) (x :: b)
| sub_skip x a b : sublist a b -> sublist a (x :: b).

Lemma dedup_from_sub k l : sublist (dedup_from io k l) l.
Proof. revert k; induction l as [|h t IH]; intros k; cbn; [constructor|]; destruct (ieq io h k); constructor; auto. Qed.
Lemma dedup_sub l : sublist (dedup io l) l.
Proof. destruct l; cbn; constructor; apply dedup_from_sub. Qed.

Lemma sublist_In a b : sublist a b -> forall x, In x a -> In x b.
Proof. induction 1; cbn; firstorder. Qed.

Lemma sublist_length a b : sublist a b -> length a <= length b.
Proof. induction 1; cbn; lia. Qed.

Lemma sublist_nth a b : sublist a b -> forall i j x y, i < j -> nth_error a i = Some x -> nth_error a j = Some y ->
  exists i' j', i' < j' /\ nth_error b i' = Some x /\ nth_error b j' = Some y.
Proof.
  assert (G : forall a b, sublist a b -> forall j y, nth_error a j = Some y -> exists j', nth_error b j' = Some y).
  { intros a' b' Hs j y Hy; apply In_nth_error; eapply sublist_In; eauto; eapply nth_error_In; eauto. }
  induction 1 as [|x a b Hs IH|x a b Hs IH]; intros i j u v Hij Hi Hj.
  - destruct i; discriminate.
  - destruct j as [|j]; [lia|]; cbn in Hj; destruct i as [|i]; cbn in Hi.
    + injection Hi as ->; destruct (G _ _ Hs j v Hj) as [j' Hj']; exists 0, (S j'); split; [lia|]; auto.
    + destruct (IH i j u v ltac:(lia) Hi Hj) as (i' & j' & H & A & B); exists (S i'), (S j'); split; [lia|auto].
  - destruct (IH i j u v Hij Hi Hj) as (i' & j' & H & A & B); exists (S i'), (S j'); split; [lia|auto].
Qed.

Lemma dedup_sorted l : sorted_by_fitness io l -> sorted_by_fitness io (dedup io l).
Proof.
  intros H i j x y Hij Hi Hj; destruct (sublist_nth _ _ (dedup_sub l) i j x y Hij Hi Hj) as (i' & j' & H' & A & B); eapply H; eauto.
Qed.

Lemma dedup_from_keeps k l x : In x l -> In x (dedup_from io k l) \/ exists y, In y (k :: dedup_from io k l) /\ ieq io x y = true.
Proof.
  revert k; induction l as [|h t IH]; intros k Hx; [destruct Hx|]; cbn [dedup_from].
  destruct Hx as [->|Hx].
  - destruct (ieq io x k) eqn:E; [right; exists k; cbn; auto|left; cbn; auto].
  - destruct (ieq io h k) eqn:E.
    + destruct (IH k Hx) as [H|H]; auto.
    + destruct (IH h Hx) as [H|(y & Hy & Ey)]; [left; cbn; auto|right; exists y; split; auto; cbn in *; tauto].
Qed.

Lemma dedup_same l : same_individuals io l (dedup io l).
Proof.
  split; [intros x; apply sublist_In, dedup_sub|].
  destruct l as [|h t]; cbn [dedup]; intros x Hx; [destruct Hx|].
  destruct Hx as [->|Hx]; [left; cbn; auto|].
  destruct (dedup_from_keeps h t x Hx) as [H|H]; [left; cbn; auto|right; auto].
Qed.

Lemma dedup_from_adjacent k l i x y : nth_error (k :: dedup_from io k l) i = Some x -> nth_error (k :: dedup_from io k l) (S i) = Some y -> ieq io y x = false.
Proof.
  revert k i; induction l as [|h t IH]; intros k i; cbn [dedup_from].
  - destruct i; cbn; [discriminate|destruct i; discriminate].
  - destruct (ieq io h k) eqn:E; [apply IH|].
    destruct i as [|i]; [cbn; intros [= <-] [= <-]; auto|].
    intros Hx Hy; apply (IH h i); auto.
Qed.

Lemma dedup_adjacent l : no_adjacent_equal io (dedup io l).
Proof.
  destruct l as [|h t]; cbn [dedup]; intros i x y; [destruct i; discriminate|apply dedup_from_adjacent].
Qed.

Lemma dedup_nonempty l : l <> [] -> dedup io l <> [].
Proof. destruct l; cbn; congruence. Qed.

Lemma same_perm l r s : Permutation l r -> same_individuals io r s -> same_individuals io l s.
Proof.
  intros HP [A B]; split.
  - intros x Hx; eapply Permutation_in; [apply Permutation_sym|]; eauto.
  - intros x Hx; apply B; eapply Permutation_in; eauto.
Qed.

(** ** Construction *)
Definition built l (r : list I) : Prop :=
  exists s, Permutation l s /\ (no_nan io l -> sorted_by_fitness io s) /\ r = dedup io s.

Lemma sort_dedup_must l : l <> [] ->
  must (sort_dedup_and_collect_stats io l) (fun o => built l (fst o) /\ snd o = stats_of io (fst o)).
Proof.
  intros Hl; unfold sort_dedup_and_collect_stats; apply must_bind, must_sort; intros r HP Hs; cbv zeta.
  assert (Hr : dedup io r <> []).
  { apply dedup_nonempty; intros ->; apply Permutation_sym, Permutation_nil in HP; congruence. }
  unfold populated_try_from; rewrite from_iter_count, map_length.
  rewrite (proj2 (Nat.eqb_neq _ _)) by (destruct (dedup io r); [congruence|discriminate]); cbn.
  split; [exists r; auto|reflexivity].
Qed.

Lemma sort_dedup_may l r st : l <> [] ->
  may (sort_dedup_and_collect_stats io l) (r, st) <-> built l r /\ st = stats_of io r.
Proof.
  intros Hl; split.
  - intros H; apply (must_may _ _ _ (sort_dedup_must l Hl) H).
  - intros [(s & HP & Hs & ->) ->]; unfold sort_dedup_and_collect_stats; apply may_bind; exists s; split; [apply may_sort; auto|].
    cbv zeta; assert (Hr : dedup io s <> []).
    { apply dedup_nonempty; intros ->; apply Permutation_sym, Permutation_nil in HP; congruence. }
    unfold populated_try_from; rewrite from_iter_count, map_length.
    rewrite (proj2 (Nat.eqb_neq _ _)) by (destruct (dedup io s); [congruence|discriminate]); cbn; reflexivity.
Qed.

Lemma sort_dedup_empty : must_fail (sort_dedup_and_collect_stats io []) Panic.
Proof.
  unfold sort_dedup_and_collect_stats, par_sort_unstable, pick_from; cbn -[N.of_nat].
  split; [reflexivity|]; intros i Hi; change (N.of_nat 1) with 1%N in Hi; assert (i = 0%N) by lia; subst; reflexivity.
Qed.

Lemma built_nonempty l r : l <> [] -> built l r -> r <> [].
Proof.
  intros Hl (s & HP & _ & ->); apply dedup_nonempty; intros ->; apply Permutation_sym, Permutation_nil in HP; congruence.
Qed.
Lemma built_same l r : built l r -> same_individuals io l r.
Proof. intros (s & HP & _ & ->); eapply same_perm; [exact HP|apply dedup_same]. Qed.
Lemma built_adjacent l r : built l r -> no_adjacent_equal io r.
Proof. intros (s & HP & _ & ->); apply dedup_adjacent. Qed.
Lemma built_sorted l r : no_nan io l -> built l r -> sorted_by_fitness io r.
Proof. intros Hn (s & HP & Hs & ->); apply dedup_sorted; auto. Qed.
Lemma built_no_nan l r : no_nan io l -> built l r -> no_nan io r.
Proof. intros Hn Hb x Hx; apply Hn, (proj1 (built_same l r Hb)); auto. Qed.
Lemma built_length l r : built l r -> length r <= length l.
Proof.
  intros (s & HP & _ & ->); rewrite (Permutation_length HP); apply sublist_length, dedup_sub.
Qed.

Definition made l p : Prop :=
  individuals p <> [] /\ same_individuals io l (individuals p) /\ no_adjacent_equal io (individuals p) /\
  length (individuals p) <= length l /\ pop_stats p = stats_of io (individuals p) /\
  (no_nan io l -> no_nan io (individuals p) /\ sorted_by_fitness io (individuals p)).

Lemma built_made l p : l <> [] -> built l (individuals p) -> pop_stats p = stats_of io (individuals p) -> made l p.
Proof.
  intros Hl Hb Hs; split; [eapply built_nonempty; eauto|]; split; [apply built_same; auto|].
  split; [eapply built_adjacent; eauto|]; split; [apply built_length; auto|]; split; auto.
  intros Hn; split; [eapply built_no_nan; eauto|eapply built_sorted; eauto].
Qed.

Lemma new_must l : l <> [] ->
  must (population_new io l) (fun p => made l p /\ generation p = 0 /\ stagnation p = 0).
Proof.
  intros Hl; unfold population_new; eapply must_bind_intro; [apply sort_dedup_must; auto|].
  intros [r st] [Hb Hs]; cbn [fst snd] in *; subst st; cbn; split; auto; apply built_made; auto.
Qed.

Lemma new_empty : must_fail (population_new io []) Panic.
Proof. unfold population_new; apply must_fail_bind_l, sort_dedup_empty. Qed.

Lemma replace_must p l : l <> [] ->
  must (population_replace io p l) (fun o =>
    made l (fst o) /\ snd o = individuals p /\ generation (fst o) = generation p + 1 /\
    stagnation (fst o) = (if fgt (ps_max (pop_stats (fst o))) (ps_max (pop_stats p)) then 0 else stagnation p + 1)).
Proof.
  intros Hl; unfold population_replace; cbv zeta; eapply must_bind_intro; [apply sort_dedup_must; auto|].
  intros [r st] [Hb Hs]; cbn [fst snd] in *; subst st; cbn [must fst snd generation stagnation individuals pop_stats].
  split; [apply built_made; auto|]; repeat split; auto; lia.
Qed.

Lemma replace_empty p : must_fail (population_replace io p []) Panic.
Proof. unfold population_replace; apply must_fail_bind_l, sort_dedup_empty. Qed.

Lemma try_from_spec l :
  (l = [] -> population_try_from io l = Ret (inr [])) /\
  (l <> [] -> must (population_try_from io l) (fun o => exists p, o = inl p /\ made l p /\ generation p = 0 /\ stagnation p = 0)).
Proof.
  split; [intros ->; reflexivity|]; intros Hl; destruct l as [|h t]; [congruence|].
  unfold population_try_from; eapply must_bind_intro; [apply new_must; auto|]; intros p Hp; cbn; eauto.
Qed.

(** Exactly the sorted permutations with consecutive duplicates dropped *)
Lemma new_may l p : l <> [] ->
  may (population_new io l) p <->
  exists s, Permutation l s /\ (no_nan io l -> sorted_by_fitness io s) /\ p = mkPopulation (dedup io s) 0 0 (stats_of io (dedup io s)).
Proof.
  intros Hl; unfold population_new; rewrite may_bind; split.
  - intros ([r st] & H & Hp); apply sort_dedup_may in H as [(s & HP & Hs & ->) ->]; auto; exists s; repeat split; auto.
  - intros (s & HP & Hs & ->); exists (dedup io s, stats_of io (dedup io s)); split; [|reflexivity].
    apply sort_dedup_may; auto; split; auto; exists s; auto.
Qed.

(** ** Uniqueness *)
Lemma unique_if_fitness_decides l p :
  no_nan io l ->
  (forall x y, In x l -> In y l -> (ieq io x y = true <-> feq (fitness io x) (fitness io y) = true)) ->
  made l p ->
  forall i j x y, i < j -> nth_error (individuals p) i = Some x -> nth_error (individuals p) j = Some y -> ieq io y x = false.
Proof.
  intros Hn He (Hne & (Hin & _) & Had & _ & _ & Hs); destruct (Hs Hn) as [Hn' Hso].
  assert (Hks : ksorted (individuals p)) by (apply ksorted_sorted; auto; intros x Hx; apply Hn'; auto).
  assert (Hstep : forall i x y, nth_error (individuals p) i = Some x -> nth_error (individuals p) (S i) = Some y -> (fk x < fk y)%R).
  { intros i x y Hi Hj; pose proof (ksorted_all _ Hks i (S i) x y ltac:(lia) Hi Hj) as Hle.
    destruct (Rle_lt_or_eq_dec _ _ Hle) as [|E]; auto; exfalso.
    assert (Hix : In x (individuals p)) by (eapply nth_error_In; eauto).
    assert (Hiy : In y (individuals p)) by (eapply nth_error_In; eauto).
    pose proof (Had i x y Hi Hj) as Hf; assert (ieq io y x = true); [|congruence].
    apply He; auto; apply feq_spec; unfold fk in E; repeat split; auto; apply Hn'; auto. }
  assert (Hlt : forall d i x y, nth_error (individuals p) i = Some x -> nth_error (individuals p) (i + S d) = Some y -> (fk x < fk y)%R).
  { induction d as [|d IH]; intros i x y Hi Hj; [apply (Hstep i); auto; rewrite <- Hj; f_equal; lia|].
    destruct (nth_error_lt (individuals p) (i + S d)) as [z Hz].
    { pose proof (nth_error_some_lt _ _ _ Hj); lia. }
    specialize (IH i x z Hi Hz); apply (Rlt_trans _ (fk z)); auto.
    apply (Hstep (i + S d)); auto; rewrite <- Hj; f_equal; lia. }
  intros i j x y Hij Hi Hj.
  assert (Hxy : (fk x < fk y)%R) by (apply (Hlt (j - i - 1) i); auto; rewrite <- Hj; f_equal; lia).
  destruct (ieq io y x) eqn:E; auto; exfalso.
  apply He in E; [|apply Hin; eapply nth_error_In; eauto|apply Hin; eapply nth_error_In; eauto].
  apply feq_spec in E as (_ & _ & E); unfold fk in Hxy; lra.
Qed.

(** ** fittest *)
Lemma from_iter_args (l0 : list f64) : l0 <> [] -> s_arg_max (from_iter f64ops l0) < length l0 /\ s_arg_min (from_iter f64ops l0) < length l0.
Proof.
  induction l0 as [|x l' IH] using rev_ind; [congruence|]; intros _.
  destruct l' as [|y l'']; [cbn; lia|].
  remember (y :: l'') as l' eqn:El; assert (Hne : l' <> []) by (subst; discriminate); clear El y l''.
  rewrite from_iter_snoc, app_length; cbn [length]; destruct (IH Hne) as [A B].
  unfold record; rewrite from_iter_count; destruct (Nat.eqb_spec (length l') 0) as [E|_]; cbn [negb]; [cbn; lia|].
  destruct (n_ltb f64ops x _); destruct (n_ltb f64ops _ x); cbn [s_arg_max s_arg_min]; lia.
Qed.

Lemma fittest_any p : individuals p <> [] -> pop_stats p = stats_of io (individuals p) ->
  exists x, fittest p = Ret x /\ take_fittest p = Ret x /\ In x (individuals p) /\
    nth_error (individuals p) (ps_arg_max (pop_stats p)) = Some x.
Proof.
  intros Hne Hs; unfold fittest, take_fittest, swap_remove; rewrite Hs; unfold ps_arg_max, stats_of; cbn [p_stats].
  destruct (from_iter_args (map (fitness io) (individuals p))) as [A _]; [destruct (individuals p); cbn; congruence|].
  rewrite map_length in A; destruct (nth_error_lt _ _ A) as [x Hx].
  exists x; rewrite (idx_some _ _ _ Hx); split; auto; split; [|split; auto; eapply nth_error_In; eauto].
  cbn [bind]; destruct (nth_error_lt (individuals p) (length (individuals p) - 1)) as [y Hy]; [lia|].
  rewrite Hy; reflexivity.
Qed.

Lemma fittest_max p : well_formed io p ->
  exists x, fittest p = Ret x /\ take_fittest p = Ret x /\ In x (individuals p) /\
    fitness io x = ps_max (pop_stats p) /\
    forall y, In y (individuals p) -> fle (fitness io y) (fitness io x) = true.
Proof.
  intros (Hne & Hn & Hs & Hst); destruct (fittest_any p Hne Hst) as (x & A & B & C & D).
  exists x; split; auto; split; auto; split; auto.
  assert (Hm : map (fitness io) (individuals p) <> []) by (destruct (individuals p); cbn; congruence).
  assert (Hmn : forall z, In z (map (fitness io) (individuals p)) -> is_nan z = false).
  { intros z Hz; apply in_map_iff in Hz as (w & <- & Hw); apply Hn; auto. }
  destruct (extremes_from_iter _ Hm Hmn) as (_ & E & _ & F).
  rewrite Hst in *; unfold ps_arg_max, ps_max, stats_of in *; cbn [p_stats] in *.
  rewrite nth_error_map, D in E; cbn in E; injection E as E; split; auto.
  intros y Hy; apply fle_spec; split; [apply Hn; auto|]; split; [apply Hn; auto|]; rewrite E.
  destruct (In_nth_error _ _ Hy) as [i Hi]; apply (F i); rewrite nth_error_map, Hi; reflexivity.
Qed.

Lemma made_well_formed l p : no_nan io l -> made l p -> well_formed io p.
Proof. intros Hn (A & B & _ & _ & D & E); destruct (E Hn); repeat split; auto. Qed.

(** The best of the vector is kept when equal individuals have equal fitness *)
Lemma best_kept l p x : no_nan io l ->
  (forall a b, In a l -> In b l -> ieq io a b = true -> feq (fitness io a) (fitness io b) = true) ->
  made l p -> fittest p = Ret x -> forall y, In y l -> fle (fitness io y) (fitness io x) = true.
Proof.
  intros Hn He Hm Hx y Hy; pose proof (made_well_formed l p Hn Hm) as Hw.
  destruct (fittest_max p Hw) as (x' & E & _ & Hin & _ & Hmax); rewrite Hx in E; injection E as <-.
  destruct Hm as (_ & (Hsub & Hall) & _).
  destruct (Hall y Hy) as [H|(z & Hz & Ez)]; [auto|].
  apply He in Ez; auto; specialize (Hmax z Hz); apply feq_spec in Ez as (N1 & N2 & K); apply fle_spec in Hmax as (N3 & N4 & K').
  apply fle_spec; repeat split; auto; lra.
Qed.

(** ** Histories of replace *)
Lemma replaces_must p vs : (forall v, In v vs -> v <> []) ->
  must (replaces io p vs) (fun tr =>
    length tr = S (length vs) /\ nth_error tr 0 = Some p /\
    (forall k v q, nth_error vs k = Some v -> nth_error tr (S k) = Some q -> made v q) /\
    (forall k q q', nth_error tr k = Some q -> nth_error tr (S k) = Some q' ->
       generation q' = generation q + 1 /\
       stagnation q' = (if fgt (ps_max (pop_stats q')) (ps_max (pop_stats q)) then 0 else stagnation q + 1))).
Proof.
  revert p; induction vs as [|v vs IH]; intros p Hv; cbn [replaces].
  - cbn; repeat split; auto; try (intros [|k]; cbn; intros; try discriminate); destruct k; discriminate.
  - eapply must_bind_intro; [apply replace_must; apply Hv; cbn; auto|].
    intros [p' old] (Hm & _ & Hg & Hs); cbn [fst] in *.
    eapply must_bind_intro; [apply IH; intros; apply Hv; cbn; auto|].
    intros tr (Hl & H0 & Hmade & Hstep); cbn [must]; split; [cbn; lia|]; split; auto; split.
    + intros [|k] w q Hw Hq; cbn in Hw.
      * change (nth_error tr 0 = Some q) in Hq; rewrite H0 in Hq; injection Hq as <-; injection Hw as <-; auto.
      * eapply Hmade; eauto.
    + intros [|k] q q' Hq Hq'; cbn in Hq.
      * change (nth_error tr 0 = Some q') in Hq'; rewrite H0 in Hq'; injection Hq' as <-; injection Hq as <-; auto.
      * eapply Hstep; eauto.
Qed.

Lemma history p vs : (forall v, In v vs -> v <> []) ->
  must (replaces io p vs) (fun tr =>
    length tr = S (length vs) /\
    forall k q, nth_error tr k = Some q ->
      generation q = generation p + k /\
      exists j, j <= k /\ (forall i, j < i <= k -> ~ improved tr i) /\
        ((j = 0 /\ stagnation q = stagnation p + k) \/ (1 <= j /\ improved tr j /\ stagnation q = k - j))).
Proof.
  intros Hv; eapply must_mono; [|apply replaces_must; auto]; intros tr (Hl & H0 & _ & Hstep); split; auto.
  induction k as [|k IH]; intros q Hq.
  - rewrite H0 in Hq; injection Hq as <-; split; [lia|]; exists 0; split; auto; split; [intros; lia|]; left; lia.
  - destruct (nth_error_lt tr k) as [q0 Hq0]; [pose proof (nth_error_some_lt _ _ _ Hq); lia|].
    destruct (IH q0 Hq0) as [Hg (j & Hj & Hno & Hcase)].
    destruct (Hstep k q0 q Hq0 Hq) as [Hg' Hs']; split; [lia|].
    destruct (fgt (ps_max (pop_stats q)) (ps_max (pop_stats q0))) eqn:E.
    + exists (S k); split; auto; split; [intros; lia|]; right; split; [lia|]; split; [|lia].
      exists q0, q; repeat split; auto; replace (S k - 1) with k by lia; auto.
    + exists j; split; [lia|]; split.
      * intros i Hi; destruct (Nat.eq_dec i (S k)) as [->|]; [|apply Hno; lia].
        intros (a & b & Ha & Hb & Hab); replace (S k - 1) with k in Ha by lia.
        rewrite Hq0 in Ha; rewrite Hq in Hb; injection Ha as <-; injection Hb as <-; congruence.
      * destruct Hcase as [[-> Hs]|(H1 & Hi & Hs)]; [left; split; auto; lia|right; repeat split; auto; lia].
Qed.

(** ** Panicking replace *)
Lemma replace_catch_relates p l :
  forall r, (may (population_replace io p l) r <-> may (population_replace_catch io p l) (inl r)) /\
  (may_fail (population_replace io p l) Panic <-> exists s, may (population_replace_catch io p l) (inr s)).
Proof.
  intros r; unfold population_replace, population_replace_catch, sort_dedup_and_collect_stats; cbv zeta; split.
  - rewrite !may_bind; split.
    + intros ([r' st] & H & E); apply may_bind in H as (s & Hs & H); exists s; split; auto.
      apply may_bind in H as (st' & Hst & H).
      destruct (populated_try_from _) as [st0|]; cbn in Hst; [|destruct Hst]; subst st'.
      cbn in H; injection H as <- <-; cbn in *; congruence.
    + intros (s & Hs & H).
      destruct (populated_try_from (from_iter f64ops (map (fitness io) (dedup io s)))) as [st0|] eqn:Et; cbn in H; [|discriminate].
      exists (dedup io s, st0); split; [|cbn; congruence].
      apply may_bind; exists s; split; auto; rewrite Et; reflexivity.
  - rewrite may_fail_bind; split.
    + intros [H|([r' st] & _ & H)]; [|cbn in H; tauto].
      apply may_fail_bind in H as [H|(s & Hs & H)].
      * unfold par_sort_unstable, pick_from in H; cbn in H; destruct H as (i & Hi & H).
        destruct (nth_error (sort_results io l) (N.to_nat i)) eqn:E; [cbn in H; tauto|].
        apply nth_error_None in E; lia.
      * apply may_fail_bind in H as [H|(st & _ & H)]; [|cbn in H; tauto].
        eexists; apply may_bind; exists s; split; [exact Hs|].
        destruct (populated_try_from _); cbn in H; [tauto|reflexivity].
    + intros (st & H); apply may_bind in H as (s & Hs & H); left.
      apply may_fail_bind; right; exists s; split; auto; apply may_fail_bind; left.
      destruct (populated_try_from _); cbn in *; [discriminate|reflexivity].
Qed.

Lemma replace_panic_state p :
  must (population_replace_catch io p []) (fun o => exists q, o = inr (q, individuals p) /\
    individuals q = [] /\ generation q = generation p /\ stagnation q = stagnation p /\ pop_stats q = pop_stats p /\
    fittest q = Fail Panic /\ take_fittest q = Fail Panic).
Proof.
  unfold population_replace_catch; cbv zeta; apply must_bind, must_sort; intros r HP _.
  apply Permutation_nil in HP; subst r; cbn; eexists; split; [reflexivity|]; cbn; repeat split; auto;
  unfold fittest, take_fittest, swap_remove, idx; cbn; destruct (ps_arg_max (pop_stats p)); reflexivity.
Qed.

(** ** The orders *)
Lemma order_laws x y z : nn x -> nn y -> nn z ->
  compare_fitness io x x = Eq /\
  compare_fitness io y x = CompOpp (compare_fitness io x y) /\
  (compare_fitness io x y <> Gt -> compare_fitness io y z <> Gt -> compare_fitness io x z <> Gt) /\
  (compare_fitness io x y = Eq <-> wrapper_eq io (wrapper_from x) (wrapper_from y) = true) /\
  wrapper_partial_cmp io (wrapper_from x) (wrapper_from y) = Some (compare_fitness io x y) /\
  (compare_fitness io x y = Lt <-> flt (fitness io x) (fitness io y) = true).
Proof.
  intros Hx Hy Hz; rewrite !compare_key by auto.
  split; [destruct (Rcompare_spec (fk x) (fk x)); auto; lra|].
  split; [destruct (Rcompare_spec (fk y) (fk x)); destruct (Rcompare_spec (fk x) (fk y)); cbn; auto; lra|].
  split; [destruct (Rcompare_spec (fk x) (fk y)); destruct (Rcompare_spec (fk y) (fk z)); destruct (Rcompare_spec (fk x) (fk z)); try congruence; lra|].
  split; [unfold wrapper_eq, wrapper_from; cbn [w_i]; rewrite feq_spec; fold (fk x) (fk y); unfold nn in *;
          destruct (Rcompare_spec (fk x) (fk y)); split; intros; try tauto; try discriminate; try lra|].
  split; [unfold wrapper_partial_cmp, wrapper_from; cbn [w_i]; rewrite fcmp_key by auto; auto|].
  rewrite flt_spec; fold (fk x) (fk y); unfold nn in *.
  destruct (Rcompare_spec (fk x) (fk y)); split; intros; try tauto; try discriminate; try lra.
Qed.

Lemma wrapper_agrees x y : wrapper_cmp io (wrapper_from x) (wrapper_from y) = compare_fitness io x y /\
  wrapper_take (wrapper_from x) = x.
Proof. split; reflexivity. Qed.

Lemma nan_order x y : is_nan (fitness io x) = true ->
  compare_fitness io x y = Eq /\ compare_fitness io y x = Eq /\
  wrapper_eq io (wrapper_from x) (wrapper_from x) = false /\ wrapper_cmp io (wrapper_from x) (wrapper_from x) = Eq /\
  wrapper_partial_cmp io (wrapper_from x) (wrapper_from y) = None.
Proof.
  intros Hx; unfold compare_fitness, wrapper_eq, wrapper_cmp, wrapper_partial_cmp, wrapper_from; cbn [w_i].
  rewrite feq_fcmp, !(fcmp_nan_l (fitness io x)) by auto; rewrite fcmp_nan_r by auto; repeat split; auto.
Qed.
End Pop.

Lemma order_not_transitive :
  compare_fitness ex_iof f2 f_nan = Eq /\ compare_fitness ex_iof f_nan f1 = Eq /\ compare_fitness ex_iof f2 f1 = Gt.
Proof. vm_compute; auto. Qed.

Lemma unique_refuted : exists (l : list (nat * nat)) (p : population (nat * nat)),
  may (population_new ex_io2 l) p /\
  exists i j x y, i < j /\ nth_error (individuals p) i = Some x /\ nth_error (individuals p) j = Some y /\ ieq ex_io2 y x = true.
Proof.
  exists [(1, 0); (1, 1); (1, 0)], (ex_popn ex_io2 [(1, 0); (1, 1); (1, 0)]); split.
  - apply new_may; [discriminate|]; exists [(1, 0); (1, 1); (1, 0)]; split; [apply Permutation_refl|]; split.
    + intros _ i j x y Hij Hi Hj.
      assert (Ex : fst x = 1) by (apply nth_error_In in Hi; cbn in Hi; destruct Hi as [<-|[<-|[<-|[]]]]; auto).
      assert (Ey : fst y = 1) by (apply nth_error_In in Hj; cbn in Hj; destruct Hj as [<-|[<-|[<-|[]]]]; auto).
      cbn [fitness ex_io2]; rewrite Ex, Ey; vm_compute; reflexivity.
    + reflexivity.
  - exists 0, 2, (1, 0), (1, 0); repeat split; auto.
Qed.

Section Statements.
Context {I : Type} (io : individual_ops I).

Lemma built_from_made l p : l <> [] -> built_from io l p -> made io l p.
Proof.
  intros Hl [H|(q & H)].
  - apply (must_may _ _ _ (new_must io l Hl) H).
  - apply (must_may _ _ _ (replace_must io q l Hl) H).
Qed.

Lemma built_from_nonempty l p : built_from io l p -> l <> [].
Proof.
  intros [H|(q & H)] ->.
  - eapply must_fail_no_may; [apply (new_empty io)|exact H].
  - eapply must_fail_no_may; [apply (replace_empty io q)|exact H].
Qed.

Lemma c46_new l :
  (l = [] -> must_fail (population_new io l) Panic) /\
  (l <> [] -> must (population_new io l) (fun p =>
     generation p = 0 /\ stagnation p = 0 /\
     individuals p <> [] /\ same_individuals io l (individuals p) /\ length (individuals p) <= length l /\
     pop_stats p = stats_of io (individuals p) /\
     (no_nan io l -> well_formed io p))).
Proof.
  split; [intros ->; apply new_empty|]; intros Hl; eapply must_mono; [|apply new_must; auto].
  intros p (Hm & Hg & Hs); pose proof Hm as (A & B & _ & C & D & E); repeat split; auto; try (apply B); try (apply E); auto.
Qed.

Lemma c46_replace p l :
  (l = [] -> must_fail (population_replace io p l) Panic) /\
  (l <> [] -> must (population_replace io p l) (fun '(q, _) =>
     individuals q <> [] /\ same_individuals io l (individuals q) /\ length (individuals q) <= length l /\
     pop_stats q = stats_of io (individuals q) /\
     (no_nan io l -> well_formed io q))).
Proof.
  split; [intros ->; apply replace_empty|]; intros Hl; eapply must_mono; [|apply replace_must; auto].
  intros [q old] (Hm & _); cbn [fst] in *; pose proof Hm as (A & B & _ & C & D & E); repeat split; auto; try (apply B); try (apply E); auto.
Qed.

Lemma c46_try_from l :
  (l = [] -> population_try_from io l = Ret (inr [])) /\
  (l <> [] -> must (population_try_from io l) (fun o => exists p, o = inl p /\ built_from io l p)).
Proof.
  split; [intros ->; reflexivity|]; intros Hl; destruct l as [|h t]; [congruence|].
  unfold population_try_from; apply must_bind, (must_strengthen _ _ _ (new_must io (h :: t) Hl)).
  intros p Hp _; cbn; exists p; split; auto; left; auto.
Qed.

Lemma c47_adjacent l p : built_from io l p -> no_adjacent_equal io (individuals p).
Proof. intros H; pose proof (built_from_nonempty _ _ H) as Hl; apply (built_from_made l p Hl H). Qed.

Lemma c47_unique l p : built_from io l p -> no_nan io l ->
  (forall x y, In x l -> In y l -> (ieq io x y = true <-> feq (fitness io x) (fitness io y) = true)) ->
  forall i j x y, i < j -> nth_error (individuals p) i = Some x -> nth_error (individuals p) j = Some y -> ieq io y x = false.
Proof.
  intros H; pose proof (built_from_nonempty _ _ H) as Hl; intros Hn He; apply (unique_if_fitness_decides io l p Hn He), built_from_made; auto.
Qed.

Lemma c48 l p : built_from io l p ->
  exists x, fittest p = Ret x /\ take_fittest p = Ret x /\ In x (individuals p) /\
    (no_nan io l -> fitness io x = ps_max (pop_stats p) /\
       forall y, In y (individuals p) -> fle (fitness io y) (fitness io x) = true).
Proof.
  intros H; pose proof (built_from_nonempty _ _ H) as Hl; pose proof (built_from_made l p Hl H) as Hm.
  pose proof Hm as (A & _ & _ & _ & D & _).
  destruct (fittest_any io p A D) as (x & X & Y & Z & _); exists x; repeat split; auto;
    destruct (fittest_max io p (made_well_formed io l p H0 Hm)) as (x' & E & _ & _ & K & L); rewrite X in E; injection E as <-; auto.
Qed.

Lemma c73_best l p x : built_from io l p -> no_nan io l ->
  (forall a b, In a l -> In b l -> ieq io a b = true -> feq (fitness io a) (fitness io b) = true) ->
  fittest p = Ret x -> In x l /\ forall y, In y l -> fle (fitness io y) (fitness io x) = true.
Proof.
  intros H Hn He Hx; pose proof (built_from_nonempty _ _ H) as Hl; pose proof (built_from_made l p Hl H) as Hm; split.
  - destruct (c48 l p H) as (x' & E & _ & Hin & _); rewrite Hx in E; injection E as <-; apply Hm; auto.
  - eapply best_kept; eauto.
Qed.

Lemma c49_step p l : l <> [] ->
  must (population_replace io p l) (fun '(q, _) =>
    generation q = generation p + 1 /\
    stagnation q = (if fgt (ps_max (pop_stats q)) (ps_max (pop_stats p)) then 0 else stagnation p + 1)).
Proof. intros Hl; eapply must_mono; [|apply replace_must; auto]; intros [q old] (_ & _ & H); exact H. Qed.

Lemma c50_old p l : l <> [] -> must (population_replace io p l) (fun '(_, old) => old = individuals p).
Proof. intros Hl; eapply must_mono; [|apply replace_must; auto]; intros [q old] (_ & H & _); exact H. Qed.

Lemma c51_order x y z :
  f_is_nan (fitness io x) = false -> f_is_nan (fitness io y) = false -> f_is_nan (fitness io z) = false ->
  compare_fitness io x x = Eq /\
  compare_fitness io y x = CompOpp (compare_fitness io x y) /\
  (compare_fitness io x y <> Gt -> compare_fitness io y z <> Gt -> compare_fitness io x z <> Gt) /\
  (compare_fitness io x y = Lt <-> flt (fitness io x) (fitness io y) = true) /\
  (compare_fitness io x y = Eq <-> wrapper_eq io (wrapper_from x) (wrapper_from y) = true) /\
  wrapper_partial_cmp io (wrapper_from x) (wrapper_from y) = Some (compare_fitness io x y).
Proof. intros Hx Hy Hz; destruct (order_laws io x y z Hx Hy Hz); tauto. Qed.
End Statements.

Lemma best_lost : exists (l : list (nat * nat)) (p : population (nat * nat)) x y,
  built_from ex_io3 l p /\ fittest p = Ret x /\ In y l /\ flt (fitness ex_io3 x) (fitness ex_io3 y) = true.
Proof.
  exists [(2, 0); (1, 0)], (ex_popn ex_io3 [(1, 0)]), (1, 0), (2, 0); split; [left|split; [reflexivity|split; [cbn; auto|vm_compute; auto]]].
  apply new_may; [discriminate|]; exists [(1, 0); (2, 0)]; split; [apply perm_swap|]; split; [|reflexivity].
  intros _ i j x y Hij Hi Hj.
  destruct i as [|[|i]]; [|destruct j as [|[|[|j]]]; cbn in Hj; try discriminate; lia|cbn in Hi; destruct i; discriminate].
  destruct j as [|[|j]]; [lia| |cbn in Hj; destruct j; discriminate].
  cbn in Hi, Hj; injection Hi as <-; injection Hj as <-; vm_compute; reflexivity.
Qed.
