(** * PDirection: mutations and the direction of a route (C129). *)
From Coq Require Import List Bool Arith NArith Reals Lia Lra Permutation Classical.
From Verif Require Import Rnd Prob LRnd LProb MOperators MMutation Spec SpecBack SpecT LGenes PCrossoverPmx PCrossoverOx POperatorsRandom
  PMutation PMutationProb PShuffle PTour PMix PCover PWhere.
Import ListNotations.
Local Open Scope R_scope.

Lemma turned_pairs {A B} n (f : nat * nat -> M A) (f' : nat * nat -> M B) g g' : (2 <= n)%nat ->
  (forall i j, (i < n)%nat -> (j < n)%nat -> expect (f' (i, j)) g' = expect (f (n - 1 - i, n - 1 - j)%nat) g) ->
  expect (bind (random_pair n) f') g' = expect (bind (random_pair n) f) g.
Proof.
  intros Hn H; rewrite !expect_bind, !pair_law by auto; unfold Rdiv; f_equal.
  rewrite <- (Rsum_rev n (fun i => Rsum n (fun j => expect (f (i, j)) g) - expect (f (i, i)) g)); apply Rsum_ext; intros i Hi.
  rewrite <- (Rsum_rev n (fun j => expect (f ((n - 1 - i)%nat, j)) g)); f_equal; [|rewrite H by auto; reflexivity].
  apply Rsum_ext; intros j Hj; apply H; auto.
Qed.
Lemma turned_ranges {A B} n (f : nat * nat -> M A) (f' : nat * nat -> M B) g g' : (2 <= n)%nat ->
  (forall a b, (a < b)%nat -> (b <= n)%nat -> expect (f' (a, b)) g' = expect (f (n - b, n - a)%nat) g) ->
  expect (bind (bounded_random_range n 2 n) f') g' = expect (bind (bounded_random_range n 2 n) f) g.
Proof.
  intros Hn H; rewrite !expect_bind, !range_law by auto; f_equal; apply Rsum_ext; intros k Hk; f_equal.
  rewrite <- (Rsum_rev (n - 1 - k) (fun a => expect (f (a, (a + (k + 2))%nat)) g)); apply Rsum_ext; intros a Ha.
  rewrite H by lia; do 3 f_equal; lia.
Qed.

Section Direction.
Context {G : Type} (eqb : G -> G -> bool) (Heq : eq_ok eqb).
Implicit Types l r : list G.

Lemma eqb_turned x r : route_eqb eqb (rev r) (rev x) = route_eqb eqb r x.
Proof.
  apply bool_iff; rewrite !(route_eqb_spec eqb Heq); split; [|congruence].
  intros E; rewrite <- (rev_involutive r), E, rev_involutive; auto.
Qed.
Lemma upd_rev l i x : (i < length l)%nat -> upd (rev l) i x = rev (upd l (length l - 1 - i) x).
Proof.
  intros Hi; apply list_ext; intros k; destruct (Nat.lt_ge_cases k (length l)) as [Hk|Hk].
  - rewrite nth_error_upd, rev_length, (nth_error_rev (upd _ _ _)), nth_error_upd, upd_length by (rewrite upd_length; auto).
    rewrite (nth_error_rev l k) by auto.
    destruct (Nat.eqb_spec i k), (Nat.eqb_spec (length l - 1 - i) (length l - 1 - k)), (Nat.ltb_spec k (length l)), (Nat.ltb_spec (length l - 1 - k) (length l)); try lia; auto.
  - rewrite !(proj2 (nth_error_None _ _)); auto; rewrite ?rev_length, ?upd_length, ?rev_length; auto.
Qed.
Lemma slices l a b : (a <= b)%nat -> (b <= length l)%nat ->
  firstn a (rev l) = rev (skipn (length l - a) l) /\ skipn b (rev l) = rev (firstn (length l - b) l) /\
  firstn (b - a) (skipn a (rev l)) = rev (firstn (length l - a - (length l - b)) (skipn (length l - b) l)).
Proof.
  intros Ha Hb; rewrite firstn_rev, skipn_rev; repeat split.
  rewrite skipn_rev, firstn_rev, firstn_length_le by lia; f_equal.
  rewrite skipn_firstn_comm; f_equal; [lia|f_equal; lia].
Qed.

Lemma swap_direction l r : (2 <= length l)%nat ->
  prob (mutate Swap (rev l)) (route_eqb eqb (rev r)) = prob (mutate Swap l) (route_eqb eqb r).
Proof.
  intros Hl; cbn [mutate]; unfold swap_mutation; rewrite rev_length, (proj2 (Nat.ltb_ge _ _) Hl), !prob_expect.
  apply turned_pairs; auto; intros i j Hi Hj.
  destruct (nth_error_lt l (length l - 1 - i) ltac:(lia)) as [x Hx]; destruct (nth_error_lt l (length l - 1 - j) ltac:(lia)) as [y Hy].
  rewrite (swap_ok (rev l) i j x y), (swap_ok l _ _ x y) by (rewrite ?nth_error_rev; auto); cbn [expect].
  rewrite upd_rev by auto; rewrite upd_rev, upd_length by (rewrite upd_length; auto); rewrite eqb_turned; reflexivity.
Qed.
Lemma duplicate_direction l r : (2 <= length l)%nat ->
  prob (mutate Duplicate (rev l)) (route_eqb eqb (rev r)) = prob (mutate Duplicate l) (route_eqb eqb r).
Proof.
  intros Hl; cbn [mutate]; unfold duplicate_mutation; rewrite rev_length, (proj2 (Nat.ltb_ge _ _) Hl), !prob_expect.
  apply turned_pairs; auto; intros i j Hi Hj.
  destruct (nth_error_lt l (length l - 1 - i) ltac:(lia)) as [x Hx].
  rewrite (idx_some (rev l) i x), (idx_some l _ x) by (rewrite ?nth_error_rev; auto); cbn [bind].
  rewrite !set_ok by (rewrite ?rev_length; lia); cbn [expect]; rewrite upd_rev, eqb_turned by auto; reflexivity.
Qed.
Lemma inversion_direction l r : (2 <= length l)%nat ->
  prob (mutate Inversion (rev l)) (route_eqb eqb (rev r)) = prob (mutate Inversion l) (route_eqb eqb r).
Proof.
  intros Hl; cbn [mutate]; unfold inversion_mutation; rewrite rev_length, (proj2 (Nat.ltb_ge _ _) Hl), !prob_expect.
  apply turned_ranges; auto; intros a b Ha Hb.
  destruct (slices l a b) as (E1 & E2 & E3); [lia|lia|].
  rewrite !slice_ok by (rewrite ?rev_length; lia); cbn [bind]; rewrite E3.
  rewrite !copy_range_ok by (rewrite ?rev_length, ?firstn_length_le; rewrite ?skipn_length; lia); cbn [expect].
  rewrite E1, E2, <- (eqb_turned _ r), !(rev_app_distr (firstn _ l)), !rev_app_distr, <- app_assoc; reflexivity.
Qed.
Lemma shuffle_direction s A B r : NoDup s ->
  expect (shuffle (rev s)) (fun x => if route_eqb eqb (rev r) (rev B ++ x ++ rev A) then 1 else 0) =
  expect (shuffle s) (fun x => if route_eqb eqb r (A ++ x ++ B) then 1 else 0).
Proof.
  intros Hn; rewrite <- !(prob_expect _ (fun x => route_eqb eqb _ (_ ++ x ++ _))).
  destruct (classic (exists t, Permutation s t /\ r = A ++ t ++ B)) as [(t & Ht & ->)|Hno].
  - rewrite (shuffle_law (rev s) (rev t)), (shuffle_law s t); auto.
    + rewrite rev_length; auto.
    + intros x; rewrite (route_eqb_spec eqb Heq); split; [|congruence]; intros E; apply app_inv_head, app_inv_tail in E; auto.
    + apply NoDup_rev; auto.
    + rewrite <- !Permutation_rev; auto.
    + intros x; rewrite (route_eqb_spec eqb Heq), !rev_app_distr, <- app_assoc; split; [|congruence].
      intros E; apply app_inv_head, app_inv_tail in E; auto.
  - rewrite (prob_zero _ _ _ (shuffle_spec s)), (prob_zero _ _ _ (shuffle_spec (rev s))); auto.
    + intros x Hx; apply not_true_is_false; intros E; apply Hno; apply (route_eqb_spec eqb Heq) in E.
      apply (must_may _ _ _ (shuffle_spec (rev s))) in Hx; exists (rev x); split.
      * rewrite <- Permutation_rev, <- Hx, <- Permutation_rev; auto.
      * rewrite <- (rev_involutive r), E, !rev_app_distr, !rev_involutive, <- app_assoc; auto.
    + intros x Hx; apply not_true_is_false; intros E; apply Hno; apply (route_eqb_spec eqb Heq) in E.
      apply (must_may _ _ _ (shuffle_spec s)) in Hx; exists x; auto.
Qed.
Lemma scramble_direction l r : (2 <= length l)%nat -> NoDup l ->
  prob (mutate Scramble (rev l)) (route_eqb eqb (rev r)) = prob (mutate Scramble l) (route_eqb eqb r).
Proof.
  intros Hl Hn; cbn [mutate]; unfold scramble_mutation; rewrite rev_length, (proj2 (Nat.ltb_ge _ _) Hl), !prob_expect.
  apply turned_ranges; auto; intros a b Ha Hb.
  destruct (slices l a b) as (E1 & E2 & E3); [lia|lia|].
  rewrite !slice_ok by (rewrite ?rev_length; lia); cbn [bind]; rewrite E3, !expect_bind.
  set (s := firstn (length l - a - (length l - b)) (skipn (length l - b) l)).
  assert (Ls : length s = (b - a)%nat) by (unfold s; rewrite firstn_length_le; rewrite ?skipn_length; lia).
  assert (Hs : NoDup s) by (apply (segment_nodup l (length l - b) (length l - a)); auto).
  etransitivity; [|etransitivity; [exact (shuffle_direction s (firstn (length l - b) l) (skipn (length l - a) l) r Hs)|]].
  - apply expect_supp; [apply no_pick_shuffle|]; intros x Hx; apply (must_may _ _ _ (shuffle_spec _)), Permutation_length in Hx.
    rewrite rev_length in Hx; rewrite copy_range_ok by (rewrite ?rev_length; lia); cbn [expect]; rewrite E1, E2; reflexivity.
  - apply expect_supp; [apply no_pick_shuffle|]; intros x Hx; apply (must_may _ _ _ (shuffle_spec _)), Permutation_length in Hx.
    rewrite copy_range_ok by lia; cbn [expect]; reflexivity.
Qed.
Lemma c129_direction s l r : s <> Insertion -> NoDup l ->
  prob (mutate s (rev l)) (route_eqb eqb (rev r)) = prob (mutate s l) (route_eqb eqb r).
Proof.
  intros Hs Hn; destruct (Nat.lt_ge_cases (length l) 2) as [H|H].
  - assert (E : forall m : list G, (length m < 2)%nat -> mutate s m = Ret m).
    { intros m Hm; destruct s; cbn [mutate]; unfold swap_mutation, scramble_mutation, inversion_mutation, insertion_mutation, duplicate_mutation;
      rewrite (proj2 (Nat.ltb_lt _ _) Hm); auto. }
    rewrite !E by (rewrite ?rev_length; auto); unfold prob; cbn; rewrite eqb_turned; reflexivity.
  - destruct s; [apply swap_direction|apply scramble_direction|apply inversion_direction|congruence|apply duplicate_direction]; auto.
Qed.
End Direction.

(** ** Swap and duplicate do not care about positions at all *)
Lemma bij_all n (s : nat -> nat) : (forall i, (i < n)%nat -> (s i < n)%nat) -> (forall i j, (i < n)%nat -> (j < n)%nat -> s i = s j -> i = j) ->
  Permutation (map s (seq 0 n)) (seq 0 n).
Proof.
  intros Hb Hi; apply NoDup_Permutation_bis.
  - assert (H : forall m, incl m (seq 0 n) -> NoDup m -> NoDup (map s m)).
    { induction m as [|x m IH]; intros Hm Hn; cbn; [constructor|]; inversion Hn as [|? ? Hx Hn']; subst; constructor.
      - intros Hin; apply in_map_iff in Hin as (y & Ey & Hy); apply Hx; replace x with y; auto.
        apply Hi; auto; [specialize (Hm y (or_intror Hy))|specialize (Hm x (or_introl eq_refl))]; apply in_seq in Hm; lia.
      - apply IH; auto; intros z Hz; apply Hm; right; auto. }
    apply H; [apply incl_refl|apply seq_NoDup].
  - rewrite map_length; auto.
  - intros x Hx; apply in_map_iff in Hx as (y & <- & Hy); apply in_seq in Hy; apply in_seq; specialize (Hb y ltac:(lia)); lia.
Qed.
Lemma sum_perm (l m : list R) : Permutation l m -> fold_right Rplus 0 l = fold_right Rplus 0 m.
Proof. induction 1; cbn; lra. Qed.
Lemma Rsum_bij n s f : (forall i, (i < n)%nat -> (s i < n)%nat) -> (forall i j, (i < n)%nat -> (j < n)%nat -> s i = s j -> i = j) ->
  Rsum n (fun i => f (s i)) = Rsum n f.
Proof. intros Hb Hi; unfold Rsum; rewrite <- (map_map s f); apply sum_perm, Permutation_map, bij_all; auto. Qed.

Section Positions.
Context {G : Type} (eqb : G -> G -> bool) (Heq : eq_ok eqb) (n : nat) (s : nat -> nat).
Hypothesis (Hb : forall i, (i < n)%nat -> (s i < n)%nat) (Hi : forall i j, (i < n)%nat -> (j < n)%nat -> s i = s j -> i = j).
Implicit Types l r : list G.
Definition carried l l' : Prop := length l = n /\ length l' = n /\ forall i, (i < n)%nat -> nth_error l' i = nth_error l (s i).

Lemma carried_eqb r r' x x' : carried r r' -> carried x x' -> route_eqb eqb r' x' = route_eqb eqb r x.
Proof.
  intros (R1 & R2 & R3) (X1 & X2 & X3); apply bool_iff; rewrite !(route_eqb_spec eqb Heq); split; intros E.
  - apply list_ext; intros j; destruct (Nat.lt_ge_cases j n) as [Hj|Hj].
    + assert (Hin : In j (map s (seq 0 n))) by (apply (Permutation_in _ (Permutation_sym (bij_all n s Hb Hi))), in_seq; lia).
      apply in_map_iff in Hin as (i & <- & H); apply in_seq in H; rewrite <- R3, <- X3 by lia; congruence.
    + rewrite !(proj2 (nth_error_None _ _)); auto; lia.
  - apply list_ext; intros j; destruct (Nat.lt_ge_cases j n) as [Hj|Hj].
    + rewrite R3, X3 by auto; congruence.
    + rewrite !(proj2 (nth_error_None _ _)); auto; lia.
Qed.
Lemma carried_upd l l' i x : (i < n)%nat -> carried l l' -> carried (upd l (s i) x) (upd l' i x).
Proof.
  intros H (L1 & L2 & L3); unfold carried; rewrite !upd_length; split; [auto|]; split; [auto|]; intros k Hk.
  rewrite !nth_error_upd, L3, L1, L2 by auto; specialize (Hb k Hk).
  destruct (Nat.eqb_spec i k), (Nat.eqb_spec (s i) (s k)), (Nat.ltb_spec k n), (Nat.ltb_spec (s k) n); auto; try lia; subst; try congruence.
  exfalso; auto.
Qed.
Lemma carried_pairs {A B} (f : nat * nat -> M A) (f' : nat * nat -> M B) g g' : (2 <= n)%nat ->
  (forall i j, (i < n)%nat -> (j < n)%nat -> expect (f' (i, j)) g' = expect (f (s i, s j)) g) ->
  expect (bind (random_pair n) f') g' = expect (bind (random_pair n) f) g.
Proof.
  intros Hn H; rewrite !expect_bind, !pair_law by auto; unfold Rdiv; f_equal.
  rewrite <- (Rsum_bij n s (fun i => Rsum n (fun j => expect (f (i, j)) g) - expect (f (i, i)) g)) by auto; apply Rsum_ext; intros i Hi'.
  rewrite <- (Rsum_bij n s (fun j => expect (f (s i, j)) g)) by auto; f_equal; [|rewrite H by auto; reflexivity].
  apply Rsum_ext; intros j Hj; apply H; auto.
Qed.
Lemma positions_alike m l l' r r' : m = Swap \/ m = Duplicate -> carried l l' -> carried r r' ->
  prob (mutate m l') (route_eqb eqb r') = prob (mutate m l) (route_eqb eqb r).
Proof.
  intros Hm Hl Hr; pose proof Hl as (L1 & L2 & L3); destruct (Nat.lt_ge_cases n 2) as [H|H].
  - destruct Hm as [-> | ->]; cbn [mutate]; unfold swap_mutation, duplicate_mutation; rewrite L1, L2, (proj2 (Nat.ltb_lt _ _) H); unfold prob; cbn;
    rewrite (carried_eqb r r' l l') by auto; auto.
  - destruct Hm as [-> | ->]; cbn [mutate]; unfold swap_mutation, duplicate_mutation; rewrite L1, L2, (proj2 (Nat.ltb_ge _ _) H), !prob_expect;
    apply carried_pairs; auto; intros i j Hi' Hj; pose proof (Hb i Hi'); pose proof (Hb j Hj);
    destruct (nth_error_lt l (s i) ltac:(lia)) as [x Hx]; destruct (nth_error_lt l (s j) ltac:(lia)) as [y Hy].
    + rewrite (swap_ok l' i j x y), (swap_ok l _ _ x y) by (rewrite ?L3; auto); cbn [expect].
      rewrite (carried_eqb r r' (upd (upd l (s i) y) (s j) x) (upd (upd l' i y) j x)); auto; do 2 (apply carried_upd; auto).
    + rewrite (idx_some l' i x), (idx_some l _ x) by (rewrite ?L3; auto); cbn [bind]; rewrite !set_ok by lia; cbn [expect].
      rewrite (carried_eqb r r' (upd l (s j) x) (upd l' j x)); auto; apply carried_upd; auto.
Qed.
End Positions.
Lemma c129_positions {G} (eqb : G -> G -> bool) (Heq : eq_ok eqb) m (s : nat -> nat) (l l' r r' : list G) :
  m = Swap \/ m = Duplicate ->
  (forall i, (i < length l)%nat -> (s i < length l)%nat) -> (forall i j, (i < length l)%nat -> (j < length l)%nat -> s i = s j -> i = j) ->
  length l' = length l -> length r = length l -> length r' = length l ->
  (forall i, (i < length l)%nat -> nth_error l' i = nth_error l (s i)) -> (forall i, (i < length l)%nat -> nth_error r' i = nth_error r (s i)) ->
  prob (mutate m l') (route_eqb eqb r') = prob (mutate m l) (route_eqb eqb r).
Proof. intros Hm Hb Hi L1 L2 L3 H1 H2; apply (positions_alike eqb Heq (length l) s Hb Hi); unfold carried; auto. Qed.

(** ** Insertion prefers a direction *)
Ltac numbers := unfold prob; cbn; unfold Rsum;
  repeat (change (Pos.to_nat 1) with 1%nat; change (Pos.to_nat 2) with 2%nat; change (Pos.to_nat 3) with 3%nat; change (Pos.to_nat 4) with 4%nat; cbn); field.
Lemma c129_insertion_refuted :
  prob (mutate Insertion [0; 1; 2]%nat) (route_eqb Nat.eqb [2; 0; 1]%nat) = 1 / 3 /\
  prob (mutate Insertion [2; 1; 0]%nat) (route_eqb Nat.eqb [1; 0; 2]%nat) = 0.
Proof. split; numbers. Qed.
Lemma c129_refuted : exists l r : list nat, NoDup l /\
  prob (mutate Insertion (rev l)) (route_eqb Nat.eqb (rev r)) <> prob (mutate Insertion l) (route_eqb Nat.eqb r).
Proof.
  exists [0; 1; 2]%nat, [2; 0; 1]%nat; split; [repeat constructor; cbn; intuition congruence|].
  destruct c129_insertion_refuted as [E1 E2]; cbn [rev app]; rewrite E1, E2; lra.
Qed.
Lemma c129_example :
  prob (mutate Scramble [0; 1; 2; 3]%nat) (route_eqb Nat.eqb [1; 0; 2; 3]%nat) = 7 / 72 /\
  prob (mutate Scramble [3; 2; 1; 0]%nat) (route_eqb Nat.eqb [3; 2; 0; 1]%nat) = 7 / 72.
Proof. split; numbers. Qed.
Lemma c129_turned_refuted m : m = Inversion \/ m = Insertion \/ m = Scramble -> exists (l r : list nat) (k : nat), NoDup l /\ (k <= length l)%nat /\
  prob (mutate m (rotated l k)) (route_eqb Nat.eqb (rotated r k)) <> prob (mutate m l) (route_eqb Nat.eqb r).
Proof.
  intros Hm; assert (Hn : NoDup [0; 1; 2]%nat) by (repeat constructor; cbn; intuition congruence).
  destruct Hm as [-> | [-> | ->]].
  - exists [0; 1; 2]%nat, [2; 1; 0]%nat, 1%nat; split; [auto|]; split; [cbn; lia|].
    assert (E1 : prob (mutate Inversion [0; 1; 2]%nat) (route_eqb Nat.eqb [2; 1; 0]%nat) = 1 / 2) by numbers.
    assert (E2 : prob (mutate Inversion [1; 2; 0]%nat) (route_eqb Nat.eqb [1; 0; 2]%nat) = 1 / 4) by numbers.
    unfold rotated; cbn [skipn firstn app]; rewrite E1, E2; lra.
  - exists [0; 1; 2]%nat, [1; 0; 2]%nat, 1%nat; split; [auto|]; split; [cbn; lia|].
    assert (E1 : prob (mutate Insertion [0; 1; 2]%nat) (route_eqb Nat.eqb [1; 0; 2]%nat) = 1 / 3) by numbers.
    assert (E2 : prob (mutate Insertion [1; 2; 0]%nat) (route_eqb Nat.eqb [0; 2; 1]%nat) = 0) by numbers.
    unfold rotated; cbn [skipn firstn app]; rewrite E1, E2; lra.
  - exists [0; 1; 2]%nat, [1; 0; 2]%nat, 1%nat; split; [auto|]; split; [cbn; lia|].
    assert (E1 : prob (mutate Scramble [0; 1; 2]%nat) (route_eqb Nat.eqb [1; 0; 2]%nat) = 5 / 24) by numbers.
    assert (E2 : prob (mutate Scramble [1; 2; 0]%nat) (route_eqb Nat.eqb [0; 2; 1]%nat) = 1 / 12) by numbers.
    unfold rotated; cbn [skipn firstn app]; rewrite E1, E2; lra.
Qed.
Lemma c129_example2 :
  prob (mutate Swap [0; 1; 2]%nat) (route_eqb Nat.eqb [2; 1; 0]%nat) = 1 / 3 /\
  prob (mutate Swap [1; 2; 0]%nat) (route_eqb Nat.eqb [1; 0; 2]%nat) = 1 / 3.
Proof. split; numbers. Qed.
