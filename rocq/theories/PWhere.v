(** * PWhere: where mutations act (C124). *)
From Coq Require Import List Bool Arith NArith Reals Lia Lra Permutation.
From Verif Require Import Rnd Prob LRnd LProb MOperators MMutation Spec SpecBack SpecJ SpecWhere LGenes POperatorsNeighbors
  PCrossoverPmx PCrossoverOx POperatorsRandom PMutation PMutationProb PShuffle PSelection2 PConv4 PMix PCover.
Import ListNotations.
Local Open Scope R_scope.

(** ** The laws of pairs and ranges *)
Lemma pair_law n g : (2 <= n)%nat ->
  expect (random_pair n) g = Rsum n (fun i => Rsum n (fun j => g (i, j)) - g (i, i)) / (INR n * INR (n - 1)).
Proof.
  intros Hn; unfold random_pair, massert; rewrite (proj2 (Nat.leb_le 2 n)) by lia; cbn [bind].
  rewrite expect_bind, expect_gen_range by lia; rewrite Nat.sub_0_r.
  assert (Hp : 0 < INR n /\ 0 < INR (n - 1)) by (split; apply INR_pos; lia).
  transitivity (Rsum n (fun i => (Rsum n (fun j => g (i, j)) - g (i, i)) * / INR (n - 1)) / INR n).
  2: { rewrite Rsum_mult_r; field; lra. }
  f_equal; apply Rsum_ext; intros i Hi; rewrite expect_bind, expect_gen_range by lia; rewrite Nat.sub_0_r; cbn [expect Nat.add].
  rewrite (skip_sum (n - 1) i (fun j => g (i, j))) by lia; replace (S (n - 1)) with n by lia; reflexivity.
Qed.
Lemma range_law n g : (2 <= n)%nat ->
  expect (bounded_random_range n 2 n) g =
  Rsum (n - 1) (fun k => Rsum (n - 1 - k) (fun a => g (a, (a + (k + 2))%nat)) / INR (n - 1 - k)) / INR (n - 1).
Proof.
  intros Hn; unfold bounded_random_range; rewrite expect_bind, expect_gen_range_incl by lia.
  replace (S n - 2)%nat with (n - 1)%nat by lia; f_equal; apply Rsum_ext; intros k Hk; unfold massert.
  rewrite (proj2 (Nat.leb_le (2 + k) n)) by lia; cbn [bind]; rewrite expect_bind, expect_gen_range_incl by lia.
  replace (S (n - (2 + k)) - 0)%nat with (n - 1 - k)%nat by lia; f_equal; apply Rsum_ext; intros a Ha; cbn [expect].
  do 2 f_equal; lia.
Qed.

(** ** Shuffling: every position gets every gene equally often *)
Section Where.
Context {G : Type} (eqb : G -> G -> bool) (Heq : eq_ok eqb).
Implicit Types l r : list G.

Lemma Rsum_upd m l i (a d : G) f : (i < length l)%nat ->
  Rsum m (fun k => f (nth k (upd l i a) d)) = Rsum m (fun k => f (nth k l d)) + (if (i <? m)%nat then f a - f (nth i l d) else 0).
Proof.
  intros Hi; induction m as [|m IH]; [rewrite !Rsum_0; cbn; lra|]; rewrite !Rsum_S, IH.
  destruct (Nat.eq_dec m i) as [->|Hne].
  - rewrite (nth_error_nth (upd l i a) i d (x := a)) by (rewrite nth_error_upd, Nat.eqb_refl, (proj2 (Nat.ltb_lt _ _)); auto).
    rewrite Nat.ltb_irrefl, (proj2 (Nat.ltb_lt i (S i))) by lia; lra.
  - assert (E : nth m (upd l i a) d = nth m l d).
    { pose proof (nth_error_upd l i m a) as E; rewrite (proj2 (Nat.eqb_neq i m)) in E by auto; cbn [andb] in E.
      destruct (nth_error l m) as [x|] eqn:El.
      - rewrite (nth_error_nth _ _ d E), (nth_error_nth _ _ d El); auto.
      - apply nth_error_None in E, El; rewrite !nth_overflow; auto. }
    rewrite E; destruct (Nat.ltb_spec i m), (Nat.ltb_spec i (S m)); try lia; lra.
Qed.

Lemma loop_place (f : G -> R) d j i : forall l, (i < length l)%nat -> (j <= i)%nat ->
  expect (shuffle_loop i l) (fun r => f (nth j r d)) = Rsum (S i) (fun m => f (nth m l d)) / INR (S i).
Proof.
  induction i as [|i IH]; intros l Hi Hj.
  - assert (j = 0)%nat by lia; subst; cbn [shuffle_loop expect]; rewrite Rsum_S, Rsum_0; cbn; lra.
  - cbn [shuffle_loop]; rewrite expect_bind, expect_gen_range by lia.
    replace (S i + 1 - 0)%nat with (S (S i)) by lia.
    destruct (Nat.eq_dec j (S i)) as [->|Hne].
    + f_equal; apply Rsum_ext; intros t Ht; rewrite Nat.add_0_l.
      rewrite (swap_ok l (S i) t (nth (S i) l d) (nth t l d)) by (apply nth_error_nth'; lia); cbn [bind].
      set (l' := upd _ t _); assert (Ll : length l' = length l) by (unfold l'; rewrite !upd_length; auto).
      rewrite (expect_supp _ _ (fun _ => f (nth t l d))).
      * apply (expect_const _ (fun r => Permutation l' r)); [apply no_pick_shuffle|apply shuffle_loop_spec; lia].
      * apply no_pick_shuffle.
      * intros r Hr; apply shuffle_loop_above in Hr as [_ Hr]; [|lia]; specialize (Hr (S i) ltac:(lia)); f_equal.
        apply nth_error_nth; rewrite Hr; unfold l'; rewrite nth_error_upd, nth_error_upd, !upd_length, Nat.eqb_refl.
        rewrite !(proj2 (Nat.ltb_lt (S i) (length l))) by lia; destruct (Nat.eqb_spec t (S i)) as [->|]; cbn [andb]; auto.
    + assert (P1 : 0 < INR (S i)) by (apply INR_pos; lia).
      set (S0 := Rsum (S (S i)) (fun m => f (nth m l d))).
      rewrite (Rsum_ext _ _ (fun t => (S0 + (-1) * f (nth t l d)) * / INR (S i))).
      * rewrite Rsum_mult_r, Rsum_plus, Rsum_const, Rsum_mult; fold S0; rewrite !S_INR in *; field; lra.
      * intros t Ht; rewrite Nat.add_0_l.
        rewrite (swap_ok l (S i) t (nth (S i) l d) (nth t l d)) by (apply nth_error_nth'; lia); cbn [bind].
        rewrite IH by (rewrite ?upd_length; lia); unfold Rdiv; f_equal.
        unfold S0; rewrite (Rsum_S (S i)); rewrite Rsum_upd by (rewrite upd_length; lia); rewrite Rsum_upd by lia.
        rewrite (proj2 (Nat.ltb_ge (S i) (S i))) by lia.
        destruct (Nat.ltb_spec t (S i)); [|assert (t = S i) by lia; subst; lra].
        replace (nth t (upd l (S i) (nth t l d)) d) with (nth t l d); [lra|].
        symmetry; apply nth_error_nth; rewrite nth_error_upd, (proj2 (Nat.eqb_neq (S i) t)) by lia; cbn [andb]; apply nth_error_nth'; lia.
Qed.
Lemma filter_sum (h : G -> bool) d l : Rsum (length l) (fun m => if h (nth m l d) then 1 else 0) = INR (length (filter h l)).
Proof.
  induction l as [|x l IH] using rev_ind; [reflexivity|]; rewrite app_length, Nat.add_1_r, Rsum_S, filter_app, app_length, plus_INR, <- IH.
  f_equal; [apply Rsum_ext; intros i Hi; rewrite app_nth1 by auto; auto|].
  rewrite nth_middle; cbn; destruct (h x); reflexivity.
Qed.
Lemma shuffle_place (h : G -> bool) j l : (j < length l)%nat ->
  prob (shuffle l) (kind_at h j) = INR (length (filter h l)) / INR (length l).
Proof.
  intros Hj; destruct l as [|d l0] eqn:El; [cbn in Hj; lia|]; rewrite <- El in *; clear l0 El.
  rewrite <- (filter_sum h d), prob_expect; unfold shuffle.
  rewrite (expect_supp _ _ (fun r => (fun x => if h x then 1 else 0) (nth j r d))).
  - etransitivity; [apply (loop_place (fun x => if h x then 1 else 0) d j (length l - 1) l); lia|]; replace (S (length l - 1)) with (length l) by lia; reflexivity.
  - apply no_pick_shuffle.
  - intros r Hr; apply (must_may _ _ _ (shuffle_spec l)), Permutation_length in Hr; unfold kind_at.
    rewrite (nth_error_nth' r d) by lia; reflexivity.
Qed.

(** ** Each mutation *)
Lemma moved l r src i : NoDup l -> rearranged src l r -> (i < length l)%nat -> (src i < length l)%nat ->
  same_at eqb i r l = (src i =? i)%nat.
Proof.
  intros Hn Hr Hi Hs; unfold same_at; rewrite Hr.
  destruct (nth_error_lt l _ Hs) as [x Hx]; destruct (nth_error_lt l _ Hi) as [y Hy]; rewrite Hx, Hy.
  apply bool_iff; rewrite (Heq x y), Nat.eqb_eq; split; [intros <-; eapply NoDup_nth_inj; eauto|intros E; rewrite E in Hx; congruence].
Qed.
Ltac cases := repeat (match goal with
  | |- context [if ?a =? ?b then _ else _] => destruct (Nat.eqb_spec a b)
  | |- context [if ?a <? ?b then _ else _] => destruct (Nat.ltb_spec a b)
  | |- context [if ?a <=? ?b then _ else _] => destruct (Nat.leb_spec a b)
  | |- context [if (?a <=? ?b) && _ then _ else _] => destruct (Nat.leb_spec a b)
  | |- context [if (?a <? ?b) && _ then _ else _] => destruct (Nat.ltb_spec a b)
  | |- context [?a =? ?b] => destruct (Nat.eqb_spec a b)
  | |- context [?a <=? ?b] => destruct (Nat.leb_spec a b)
  | |- context [?a <? ?b] => destruct (Nat.ltb_spec a b)
  end; cbn [andb negb orb]; try (exfalso; lia)); auto; try lia.

Lemma by_pair (s : mutation_strategy) l i (Q : nat * nat -> bool) : (2 <= length l)%nat -> (i < length l)%nat ->
  prob (mutate s l) (fun r => negb (same_at eqb i r l)) = prob (random_pair (length l)) Q ->
  prob (mutate s l) (fun r => negb (same_at eqb i r l)) =
  Rsum (length l) (fun x => Rsum (length l) (fun y => if Q (x, y) then 1 else 0) - (if Q (x, x) then 1 else 0)) / (INR (length l) * INR (length l - 1)).
Proof. intros Hl Hi ->; rewrite prob_expect, pair_law by auto; reflexivity. Qed.

Lemma swap_where l i : NoDup l -> (2 <= length l)%nat -> (i < length l)%nat ->
  prob (mutate Swap l) (fun r => negb (same_at eqb i r l)) = prob (random_pair (length l)) (fun p => (fst p =? i) || (snd p =? i))%nat.
Proof.
  intros Hn Hl Hi; cbn [mutate]; unfold swap_mutation; rewrite (proj2 (Nat.ltb_ge _ _)) by lia; apply prob_bind_supp; intros [x y] Hm.
  apply (must_may _ _ _ (random_pair_must (length l) ltac:(lia))) in Hm as (Hx & Hy & Hxy); cbn [fst snd] in *.
  destruct (nth_error_lt l x Hx) as [a Ha]; destruct (nth_error_lt l y Hy) as [b Hb].
  rewrite (swap_ok _ _ _ _ _ Ha Hb); eexists; split; [reflexivity|].
  rewrite (moved l _ (swap_src x y) i); auto; [|apply swap_rearranged; auto|]; unfold swap_src; cases.
Qed.
Lemma duplicate_where l i : NoDup l -> (2 <= length l)%nat -> (i < length l)%nat ->
  prob (mutate Duplicate l) (fun r => negb (same_at eqb i r l)) = prob (random_pair (length l)) (fun p => (snd p =? i))%nat.
Proof.
  intros Hn Hl Hi; cbn [mutate]; unfold duplicate_mutation; rewrite (proj2 (Nat.ltb_ge _ _)) by lia; apply prob_bind_supp; intros [x y] Hm.
  apply (must_may _ _ _ (random_pair_must (length l) ltac:(lia))) in Hm as (Hx & Hy & Hxy); cbn [fst snd] in *.
  destruct (nth_error_lt l x Hx) as [a Ha]; rewrite (idx_some _ _ _ Ha); cbn [bind].
  rewrite set_ok by auto; eexists; split; [reflexivity|].
  rewrite (moved l _ (copy_src x y) i); auto; [|apply copy_rearranged; auto|]; unfold copy_src; cases.
Qed.
Lemma insertion_where l i : NoDup l -> (2 <= length l)%nat -> (i < length l)%nat ->
  prob (mutate Insertion l) (fun r => negb (same_at eqb i r l)) =
  prob (random_pair (length l)) (fun p => ((fst p <=? i) && (i <=? snd p)) || ((snd p <=? i) && (i <=? fst p)))%nat.
Proof.
  intros Hn Hl Hi; cbn [mutate]; unfold insertion_mutation; rewrite (proj2 (Nat.ltb_ge _ _)) by lia; apply prob_bind_supp; intros [x y] Hm.
  apply (must_may _ _ _ (random_pair_must (length l) ltac:(lia))) in Hm as (Hx & Hy & Hxy); cbn [fst snd] in *.
  assert (Hp : exists p q, (if y <? x then (y, x) else (x, y))%nat = (p, q) /\ (p < q)%nat /\ (q < length l)%nat /\
    ((p = x /\ q = y) \/ (p = y /\ q = x))).
  { destruct (Nat.ltb_spec y x); [exists y, x|exists x, y]; repeat split; auto; lia. }
  destruct Hp as (p & q & -> & H1 & H2 & Hpq).
  rewrite slice_ok by lia; cbn [bind]; fold (segment l p (q + 1)).
  destruct (rotate_rearranged l p q H1 H2) as (s' & -> & Hs & _ & Hr); cbn [bind].
  rewrite copy_range_ok by (auto; lia); eexists; split; [reflexivity|].
  rewrite (moved l _ (move_src q p) i); auto; unfold move_src; cases.
Qed.
Lemma inversion_where l i : NoDup l -> (2 <= length l)%nat -> (i < length l)%nat ->
  prob (mutate Inversion l) (fun r => negb (same_at eqb i r l)) =
  prob (bounded_random_range (length l) 2 (length l)) (fun p => (fst p <=? i) && (i <? snd p) && negb (2 * i + 1 =? fst p + snd p))%nat.
Proof.
  intros Hn Hl Hi; cbn [mutate]; unfold inversion_mutation; rewrite (proj2 (Nat.ltb_ge _ _)) by lia; apply prob_bind_supp; intros [x y] Hm.
  apply (must_may _ _ _ (bounded_random_range_must (length l) 2 (length l) ltac:(lia) ltac:(lia))) in Hm as (H1 & H2 & H3); cbn [fst snd] in *.
  rewrite slice_ok by lia; cbn [bind]; fold (segment l x y).
  rewrite copy_range_ok by (try rewrite rev_length, segment_length; lia); eexists; split; [reflexivity|].
  rewrite (moved l _ (reverse_src x y) i); auto; [|apply reverse_rearranged; lia|]; unfold reverse_src; cases.
Qed.

Lemma count_rows n (Q : nat -> nat -> bool) : 
  Rsum n (fun x => Rsum n (fun y => if Q x y then 1 else 0) - (if Q x x then 1 else 0)) =
  Rsum n (fun x => Rsum n (fun y => if Q x y then 1 else 0)) - Rsum n (fun x => if Q x x then 1 else 0).
Proof.
  rewrite (Rsum_ext n _ (fun x => Rsum n (fun y => if Q x y then 1 else 0) + (-1) * (if Q x x then 1 else 0))) by (intros; lra).
  rewrite Rsum_plus, Rsum_mult; lra.
Qed.
Lemma Rsum_at n i (f : nat -> R) : (i < n)%nat -> Rsum n (fun x => if (x =? i)%nat then f x else 0) = f i.
Proof.
  intros Hi; rewrite (Rsum_single n i); auto; [rewrite Nat.eqb_refl; auto|]; intros x Hx Hne; rewrite (proj2 (Nat.eqb_neq x i)); auto.
Qed.

Lemma c124_swap l i : NoDup l -> (2 <= length l)%nat -> (i < length l)%nat ->
  prob (mutate Swap l) (fun r => negb (same_at eqb i r l)) = 2 / INR (length l).
Proof.
  intros Hn Hl Hi; rewrite (by_pair Swap l i _ Hl Hi (swap_where l i Hn Hl Hi)); set (n := length l) in *; cbn [fst snd].
  assert (Hp : 2 <= INR n) by (replace 2 with (INR 2) by reflexivity; apply le_INR; lia).
  rewrite (count_rows n (fun x y => (x =? i) || (y =? i))%nat).
  rewrite (Rsum_ext n (fun x => Rsum n _) (fun x => 1 + (if (x =? i)%nat then INR n - 1 else 0))).
  2: { intros x Hx; destruct (Nat.eqb_spec x i); cbn [orb]; [rewrite Rsum_const; lra|].
       rewrite (Rsum_at n i (fun _ => 1)) by auto; lra. }
  rewrite (Rsum_ext n (fun x => if (_ || _)%bool then 1 else 0) (fun x => if (x =? i)%nat then 1 else 0)) by (intros; rewrite orb_diag; auto).
  rewrite Rsum_plus, Rsum_const, (Rsum_at n i (fun _ => 1)), (Rsum_at n i (fun _ => INR n - 1)) by auto.
  rewrite minus_INR by lia; cbn [INR]; field; lra.
Qed.
Lemma c124_duplicate l i : NoDup l -> (2 <= length l)%nat -> (i < length l)%nat ->
  prob (mutate Duplicate l) (fun r => negb (same_at eqb i r l)) = 1 / INR (length l).
Proof.
  intros Hn Hl Hi; rewrite (by_pair Duplicate l i _ Hl Hi (duplicate_where l i Hn Hl Hi)); set (n := length l) in *; cbn [fst snd].
  assert (Hp : 2 <= INR n) by (replace 2 with (INR 2) by reflexivity; apply le_INR; lia).
  rewrite (count_rows n (fun x y => (y =? i))%nat).
  rewrite (Rsum_ext n (fun x => Rsum n _) (fun x => 1)) by (intros x Hx; apply (Rsum_at n i (fun _ => 1)); auto).
  rewrite Rsum_const, (Rsum_at n i (fun _ => 1)) by auto.
  rewrite minus_INR by lia; cbn [INR]; field; lra.
Qed.
Lemma c124_insertion l i : NoDup l -> (2 <= length l)%nat -> (i < length l)%nat ->
  prob (mutate Insertion l) (fun r => negb (same_at eqb i r l)) = 2 * INR ((i + 1) * (length l - i) - 1) / (INR (length l) * INR (length l - 1)).
Proof.
  intros Hn Hl Hi; rewrite (by_pair Insertion l i _ Hl Hi (insertion_where l i Hn Hl Hi)); set (n := length l) in *; cbn [fst snd].
  rewrite (count_rows n (fun x y => ((x <=? i) && (i <=? y)) || ((y <=? i) && (i <=? x)))%nat); unfold Rdiv; f_equal.
  rewrite (Rsum_ext n (fun x => if (_ || _)%bool then 1 else 0) (fun x => if (x =? i)%nat then 1 else 0)) by (intros; cases).
  rewrite (Rsum_at n i (fun _ => 1)) by auto.
  rewrite (Rsum_ext n _ (fun x => (if (x <? i + 1)%nat then INR (n - i) else 0) + ((if (x <? i)%nat then 0 else INR (i + 1)) + (if (x =? i)%nat then -1 else 0)))).
  - rewrite !Rsum_plus, (Rsum_at n i (fun _ => -1)) by auto.
    rewrite (Rsum_ext n _ (fun x => INR (n - i) * (if (x <? i + 1)%nat then 1 else 0))) by (intros; destruct (_ <? _)%nat; lra).
    rewrite Rsum_mult, Rsum_count by lia.
    rewrite (Rsum_ext n _ (fun x => INR (i + 1) + (- INR (i + 1)) * (if (x <? i)%nat then 1 else 0))) by (intros; destruct (_ <? _)%nat; lra).
    rewrite Rsum_plus, Rsum_const, Rsum_mult, Rsum_count by lia.
    rewrite (minus_INR ((i + 1) * (n - i)) 1) by nia; rewrite mult_INR, (minus_INR n i), plus_INR by lia; cbn [INR]; ring.
  - intros x Hx.
    rewrite (Rsum_ext n _ (fun y => if (((if x <? i then i else 0) <=? y) && (y <? (if x <? i then n else if x =? i then n else i + 1)))%nat then 1 else 0)) by (intros y Hy; cases).
    rewrite Rsum_filter, count_between.
    destruct (Nat.ltb_spec x i), (Nat.eqb_spec x i), (Nat.ltb_spec x (i + 1)); try lia.
    + replace (Nat.min n n - i)%nat with (n - i)%nat by lia; lra.
    + replace (Nat.min n n - 0)%nat with n by lia; rewrite minus_INR by lia; rewrite plus_INR; cbn [INR]; lra.
    + replace (Nat.min (i + 1) n - 0)%nat with (i + 1)%nat by lia; lra.
Qed.

Lemma starts_where n len i : (1 <= len <= n)%nat ->
  Rsum (n - len + 1) (fun a => if ((a <=? i) && (i <? a + len))%nat then 1 else 0) = INR (starts n len i).
Proof. intros H; unfold starts; apply Rsum_filter. Qed.
Lemma c124_inversion l i : NoDup l -> (2 <= length l)%nat -> (i < length l)%nat ->
  prob (mutate Inversion l) (fun r => negb (same_at eqb i r l)) =
  Rsum (length l - 1) (fun k => INR (turns (length l) (k + 2) i) / INR (length l - 1 - k)) / INR (length l - 1).
Proof.
  intros Hn Hl Hi; rewrite (inversion_where l i Hn Hl Hi), prob_expect, range_law by auto; f_equal; apply Rsum_ext; intros k Hk; f_equal.
  unfold turns; replace (length l - (k + 2) + 1)%nat with (length l - 1 - k)%nat by lia; rewrite <- Rsum_filter; apply Rsum_ext; intros a Ha.
  cbn [fst snd]; replace (a + (a + (k + 2)))%nat with (2 * a + (k + 2))%nat by lia; reflexivity.
Qed.
Lemma segment_nodup l a b : NoDup l -> NoDup (segment l a b).
Proof.
  intros Hn; unfold segment; rewrite <- (firstn_skipn a l) in Hn; apply NoDup_app_r in Hn.
  rewrite <- (firstn_skipn (b - a) (skipn a l)) in Hn; apply NoDup_app_l in Hn; auto.
Qed.
Lemma filter_one (x : G) l : NoDup l -> In x l -> length (filter (fun y => eqb y x) l) = 1%nat.
Proof.
  induction l as [|y l IH]; intros Hn Hx; [destruct Hx|]; inversion Hn; subst; cbn [filter].
  destruct (eqb y x) eqn:E.
  - apply Heq in E; subst y; cbn [length]; f_equal; apply length_zero_iff_nil; destruct (filter _ l) as [|z t] eqn:Ef; auto.
    assert (Hz : In z (filter (fun y => eqb y x) l)) by (rewrite Ef; left; auto); apply filter_In in Hz as [Hz1 Hz2].
    apply Heq in Hz2; subst; contradiction.
  - apply IH; auto; destruct Hx as [->|]; auto; exfalso; assert (eqb x x = true) by (apply Heq; auto); congruence.
Qed.

Lemma shuffle_moves j l : NoDup l -> (j < length l)%nat -> prob (shuffle l) (fun r => negb (same_at eqb j r l)) = 1 - / INR (length l).
Proof.
  intros Hn Hj; destruct (nth_error_lt l j Hj) as [x Hx].
  assert (E : prob (shuffle l) (kind_at (fun y => eqb y x) j) = / INR (length l)).
  { rewrite shuffle_place, filter_one by (auto; eapply nth_error_In; eauto); cbn [INR]; unfold Rdiv; lra. }
  rewrite <- E, !prob_expect.
  rewrite <- (expect_const (shuffle l) (fun r => Permutation l r) 1) at 1 by (apply no_pick_shuffle || apply shuffle_spec).
  rewrite (expect_ext _ (fun r => if negb (same_at eqb j r l) then 1 else 0) (fun r => 1 + (if kind_at (fun y => eqb y x) j r then 1 else 0) * -1)).
  2: { intros r; unfold same_at, kind_at; rewrite Hx; destruct (nth_error r j) as [y|]; [destruct (eqb y x)|]; cbn [negb]; lra. }
  rewrite (expect_plus (shuffle l) (fun _ => 1) (fun r => (if kind_at (fun y => eqb y x) j r then 1 else 0) * -1)) by apply no_pick_shuffle.
  rewrite (expect_scale (shuffle l) (-1) (fun r => if kind_at (fun y => eqb y x) j r then 1 else 0)) by apply no_pick_shuffle; lra.
Qed.
Lemma c124_scramble l i : NoDup l -> (2 <= length l)%nat -> (i < length l)%nat ->
  prob (mutate Scramble l) (fun r => negb (same_at eqb i r l)) =
  Rsum (length l - 1) (fun k => INR (starts (length l) (k + 2) i) / INR (length l - 1 - k) * (1 - / INR (k + 2))) / INR (length l - 1).
Proof.
  intros Hn Hl Hi; cbn [mutate]; unfold scramble_mutation; rewrite (proj2 (Nat.ltb_ge _ _)) by lia.
  rewrite prob_expect, expect_bind, range_law by auto; f_equal; apply Rsum_ext; intros k Hk.
  unfold starts; replace (length l - (k + 2) + 1)%nat with (length l - 1 - k)%nat by lia; rewrite <- Rsum_filter.
  unfold Rdiv; rewrite Rmult_assoc, (Rmult_comm (/ _)), <- Rmult_assoc; f_equal; rewrite <- Rsum_mult_r; apply Rsum_ext; intros a Ha.
  set (b := (a + (k + 2))%nat); rewrite slice_ok by lia; cbn [bind]; fold (segment l a b).
  assert (Ls : length (segment l a b) = (k + 2)%nat) by (rewrite segment_length; lia).
  rewrite <- prob_expect.
  rewrite (prob_bind_supp _ _ _ (fun s => if ((a <=? i) && (i <? b))%nat then negb (same_at eqb (i - a) s (segment l a b)) else false)).
  2: { intros s Hs; pose proof (must_may _ _ _ (shuffle_spec (segment l a b)) Hs) as Hp; apply Permutation_length in Hp.
       rewrite copy_range_ok by lia; eexists; split; [reflexivity|]; unfold same_at; rewrite nth_error_splice by lia.
       destruct (Nat.leb_spec a i), (Nat.ltb_spec i b); cbn [andb].
       - rewrite nth_error_segment, (proj2 (Nat.ltb_lt _ _)) by lia; replace (a + (i - a))%nat with i by lia; reflexivity.
       - destruct (nth_error_lt l i Hi) as [x ->]; rewrite (proj2 (Heq x x) eq_refl); reflexivity.
       - destruct (nth_error_lt l i Hi) as [x ->]; rewrite (proj2 (Heq x x) eq_refl); reflexivity.
       - lia. }
  destruct (Nat.leb_spec a i), (Nat.ltb_spec i b); cbn [andb]; try lia;
    try (rewrite (prob_zero _ _ _ (shuffle_spec (segment l a b))); [lra|auto]).
  rewrite shuffle_moves, Ls by (try apply segment_nodup; auto; lia); lra.
Qed.

Lemma c124_change s l i : NoDup l -> (2 <= length l)%nat -> (i < length l)%nat ->
  prob (mutate s l) (fun r => negb (same_at eqb i r l)) = change s (length l) i.
Proof.
  destruct s; [apply c124_swap|apply c124_scramble|apply c124_inversion|apply c124_insertion|apply c124_duplicate].
Qed.
End Where.

(** ** Means *)
Lemma sum_products n m : (n <= m)%nat -> Rsum n (fun i => INR ((i + 1) * (m - i) - 1)) = INR n * (INR n + 1) * (3 * INR m - 2 * INR n + 2) / 6 - INR n.
Proof.
  intros H; induction n as [|n IH]; [rewrite Rsum_0; cbn; lra|]; rewrite Rsum_S, IH by lia.
  rewrite (minus_INR ((n + 1) * (m - n)) 1) by nia; rewrite mult_INR, (minus_INR m n), plus_INR, !S_INR by lia; cbn [INR]; field.
Qed.
Lemma turns_total n len : (2 <= len <= n)%nat -> Rsum n (fun i => INR (turns n len i)) = INR (2 * (len / 2)) * INR (n - len + 1).
Proof.
  intros Hl; unfold turns.
  rewrite (Rsum_ext n _ (fun i => Rsum (n - len + 1) (fun a => if ((a <=? i) && (i <? a + len) && negb (2 * i + 1 =? 2 * a + len))%nat then 1 else 0))) by (intros; symmetry; apply Rsum_filter).
  rewrite Rsum_swap, (Rsum_ext _ _ (fun _ => INR (2 * (len / 2)))), Rsum_const; [lra|]; intros a Ha.
  pose proof (Nat.div_mod len 2 ltac:(lia)) as Hd; pose proof (Nat.mod_upper_bound len 2 ltac:(lia)) as Hm.
  transitivity (Rsum n (fun i => (if ((a <=? i) && (i <? a + len))%nat then 1 else 0) + -1 * (if (i =? a + len / 2)%nat then INR (len mod 2) else 0))).
  - apply Rsum_ext; intros i Hi; destruct (Nat.leb_spec a i), (Nat.ltb_spec i (a + len)), (Nat.eqb_spec (2 * i + 1) (2 * a + len)), (Nat.eqb_spec i (a + len / 2)); cbn [andb negb]; try lia; try lra;
    try (replace (len mod 2) with 1%nat by lia; cbn; lra); try (replace (len mod 2) with 0%nat by lia; cbn; lra).
  - rewrite Rsum_plus, Rsum_filter, count_between, Rsum_mult, (Rsum_at n (a + len / 2) (fun _ => INR (len mod 2))) by lia.
    replace (Nat.min (a + len) n - a)%nat with (2 * (len / 2) + len mod 2)%nat by lia; rewrite plus_INR; lra.
Qed.
Lemma c124_mean s n : (2 <= n)%nat -> Rsum n (change s n) = changes s n.
Proof.
  intros Hn; assert (Hp : 0 < INR n /\ 0 < INR (n - 1)) by (split; apply INR_pos; lia).
  assert (E1 : INR (n - 1) = INR n - 1) by (rewrite minus_INR by lia; reflexivity).
  destruct s; unfold change, changes, Rdiv.
  - rewrite Rsum_const; field; lra.
  - rewrite Rsum_mult_r, Rsum_swap, (Rsum_ext _ _ (fun k => INR (k + 1))), Rsum_triangle; [rewrite E1 in *; field; lra|]; intros k Hk.
    assert (P2 : 0 < INR (n - 1 - k) /\ 0 < INR (k + 2)) by (split; apply INR_pos; lia).
    rewrite !Rsum_mult_r, starts_total by lia; replace (n - (k + 2) + 1)%nat with (n - 1 - k)%nat by lia.
    replace (k + 2)%nat with (S (k + 1)) in * by lia; rewrite S_INR in *; field; lra.
  - rewrite Rsum_mult_r, Rsum_swap; f_equal; apply Rsum_ext; intros k Hk.
    assert (P2 : 0 < INR (n - 1 - k)) by (apply INR_pos; lia).
    rewrite Rsum_mult_r, turns_total by lia; replace (n - (k + 2) + 1)%nat with (n - 1 - k)%nat by lia; field; lra.
  - rewrite Rsum_mult_r, Rsum_mult, sum_products by lia; rewrite E1 in *; field; lra.
  - rewrite Rsum_const; field; lra.
Qed.

Lemma c124_middle s n i j : s = Insertion \/ s = Scramble -> (2 <= n)%nat -> (i <= j)%nat -> (i + j < n)%nat ->
  change s n i <= change s n j /\ change s n (n - 1 - i) = change s n i.
Proof.
  intros [->| ->] Hn Hij Hj; unfold change, Rdiv; split.
  - apply Rmult_le_compat_r; [left; apply Rinv_0_lt_compat, Rmult_lt_0_compat; apply INR_pos; lia|].
    apply Rmult_le_compat_l; [lra|]; apply le_INR; nia.
  - do 4 f_equal; nia.
  - apply Rmult_le_compat_r; [left; apply Rinv_0_lt_compat, INR_pos; lia|]; apply Rsum_le; intros k Hk.
    assert (H2 : 2 <= INR (k + 2)) by (replace 2 with (INR 2) by reflexivity; apply le_INR; lia).
    assert (/ INR (k + 2) <= / 2) by (apply Rinv_le_contravar; lra).
    apply Rmult_le_compat_r; [lra|]; apply Rmult_le_compat_r; [left; apply Rinv_0_lt_compat, INR_pos; lia|].
    apply le_INR; rewrite !starts_closed by lia; lia.
  - f_equal; apply Rsum_ext; intros k Hk; do 3 f_equal; rewrite !starts_closed by lia; lia.
Qed.
Lemma c124_shuffle (G : Type) (h : G -> bool) (l : list G) (j : nat) : (j < length l)%nat ->
  prob (shuffle l) (kind_at h j) = INR (length (filter h l)) / INR (length l).
Proof. apply shuffle_place. Qed.
Lemma c124_example :
  change Insertion 4 0 = 1 / 2 /\ change Insertion 4 1 = 5 / 6 /\ change Inversion 3 1 = 1 / 2 /\ change Inversion 3 0 = 3 / 4 /\
  change Scramble 3 0 = 11 / 24 /\ change Scramble 3 1 = 7 / 12 /\ changes Insertion 10 = 14 / 3.
Proof. unfold change, changes, starts, turns, Rsum; cbn; repeat split; field. Qed.
Lemma c124_case : NoDup [7; 8; 9]%nat /\ prob (mutate Inversion [7; 8; 9]%nat) (fun r => negb (same_at Nat.eqb 1 r [7; 8; 9]%nat)) = 1 / 2.
Proof.
  assert (Hn : NoDup [7; 8; 9]%nat) by (repeat constructor; cbn; intuition discriminate).
  split; auto; rewrite c124_change; auto; [apply (proj1 (proj2 (proj2 c124_example)))|intros x y; apply Nat.eqb_eq|cbn; lia|cbn; lia].
Qed.
