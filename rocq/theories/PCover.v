(** * PCover: the shares of the parents in the offspring (C122). *)
From Coq Require Import List Bool Arith Reals Lia Lra Permutation.
From Verif Require Import Rnd Prob LRnd LProb MOperators MCrossover Spec SpecBack PCrossoverAll PCrossoverLaw PModel PConv PMix.
Import ListNotations.
Local Open Scope R_scope.

(** ** Counting starts *)
Lemma count_between lo hi m : length (filter (fun a => (lo <=? a) && (a <? hi))%nat (seq 0 m)) = (Nat.min hi m - lo)%nat.
Proof.
  induction m as [|m IH]; [cbn; lia|].
  rewrite seq_S, filter_app, app_length, IH; cbn [filter plus].
  destruct (Nat.leb_spec lo m), (Nat.ltb_spec m hi); cbn [andb length]; lia.
Qed.
Lemma starts_closed n len i : (1 <= len <= n)%nat -> (i < n)%nat -> starts n len i = (Nat.min (Nat.min (i + 1) (n - i)) (Nat.min len (n - len + 1)))%nat.
Proof.
  intros Hl Hi; unfold starts; rewrite (filter_ext _ (fun a => (i + 1 - len <=? a) && (a <? i + 1))%nat), count_between; [lia|].
  intros a; destruct (Nat.leb_spec a i), (Nat.ltb_spec i (a + len)), (Nat.leb_spec (i + 1 - len) a), (Nat.ltb_spec a (i + 1)); auto; lia.
Qed.
Lemma Rsum_filter (P : nat -> bool) m : Rsum m (fun a => if P a then 1 else 0) = INR (length (filter P (seq 0 m))).
Proof.
  induction m as [|m IH]; [reflexivity|].
  rewrite Rsum_S, IH, seq_S, filter_app, app_length, plus_INR; cbn [filter plus]; destruct (P m); reflexivity.
Qed.

(** ** The coverage *)
Lemma range_coverage n i : (i < n)%nat -> prob (random_range n) (fun r => (fst r <=? i) && (i <? snd r))%nat = coverage n i.
Proof.
  intros Hi; transitivity (prob (bind (random_range n) (fun r => Ret r)) (fun r => (fst r <=? i) && (i <? snd r))%nat).
  { rewrite !prob_expect, expect_bind; reflexivity. }
  rewrite random_range_law by lia.
  unfold coverage; f_equal; apply Rsum_ext; intros k Hk; f_equal.
  unfold starts; replace (n - (k + 1) + 1)%nat with (n - k)%nat by lia; rewrite <- Rsum_filter; apply Rsum_ext; intros a _; cbn [prob fst snd].
  replace (a + S k)%nat with (a + (k + 1))%nat by lia; reflexivity.
Qed.
Lemma Rsum_rev n f : Rsum n (fun k => f (n - 1 - k)%nat) = Rsum n f.
Proof.
  revert f; induction n as [|n IH]; intros f; [reflexivity|]; rewrite (Rsum_S n f), Rsum_S.
  transitivity (f 0%nat + Rsum n (fun k => f (S k))).
  - rewrite <- (IH (fun k => f (S k))); replace (S n - 1 - n)%nat with 0%nat by lia.
    rewrite (Rsum_ext n _ (fun k => f (S (n - 1 - k)))) by (intros k Hk; f_equal; lia); lra.
  - clear IH; induction n as [|n IH]; [rewrite !Rsum_0; lra|]; rewrite !Rsum_S; lra.
Qed.
Lemma coverage_end n : (0 < n)%nat -> coverage n 0 = Rsum n (fun k => / INR (k + 1)) / INR n.
Proof.
  intros Hn; unfold coverage; f_equal; rewrite <- (Rsum_rev n (fun k => / INR (k + 1))); apply Rsum_ext; intros k Hk.
  rewrite starts_closed by lia; replace (Nat.min _ _) with 1%nat by lia.
  replace (n - 1 - k + 1)%nat with (n - k)%nat by lia; unfold Rdiv; cbn [INR]; lra.
Qed.
Lemma coverage_mirror n i : (i < n)%nat -> coverage n (n - 1 - i) = coverage n i.
Proof.
  intros Hi; unfold coverage; f_equal; apply Rsum_ext; intros k Hk; f_equal; f_equal.
  rewrite !starts_closed by lia; lia.
Qed.
Lemma coverage_middle n i j : (i <= j)%nat -> (i + j < n)%nat -> coverage n i <= coverage n j.
Proof.
  intros Hij Hj; unfold coverage, Rdiv; apply Rmult_le_compat_r; [left; apply Rinv_0_lt_compat, INR_pos; lia|].
  apply Rsum_le; intros k Hk; apply Rmult_le_compat_r; [left; apply Rinv_0_lt_compat, INR_pos; lia|].
  apply le_INR; rewrite !starts_closed by lia; lia.
Qed.

Lemma Rsum_swap n m (f : nat -> nat -> R) : Rsum n (fun i => Rsum m (f i)) = Rsum m (fun j => Rsum n (fun i => f i j)).
Proof.
  induction n as [|n IH]; [rewrite Rsum_0, (Rsum_ext m _ (fun _ => 0)), Rsum_const by (intros; apply Rsum_0); lra|].
  rewrite Rsum_S, IH, <- Rsum_plus; apply Rsum_ext; intros; rewrite Rsum_S; auto.
Qed.
Lemma starts_total n len : (1 <= len <= n)%nat -> Rsum n (fun i => INR (starts n len i)) = INR len * INR (n - len + 1).
Proof.
  intros Hl; unfold starts.
  rewrite (Rsum_ext n _ (fun i => Rsum (n - len + 1) (fun a => if ((a <=? i) && (i <? a + len))%nat then 1 else 0))) by (intros; symmetry; apply Rsum_filter).
  rewrite Rsum_swap, (Rsum_ext _ _ (fun _ => INR len)), Rsum_const; [lra|].
  intros a Ha; rewrite Rsum_filter, count_between; f_equal; lia.
Qed.
Lemma Rsum_triangle n : Rsum n (fun k => INR (k + 1)) = INR n * (INR n + 1) / 2.
Proof. induction n as [|n IH]; [rewrite Rsum_0; cbn; lra|]; rewrite Rsum_S, IH, !plus_INR, !S_INR; cbn [INR]; field. Qed.
Lemma coverage_total n : (0 < n)%nat -> Rsum n (coverage n) = (INR n + 1) / 2.
Proof.
  intros Hn; assert (Hp : 0 < INR n) by (apply INR_pos; auto); unfold coverage, Rdiv; rewrite Rsum_mult_r, Rsum_swap.
  rewrite (Rsum_ext n _ (fun k => INR (k + 1))), Rsum_triangle; [field; lra|]; intros k Hk.
  rewrite Rsum_mult_r, starts_total by lia; replace (n - (k + 1) + 1)%nat with (n - k)%nat by lia; field.
  apply Rgt_not_eq, INR_pos; lia.
Qed.

(** ** PMX and OX *)
Section Kept.
Context {G : Type} (eqb ltb : G -> G -> bool) (Heq : eq_ok eqb).

Lemma same_at_ok i (l r : list G) : (i < length l)%nat -> same_at eqb i l r = true <-> nth_error l i = nth_error r i.
Proof.
  intros Hi; unfold same_at; destruct (nth_error l i) as [x|] eqn:E; [|apply nth_error_None in E; lia].
  destruct (nth_error r i) as [y|]; [|split; discriminate]; rewrite (Heq x y); split; congruence.
Qed.
Lemma law_covers (F : nat * nat -> M (list G)) (p1 : list G) i : (i < length p1)%nat ->
  (forall a b, (a <= i < b)%nat -> (b <= length p1)%nat -> must (F (a, b)) (fun r => nth_error r i = nth_error p1 i)) ->
  coverage (length p1) i <=
  Rsum (length p1) (fun k => Rsum (length p1 - k) (fun s => prob (F (s, (s + S k)%nat)) (fun r => same_at eqb i r p1)) / INR (length p1 - k)) / INR (length p1).
Proof.
  intros Hi H; unfold coverage, Rdiv; apply Rmult_le_compat_r; [left; apply Rinv_0_lt_compat, INR_pos; lia|].
  apply Rsum_le; intros k Hk; apply Rmult_le_compat_r; [left; apply Rinv_0_lt_compat, INR_pos; lia|].
  unfold starts; replace (length p1 - (k + 1) + 1)%nat with (length p1 - k)%nat by lia; rewrite <- Rsum_filter; apply Rsum_le; intros a Ha.
  destruct (Nat.leb_spec a i), (Nat.ltb_spec i (a + (k + 1))); cbn [andb]; try apply PModel.prob_nonneg.
  rewrite prob_one; [lra|]; eapply must_mono; [|apply (H a (a + S k)%nat); lia]; cbn beta.
  intros r E; apply same_at_ok; auto; apply nth_error_Some; rewrite E; apply nth_error_Some; auto.
Qed.
Lemma kept_position fuel s (p1 p2 : list G) i : s = PartiallyMapped \/ s = Order -> perm_parents p1 p2 -> (length p1 < fuel)%nat -> (i < length p1)%nat ->
  coverage (length p1) i <= prob (crossover eqb ltb fuel s p1 p2) (fun r => same_at eqb i r p1).
Proof.
  intros Hs Hp Hf Hi; assert (Hne : p1 <> []) by (intros ->; cbn in Hi; lia); destruct Hs as [->| ->].
  - rewrite pmx_law by auto; apply (law_covers (partially_mapped_crossover eqb fuel p1 p2)); auto; intros a b Hab Hb.
    eapply must_mono; [|apply (pmx_offspring eqb p1 p2 fuel a b Heq Hp); lia]; cbn beta; intros r (_ & H & _); auto.
  - rewrite ox_law by auto; apply (law_covers (order_crossover eqb fuel p1 p2)); auto; intros a b Hab Hb.
    eapply must_mono; [|apply (ox_offspring eqb p1 p2 fuel a b Heq Hp); lia]; cbn beta; intros r (_ & H & _); auto.
Qed.
Lemma kept_half fuel s (p1 p2 : list G) : s = PartiallyMapped \/ s = Order -> perm_parents p1 p2 -> (length p1 < fuel)%nat -> p1 <> [] ->
  (INR (length p1) + 1) / 2 <= Rsum (length p1) (fun i => prob (crossover eqb ltb fuel s p1 p2) (fun r => same_at eqb i r p1)).
Proof.
  intros Hs Hp Hf Hne; rewrite <- coverage_total by (destruct p1; cbn; [congruence|lia]).
  apply Rsum_le; intros i Hi; apply kept_position; auto.
Qed.

(** ** SPX *)
Lemma spx_at (p1 p2 : list G) c i : length p1 = length p2 -> (i < length p1)%nat -> (c < length p1)%nat ->
  nth_error (firstn c p1 ++ skipn c p2) i = nth_error (if (i <? c)%nat then p1 else p2) i.
Proof.
  intros Hl Hi Hc; destruct (Nat.ltb_spec i c).
  - rewrite nth_error_app1 by (rewrite firstn_length; lia); rewrite <- (firstn_skipn c p1) at 2; rewrite nth_error_app1; auto; rewrite firstn_length; lia.
  - rewrite nth_error_app2 by (rewrite firstn_length; lia); rewrite <- (firstn_skipn c p2) at 2.
    rewrite nth_error_app2 by (rewrite firstn_length; lia); rewrite !firstn_length; f_equal; lia.
Qed.
Lemma same_at_refl i (l : list G) : (i < length l)%nat -> same_at eqb i l l = true.
Proof. intros; apply same_at_ok; auto. Qed.
Lemma same_at_cong i (l l' r : list G) : nth_error l i = nth_error l' i -> same_at eqb i l r = same_at eqb i l' r.
Proof. unfold same_at; intros ->; auto. Qed.
Lemma same_at_sym i (l r : list G) : same_at eqb i l r = same_at eqb i r l.
Proof. unfold same_at; destruct (nth_error l i), (nth_error r i); auto; apply eq_true_iff_eq; split; intros H; apply Heq; symmetry; apply Heq; auto. Qed.
Lemma spx_same_1 (p1 p2 : list G) c i : length p1 = length p2 -> (i < length p1)%nat -> (c < length p1)%nat -> same_at eqb i p1 p2 = false ->
  same_at eqb i (firstn c p1 ++ skipn c p2) p1 = (i <? c)%nat /\ same_at eqb i (firstn c p1 ++ skipn c p2) p2 = negb (i <? c)%nat.
Proof.
  intros Hl Hi Hc Hd; pose proof (spx_at p1 p2 c i Hl Hi Hc) as E; rewrite !(same_at_cong i _ _ _ E); destruct (i <? c)%nat; cbn [negb].
  - rewrite same_at_refl, Hd by lia; auto.
  - rewrite same_at_sym, Hd, same_at_refl by lia; auto.
Qed.
Lemma spx_counts fuel (p1 p2 : list G) P lo hi : length p1 = length p2 -> p1 <> [] -> (hi <= length p1)%nat ->
  (forall c, (c < length p1)%nat -> P (firstn c p1 ++ skipn c p2) = (lo <=? c)%nat && (c <? hi)%nat) ->
  prob (crossover eqb ltb fuel SinglePoint p1 p2) P = INR (hi - lo) / INR (length p1).
Proof.
  intros Hl Hne Hh H; rewrite spx_law by auto; f_equal.
  rewrite (Rsum_ext _ _ (fun c => if ((lo <=? c) && (c <? hi))%nat then 1 else 0)) by (intros c Hc; rewrite H; auto).
  rewrite Rsum_filter, count_between; do 2 f_equal; lia.
Qed.
Lemma spx_share fuel (p1 p2 : list G) i : length p1 = length p2 -> (i < length p1)%nat -> same_at eqb i p1 p2 = false ->
  prob (crossover eqb ltb fuel SinglePoint p1 p2) (fun r => same_at eqb i r p1) = INR (length p1 - 1 - i) / INR (length p1) /\
  prob (crossover eqb ltb fuel SinglePoint p1 p2) (fun r => same_at eqb i r p2) = INR (i + 1) / INR (length p1).
Proof.
  intros Hl Hi Hd; assert (Hne : p1 <> []) by (intros ->; cbn in Hi; lia); split.
  - rewrite (spx_counts fuel p1 p2 _ (i + 1) (length p1)); auto; [do 2 f_equal; lia|].
    intros c Hc; rewrite (proj1 (spx_same_1 p1 p2 c i Hl Hi Hc Hd)).
    destruct (Nat.ltb_spec i c), (Nat.leb_spec (i + 1) c), (Nat.ltb_spec c (length p1)); auto; lia.
  - rewrite (spx_counts fuel p1 p2 _ 0 (i + 1)); auto; [do 2 f_equal; lia|lia|].
    intros c Hc; rewrite (proj2 (spx_same_1 p1 p2 c i Hl Hi Hc Hd)).
    destruct (Nat.ltb_spec i c), (Nat.leb_spec 0 c), (Nat.ltb_spec c (i + 1)); auto; lia.
Qed.
Lemma spx_linkage fuel (p1 p2 : list G) i j : length p1 = length p2 -> (i < j < length p1)%nat ->
  same_at eqb i p1 p2 = false -> same_at eqb j p1 p2 = false ->
  prob (crossover eqb ltb fuel SinglePoint p1 p2) (fun r => same_at eqb i r p1 && same_at eqb j r p2) = INR (j - i) / INR (length p1) /\
  prob (crossover eqb ltb fuel SinglePoint p1 p2) (fun r => same_at eqb i r p2 && same_at eqb j r p1) = 0.
Proof.
  intros Hl Hi Hdi Hdj; assert (Hne : p1 <> []) by (intros ->; cbn in Hi; lia); split.
  - rewrite (spx_counts fuel p1 p2 _ (i + 1) (j + 1)); auto; [do 2 f_equal; lia|lia|].
    intros c Hc; rewrite (proj1 (spx_same_1 p1 p2 c i Hl ltac:(lia) Hc Hdi)), (proj2 (spx_same_1 p1 p2 c j Hl ltac:(lia) Hc Hdj)).
    destruct (Nat.ltb_spec i c), (Nat.ltb_spec j c), (Nat.leb_spec (i + 1) c), (Nat.ltb_spec c (j + 1)); auto; lia.
  - rewrite (spx_counts fuel p1 p2 _ 0 0); auto; [cbn; unfold Rdiv; lra|lia|].
    intros c Hc; rewrite (proj2 (spx_same_1 p1 p2 c i Hl ltac:(lia) Hc Hdi)), (proj1 (spx_same_1 p1 p2 c j Hl ltac:(lia) Hc Hdj)).
    destruct (Nat.ltb_spec i c), (Nat.ltb_spec j c); cbn [negb andb]; try lia; symmetry; apply andb_false_r.
Qed.
End Kept.

Lemma cover_example : coverage 3 0 = 11 / 18 /\ coverage 3 1 = 7 / 9 /\ coverage 3 2 = 11 / 18.
Proof. unfold coverage, starts, Rsum; cbn; repeat split; field. Qed.
Lemma spx_share_example (ltb : bool -> bool -> bool) :
  length [true; true; true] = length [false; false; false] /\ same_at Bool.eqb 0 [true; true; true] [false; false; false] = false /\
  prob (crossover Bool.eqb ltb 0 SinglePoint [true; true; true] [false; false; false]) (fun r => same_at Bool.eqb 0 r [true; true; true]) = 2 / 3 /\
  prob (crossover Bool.eqb ltb 0 SinglePoint [true; true; true] [false; false; false]) (fun r => same_at Bool.eqb 2 r [true; true; true]) = 0.
Proof.
  assert (He : eq_ok Bool.eqb) by (intros x y; apply Bool.eqb_true_iff).
  split; [reflexivity|]; split; [reflexivity|].
  rewrite (proj1 (spx_share Bool.eqb ltb He 0 [true; true; true] [false; false; false] 0 eq_refl ltac:(cbn; lia) eq_refl)).
  rewrite (proj1 (spx_share Bool.eqb ltb He 0 [true; true; true] [false; false; false] 2 eq_refl ltac:(cbn; lia) eq_refl)).
  cbn; split; lra.
Qed.
