(** * POperatorsRandom: proofs about random_pair, random_range (C01-C04). *)
From Coq Require Import List Bool Arith NArith Reals Lia Lra.
From Verif Require Import Rnd Prob LRnd LProb MOperators.
Import ListNotations.

Lemma random_pair_must n :
  2 <= n -> must (random_pair n) (fun r => fst r < n /\ snd r < n /\ fst r <> snd r).
Proof.
  intros Hn; unfold random_pair.
  apply must_bind, must_massert; split; [apply Nat.leb_le; auto|].
  apply must_bind, must_gen_range; split; [lia|]; intros p1 H1.
  apply must_bind, must_gen_range; split; [lia|]; intros p2 H2.
  cbn; destruct (Nat.leb_spec p1 p2); lia.
Qed.

Lemma random_pair_reach n a b :
  a < n -> b < n -> a <> b -> may (random_pair n) (a, b).
Proof.
  intros Ha Hb Hab; unfold random_pair.
  apply may_bind; exists tt; split.
  { unfold massert; rewrite (proj2 (Nat.leb_le 2 n)) by lia; reflexivity. }
  apply may_bind; exists a; split; [apply may_gen_range; lia|].
  destruct (Nat.lt_ge_cases b a) as [Hlt|Hge].
  - apply may_bind; exists b; split; [apply may_gen_range; lia|]; cbn.
    rewrite (proj2 (Nat.leb_gt a b)); auto.
  - apply may_bind; exists (b - 1); split; [apply may_gen_range; lia|]; cbn.
    rewrite (proj2 (Nat.leb_le a (b - 1))) by lia; f_equal; lia.
Qed.

Lemma random_pair_panics n : n < 2 -> must_fail (random_pair n) Panic.
Proof.
  intros H; unfold random_pair, massert.
  rewrite (proj2 (Nat.leb_gt 2 n)) by lia; reflexivity.
Qed.

Lemma bounded_random_range_must n mn mx :
  mn <= mx -> mx <= n ->
  must (bounded_random_range n mn mx)
    (fun r => fst r <= snd r /\ snd r <= n /\ mn <= snd r - fst r <= mx).
Proof.
  intros H1 H2; unfold bounded_random_range.
  apply must_bind, must_gen_range_incl; split; [lia|]; intros len Hlen.
  apply must_bind, must_massert; split; [apply Nat.leb_le; lia|].
  apply must_bind, must_gen_range_incl; split; [lia|]; intros s Hs.
  cbn; lia.
Qed.

Lemma bounded_random_range_reach n mn mx a b :
  a <= b -> b <= n -> mn <= b - a <= mx -> may (bounded_random_range n mn mx) (a, b).
Proof.
  intros H1 H2 H3; unfold bounded_random_range.
  apply may_bind; exists (b - a); split; [apply may_gen_range_incl; lia|].
  unfold massert; rewrite (proj2 (Nat.leb_le (b - a) n)) by lia; cbn [bind].
  apply may_bind; exists a; split; [apply may_gen_range_incl; lia|]; cbn.
  f_equal; lia.
Qed.

Lemma bounded_random_range_panics n mn mx :
  mx < mn -> must_fail (bounded_random_range n mn mx) Panic.
Proof.
  intros H; unfold bounded_random_range, gen_range_incl.
  rewrite (proj2 (Nat.leb_gt mn mx)) by lia; reflexivity.
Qed.

Lemma bounded_random_range_may_panic n mn mx :
  mn <= mx -> n < mx -> may_fail (bounded_random_range n mn mx) Panic.
Proof.
  intros H1 H2; unfold bounded_random_range.
  apply may_fail_bind; right; exists mx; split; [apply may_gen_range_incl; lia|].
  unfold massert; rewrite (proj2 (Nat.leb_gt mx n)) by lia; reflexivity.
Qed.

Lemma random_range_must n :
  1 <= n -> must (random_range n) (fun r => fst r < snd r /\ snd r <= n).
Proof.
  intros H; unfold random_range.
  apply must_bind, must_massert; split; [apply negb_true_iff, Nat.eqb_neq; lia|].
  eapply must_mono; [|apply bounded_random_range_must; lia].
  cbn; intros r Hr; lia.
Qed.

Lemma random_range_reach n a b : a < b -> b <= n -> may (random_range n) (a, b).
Proof.
  intros H1 H2; unfold random_range.
  apply may_bind; exists tt; split.
  { unfold massert; rewrite (proj2 (Nat.eqb_neq n 0)) by lia; reflexivity. }
  apply bounded_random_range_reach; lia.
Qed.

Lemma random_range_panics : must_fail (random_range 0) Panic.
Proof. reflexivity. Qed.

Local Open Scope R_scope.

Lemma random_pair_prob n a b :
  (a < n)%nat -> (b < n)%nat -> a <> b ->
  prob (random_pair n) (fun r => Nat.eqb (fst r) a && Nat.eqb (snd r) b)
  = 1 / (INR n * (INR n - 1)).
Proof.
  intros Ha Hb Hab; rewrite prob_expect; unfold random_pair.
  unfold massert; rewrite (proj2 (Nat.leb_le 2 n)) by lia; cbn [bind].
  rewrite expect_bind, expect_gen_range by lia.
  rewrite Nat.sub_0_r, (Rsum_single n a); [|auto|].
  - rewrite expect_bind, expect_gen_range by lia; cbn [expect fst snd].
    rewrite Nat.add_0_l, Nat.eqb_refl; cbn [andb].
    rewrite Nat.sub_0_r.
    rewrite (Rsum_single (n - 1) (if b <? a then b else (b - 1))%nat).
    + assert (Hc : INR (n - 1) = INR n - 1) by (rewrite minus_INR by lia; reflexivity).
      rewrite Hc.
      assert (2 <= INR n) by (replace 2 with (INR 2) by reflexivity; apply le_INR; lia).
      destruct (Nat.ltb_spec b a).
      * rewrite (proj2 (Nat.leb_gt a (0 + b))) by lia.
        rewrite Nat.add_0_l, Nat.eqb_refl; field; lra.
      * rewrite (proj2 (Nat.leb_le a (0 + (b - 1)))) by lia.
        replace (0 + (b - 1) + 1)%nat with b by lia.
        rewrite Nat.eqb_refl; field; lra.
    + destruct (Nat.ltb_spec b a); lia.
    + intros i Hi Hne; rewrite Nat.add_0_l.
      destruct (Nat.leb_spec a i).
      * rewrite (proj2 (Nat.eqb_neq (i + 1) b)); [reflexivity|].
        destruct (Nat.ltb_spec b a); lia.
      * rewrite (proj2 (Nat.eqb_neq i b)); [reflexivity|].
        destruct (Nat.ltb_spec b a); lia.
  - intros i Hi Hne; rewrite expect_bind, expect_gen_range by lia; cbn [expect fst snd].
    rewrite Nat.add_0_l, (proj2 (Nat.eqb_neq i a)) by auto; cbn [andb].
    rewrite Rsum_const; lra.
Qed.

Lemma bounded_random_range_prob n mn mx s l :
  (mn <= l <= mx)%nat -> (mx <= n)%nat -> (s + l <= n)%nat ->
  prob (bounded_random_range n mn mx) (fun r => Nat.eqb (fst r) s && Nat.eqb (snd r) (s + l))
  = 1 / (INR (mx - mn + 1) * INR (n - l + 1)).
Proof.
  intros Hl Hmx Hs; rewrite prob_expect; unfold bounded_random_range.
  rewrite expect_bind, expect_gen_range_incl by lia.
  assert (0 < INR (mx - mn + 1)) by (apply INR_pos; lia).
  assert (0 < INR (n - l + 1)) by (apply INR_pos; lia).
  rewrite (Rsum_single _ (l - mn)).
  - replace (mn + (l - mn))%nat with l by lia.
    unfold massert; rewrite (proj2 (Nat.leb_le l n)) by lia; cbn [bind].
    rewrite expect_bind, expect_gen_range_incl by lia.
    rewrite (Rsum_single _ s).
    + cbn [expect fst snd]; rewrite Nat.add_0_l, !Nat.eqb_refl; cbn [andb].
      replace (S mx - mn)%nat with (mx - mn + 1)%nat by lia.
      replace (S (n - l) - 0)%nat with (n - l + 1)%nat by lia.
      field; lra.
    + lia.
    + intros i Hi Hne; cbn [expect fst snd]; rewrite Nat.add_0_l, (proj2 (Nat.eqb_neq i s)) by auto; reflexivity.
  - lia.
  - intros i Hi Hne.
    unfold massert; rewrite (proj2 (Nat.leb_le (mn + i) n)) by lia; cbn [bind].
    rewrite expect_bind, expect_gen_range_incl by lia.
    rewrite (Rsum_ext _ _ (fun _ => 0)), Rsum_const; [lra|].
    intros j Hj; cbn [expect fst snd].
    destruct (Nat.eqb_spec (0 + j) s); cbn [andb]; [|reflexivity].
    rewrite (proj2 (Nat.eqb_neq (0 + j + (mn + i)) (s + l))); [reflexivity|lia].
Qed.

Lemma random_range_prob n s l :
  (1 <= l)%nat -> (s + l <= n)%nat ->
  prob (random_range n) (fun r => Nat.eqb (fst r) s && Nat.eqb (snd r) (s + l))
  = 1 / (INR n * INR (n - l + 1)).
Proof.
  intros H1 H2; unfold random_range, massert.
  rewrite (proj2 (Nat.eqb_neq n 0)) by lia; cbn [negb bind].
  rewrite bounded_random_range_prob by lia.
  do 2 f_equal; f_equal; lia.
Qed.

Lemma random_range_not_uniform n :
  (2 <= n)%nat ->
  prob (random_range n) (fun r => Nat.eqb (fst r) 0 && Nat.eqb (snd r) 1)
  < prob (random_range n) (fun r => Nat.eqb (fst r) 0 && Nat.eqb (snd r) n).
Proof.
  intros Hn.
  pose proof (random_range_prob n 0 1) as H1; pose proof (random_range_prob n 0 n) as H2.
  cbn [Nat.add] in H1, H2; rewrite H1, H2 by lia.
  replace (n - 1 + 1)%nat with n by lia; replace (n - n + 1)%nat with 1%nat by lia.
  assert (2 <= INR n) by (replace 2 with (INR 2) by reflexivity; apply le_INR; lia).
  change (INR 1) with 1; rewrite Rmult_1_r.
  unfold Rdiv; rewrite !Rmult_1_l; apply Rinv_lt_contravar; nra.
Qed.
