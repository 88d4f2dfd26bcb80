(** * LProb: reasoning rules for exact probabilities. *)
From Coq Require Import List Bool Arith NArith Reals Lia Lra.
From Verif Require Import Rnd Prob LRnd.
Import ListNotations.
Local Open Scope R_scope.

Lemma Rsum_0 f : Rsum 0 f = 0.
Proof. reflexivity. Qed.

Lemma fold_Rplus_app l x : fold_right Rplus 0 (l ++ [x]) = fold_right Rplus 0 l + x.
Proof. induction l as [|h t IH]; cbn; [lra|rewrite IH; lra]. Qed.

Lemma Rsum_S n f : Rsum (S n) f = Rsum n f + f n.
Proof. unfold Rsum; rewrite seq_S, map_app; cbn; apply fold_Rplus_app. Qed.

Lemma Rsum_ext n f g : (forall i, (i < n)%nat -> f i = g i) -> Rsum n f = Rsum n g.
Proof.
  induction n as [|n IH]; intros H; [reflexivity|].
  rewrite !Rsum_S, IH, H; auto.
Qed.

Lemma Rsum_const n c : Rsum n (fun _ => c) = INR n * c.
Proof. induction n as [|n IH]; [cbn; lra|]. rewrite Rsum_S, IH, S_INR; lra. Qed.

Lemma Rsum_plus n f g : Rsum n (fun i => f i + g i) = Rsum n f + Rsum n g.
Proof. induction n as [|n IH]; [cbn; lra|]. rewrite !Rsum_S, IH; lra. Qed.

Lemma Rsum_mult n f c : Rsum n (fun i => c * f i) = c * Rsum n f.
Proof. induction n as [|n IH]; [cbn; lra|]. rewrite !Rsum_S, IH; lra. Qed.

Lemma Rsum_mult_r n f c : Rsum n (fun i => f i * c) = Rsum n f * c.
Proof. induction n as [|n IH]; [cbn; lra|]. rewrite !Rsum_S, IH; lra. Qed.

Lemma Rsum_le n f g : (forall i, (i < n)%nat -> f i <= g i) -> Rsum n f <= Rsum n g.
Proof.
  induction n as [|n IH]; intros H; [cbn; lra|].
  rewrite !Rsum_S. assert (f n <= g n) by auto.
  assert (Rsum n f <= Rsum n g) by auto. lra.
Qed.

(** A sum with a single non-zero term. *)
Lemma Rsum_single n a f :
  (a < n)%nat -> (forall i, (i < n)%nat -> i <> a -> f i = 0) -> Rsum n f = f a.
Proof.
  induction n as [|n IH]; intros Ha H; [lia|].
  rewrite Rsum_S; destruct (Nat.eq_dec a n) as [->|Hne].
  - rewrite (Rsum_ext n f (fun _ => 0)), Rsum_const; [lra|].
    intros i Hi; apply H; lia.
  - rewrite IH; [rewrite (H n); [lra|lia|lia]|lia|].
    intros i Hi; apply H; lia.
Qed.

(** A sum of ones below a threshold counts. *)
Lemma Rsum_count n k : (k <= n)%nat -> Rsum n (fun i => if (i <? k)%nat then 1 else 0) = INR k.
Proof.
  induction n as [|n IH]; intros H.
  - assert (k = 0)%nat by lia; subst; reflexivity.
  - rewrite Rsum_S; destruct (Nat.eq_dec k (S n)) as [->|Hne].
    + rewrite (Rsum_ext n _ (fun _ => 1)), Rsum_const.
      * rewrite (proj2 (Nat.ltb_lt _ _)), S_INR by lia; lra.
      * intros i Hi; rewrite (proj2 (Nat.ltb_lt _ _)); [reflexivity|lia].
    + rewrite IH by lia. rewrite (proj2 (Nat.ltb_ge n k)) by lia; lra.
Qed.

(** Expected value of [g] on the result ([Fail] counts 0; picks adversarial). *)
Fixpoint expect {A} (m : M A) (g : A -> R) : R :=
  match m with
  | Ret a => g a
  | Fail _ => 0
  | Draw n k => Rsum (N.to_nat n) (fun i => expect (k (N.of_nat i)) g) / INR (N.to_nat n)
  | Pick n k => fold_right Rmin 1 (map (fun i => expect (k (N.of_nat i)) g) (seq 0 (N.to_nat n)))
  end.

Lemma prob_expect {A} (m : M A) P : prob m P = expect m (fun a => if P a then 1 else 0).
Proof.
  induction m as [a|e|n k IH|n k IH]; cbn; auto.
  - f_equal; apply Rsum_ext; intros i _; apply IH.
  - f_equal; apply map_ext; intros i; apply IH.
Qed.

Lemma expect_ext {A} (m : M A) g h : (forall a, g a = h a) -> expect m g = expect m h.
Proof.
  intros H; induction m as [a|e|n k IH|n k IH]; cbn; auto.
  - f_equal; apply Rsum_ext; intros i _; apply IH.
  - f_equal; apply map_ext; intros i; apply IH.
Qed.

Lemma expect_bind {A B} (m : M A) (f : A -> M B) g :
  expect (bind m f) g = expect m (fun a => expect (f a) g).
Proof.
  induction m as [a|e|n k IH|n k IH]; cbn; auto.
  - f_equal; apply Rsum_ext; intros i _; apply IH.
  - f_equal; apply map_ext; intros i; apply IH.
Qed.

Lemma expect_gen_range lo hi g :
  (lo < hi)%nat -> expect (gen_range lo hi) g = Rsum (hi - lo) (fun i => g (lo + i)%nat) / INR (hi - lo).
Proof.
  intros H; unfold gen_range; rewrite (proj2 (Nat.ltb_lt _ _) H); cbn [expect].
  rewrite Nat2N.id; f_equal; apply Rsum_ext; intros i _; rewrite Nat2N.id; reflexivity.
Qed.

Lemma expect_gen_range_incl lo hi g :
  (lo <= hi)%nat ->
  expect (gen_range_incl lo hi) g = Rsum (S hi - lo) (fun i => g (lo + i)%nat) / INR (S hi - lo).
Proof.
  intros H; unfold gen_range_incl; rewrite (proj2 (Nat.leb_le _ _) H); cbn [expect].
  rewrite Nat2N.id; f_equal; apply Rsum_ext; intros i _; rewrite Nat2N.id; reflexivity.
Qed.

Lemma INR_pos n : (0 < n)%nat -> 0 < INR n.
Proof. apply lt_0_INR. Qed.

