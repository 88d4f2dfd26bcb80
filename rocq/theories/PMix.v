(** * PMix: long sequences of permutation mutations (C119). *)
From Coq Require Import List Bool Arith NArith ZArith Reals Lia Lra Permutation.
From Verif Require Import Rnd LRnd Prob LProb MOperators MMutation Spec SpecM SpecO SpecJ LAlike PMutation PSelection2 PModel PConnect PRename2.
Import ListNotations.
Local Open Scope R_scope.

(** ** Expectations *)
Lemma np_ret {A} (a : A) : no_pick (Ret a). Proof. exact Logic.I. Qed.
Lemma expect_div_le n x y : x <= y -> (n = 0%nat -> x = 0 /\ y = 0) -> x / INR n <= y / INR n.
Proof.
  intros H H0; destruct n as [|n]; [destruct H0 as [-> ->]; auto; lra|].
  unfold Rdiv; apply Rmult_le_compat_r; auto; left; apply Rinv_0_lt_compat, lt_0_INR; lia.
Qed.
Lemma expect_le {A} (m : M A) f g : no_pick m -> (forall a, may m a -> f a <= g a) -> expect m f <= expect m g.
Proof.
  induction m as [a|e|n k IH|n k IH]; cbn [no_pick may expect]; intros Hp H; auto; try lra; try tauto.
  apply expect_div_le; [|intros E; rewrite E, !Rsum_0; auto].
  apply Rsum_le; intros i Hi; apply IH; auto; intros a Ha; apply H; exists (N.of_nat i); split; auto; lia.
Qed.
Lemma expect_supp {A} (m : M A) f g : no_pick m -> (forall a, may m a -> f a = g a) -> expect m f = expect m g.
Proof. intros Hp H; apply Rle_antisym; apply expect_le; auto; intros a Ha; rewrite (H a Ha); lra. Qed.
Lemma expect_const {A} (m : M A) Q c : no_pick m -> must m Q -> expect m (fun _ => c) = c.
Proof.
  intros Hp Hm; rewrite (expect_ext m _ (fun _ => 0 * 0 + c)) by (intros; lra).
  rewrite (expect_affine m Q (fun _ => 0) 0 c Hp Hm); lra.
Qed.
Lemma expect_plus {A} (m : M A) f g : no_pick m -> expect m (fun a => f a + g a) = expect m f + expect m g.
Proof.
  induction m as [a|e|n k IH|n k IH]; cbn [no_pick expect]; intros Hp; try lra; try tauto.
  rewrite (Rsum_ext _ _ (fun i => expect (k (N.of_nat i)) f + expect (k (N.of_nat i)) g)) by (intros i Hi; apply IH; auto).
  rewrite Rsum_plus; unfold Rdiv; lra.
Qed.
Lemma expect_total {A B} (m : M A) (F : B -> A -> R) ls Q : no_pick m -> must m Q ->
  expect m (fun a => total (map (fun l => F l a) ls)) = total (map (fun l => expect m (F l)) ls).
Proof.
  intros Hp Hm; induction ls as [|l ls IH]; cbn [map total fold_right]; [apply (expect_const m Q); auto|].
  rewrite expect_plus by auto; f_equal; exact IH.
Qed.
Lemma expect_alike {A B} (R : A -> B -> Prop) (m : M A) (m' : M B) f g : alike R m m' -> no_pick m ->
  (forall a b, R a b -> f a = g b) -> expect m f = expect m' g.
Proof.
  revert m'; induction m as [a|e|n k IH|n k IH]; intros [b|e'|n' k'|n' k'] H Hp HR; cbn in *; try contradiction; auto.
  destruct H as [-> H]; f_equal; apply Rsum_ext; intros i Hi; apply IH; auto; apply H; lia.
Qed.
Lemma Rsum_nonneg n f : (forall i, (i < n)%nat -> 0 <= f i) -> 0 <= Rsum n f.
Proof. intros H; replace 0 with (Rsum n (fun _ => 0)) by (rewrite Rsum_const; lra); apply Rsum_le; auto. Qed.
Lemma Rsum_part n a f : (a < n)%nat -> (forall i, (i < n)%nat -> 0 <= f i) -> f a <= Rsum n f.
Proof.
  intros Ha H; induction n as [|n IH]; [lia|]; rewrite Rsum_S; destruct (Nat.eq_dec a n) as [->|Hne].
  - pose proof (Rsum_nonneg n f (fun i Hi => H i ltac:(lia))); lra.
  - pose proof (IH ltac:(lia) (fun i Hi => H i ltac:(lia))); pose proof (H n ltac:(lia)); lra.
Qed.
Lemma expect_nonneg {A} (m : M A) f : no_pick m -> (forall a, may m a -> 0 <= f a) -> 0 <= expect m f.
Proof.
  induction m as [a|e|n k IH|n k IH]; cbn [no_pick may expect]; intros Hp H; auto; try lra; try tauto.
  replace 0 with (0 / INR (N.to_nat n)) by (unfold Rdiv; lra); apply expect_div_le; [|intros E; rewrite E, !Rsum_0; auto].
  apply Rsum_nonneg; intros i Hi; apply IH; auto; intros a Ha; apply H; exists (N.of_nat i); split; auto; lia.
Qed.
(** A possible outcome has a share in every expectation. *)
Lemma expect_share {A} (m : M A) Q r : no_pick m -> must m Q -> may m r ->
  exists e, 0 < e /\ forall f, (forall a, may m a -> 0 <= f a) -> e * f r <= expect m f.
Proof.
  induction m as [a|e|n k IH|n k IH]; cbn [no_pick must may expect]; intros Hp Hm Hr; try tauto.
  - subst a; exists 1; split; [lra|]; intros; lra.
  - destruct Hm as [Hn Hm], Hr as (i & Hi & Hr).
    destruct (IH i (Hp i) (Hm i Hi) Hr) as (e & He & H); exists (e / INR (N.to_nat n)).
    assert (Hn0 : 0 < INR (N.to_nat n)) by (apply lt_0_INR; lia).
    split; [apply Rdiv_lt_0_compat; auto|]; intros f Hf.
    apply Rle_trans with (expect (k i) f / INR (N.to_nat n)).
    { unfold Rdiv; rewrite Rmult_assoc, (Rmult_comm (/ _)), <- Rmult_assoc; apply Rmult_le_compat_r; [left; apply Rinv_0_lt_compat; auto|].
      apply H; intros a Ha; apply Hf; exists i; auto. }
    apply expect_div_le; [|lia].
    rewrite <- (N2Nat.id i) at 1; apply (Rsum_part (N.to_nat n) (N.to_nat i) (fun j => expect (k (N.of_nat j)) f)); [lia|].
    intros j Hj; apply (expect_nonneg (k (N.of_nat j)) f); auto; intros a Ha; apply Hf; exists (N.of_nat j); split; auto; lia.
Qed.

(** ** Averages over all orders *)
Lemma total_perm (xs ys : list R) : Permutation xs ys -> total xs = total ys.
Proof. unfold total; induction 1; cbn [fold_right] in *; lra. Qed.
Lemma total_const {A} (ls : list A) c : total (map (fun _ => c) ls) = INR (length ls) * c.
Proof. induction ls as [|l ls IH]; cbn [map total fold_right length]; [cbn; lra|]; fold (total (map (fun _ => c) ls)); rewrite IH, S_INR; lra. Qed.
Lemma total_le {A} (ls : list A) f g : (forall l, In l ls -> f l <= g l) -> total (map f ls) <= total (map g ls).
Proof.
  induction ls as [|l ls IH]; intros H; cbn [map total fold_right]; [lra|]; fold (total (map f ls)); fold (total (map g ls)).
  pose proof (H l (or_introl eq_refl)); pose proof (IH (fun x Hx => H x (or_intror Hx))); lra.
Qed.
Lemma total_count {A} (P : A -> bool) ls : total (map (fun l => if P l then 1 else 0) ls) = INR (length (filter P ls)).
Proof. induction ls as [|l ls IH]; [reflexivity|]; cbn [map total fold_right filter]; fold (total (map (fun l => if P l then 1 else 0) ls)); rewrite IH; destruct (P l); [cbn [length]; rewrite S_INR|]; lra. Qed.

Section Mix.
Context {G : Type}.
Implicit Types (l r g : list G) (ls : list (list G)).

Definition apply_to (d : G) (sg : list nat) l : list G := map (fun i => nth i l d) sg.

Lemma apply_id d l : apply_to d (seq 0 (length l)) l = l.
Proof.
  unfold apply_to; induction l as [|x l IH]; [reflexivity|]; cbn [length seq map nth]; f_equal.
  rewrite <- seq_shift, map_map; exact IH.
Qed.
Lemma no_pick_swap {A} (l : list A) i j : no_pick (swap l i j).
Proof. unfold swap; do 2 (apply no_pick_bind; [apply no_pick_idx|]; intros); exact Logic.I. Qed.
Lemma no_pick_incl lo hi : no_pick (gen_range_incl lo hi).
Proof. unfold gen_range_incl; destruct (_ <=? _)%nat; cbn; auto. Qed.
Lemma no_pick_massert b : no_pick (massert b).
Proof. destruct b; exact Logic.I. Qed.
Lemma no_pick_pair n : no_pick (random_pair n).
Proof.
  unfold random_pair; apply no_pick_bind; [apply no_pick_massert|]; intros _.
  do 2 (apply no_pick_bind; [apply no_pick_gen_range|]; intros); exact Logic.I.
Qed.
Lemma no_pick_range n a b : no_pick (bounded_random_range n a b).
Proof.
  unfold bounded_random_range; apply no_pick_bind; [apply no_pick_incl|]; intros; apply no_pick_bind; [apply no_pick_massert|]; intros _.
  apply no_pick_bind; [apply no_pick_incl|]; intros; exact Logic.I.
Qed.
Lemma no_pick_slice {A} (l : list A) a b : no_pick (slice l a b).
Proof. unfold slice; destruct (_ && _); exact Logic.I. Qed.
Lemma no_pick_copy {A} (l : list A) a b c : no_pick (copy_range l a b c).
Proof. unfold copy_range; destruct (_ && _ && _); exact Logic.I. Qed.
Lemma no_pick_shuffle {A} i : forall l : list A, no_pick (shuffle_loop i l).
Proof.
  induction i as [|i IH]; intros l; [exact Logic.I|]; cbn [shuffle_loop].
  apply no_pick_bind; [apply no_pick_gen_range|]; intros; apply no_pick_bind; [apply no_pick_swap|]; intros; apply IH.
Qed.
Lemma no_pick_mutate {A} s (l : list A) : no_pick (mutate s l).
Proof.
  destruct s; cbn [mutate]; unfold swap_mutation, scramble_mutation, inversion_mutation, insertion_mutation, duplicate_mutation;
    destruct (_ <? _)%nat; try exact Logic.I; apply no_pick_bind; try apply no_pick_pair; try apply no_pick_range; intros [a b].
  - apply no_pick_swap.
  - apply no_pick_bind; [apply no_pick_slice|]; intros; apply no_pick_bind; [apply no_pick_shuffle|]; intros; apply no_pick_copy.
  - apply no_pick_bind; [apply no_pick_slice|]; intros; apply no_pick_copy.
  - destruct (if (b <? a)%nat then _ else _) as [p1 p2]; apply no_pick_bind; [apply no_pick_slice|]; intros.
    apply no_pick_bind; [unfold rotate_right; destruct (_ <=? _)%nat; exact Logic.I|]; intros; apply no_pick_copy.
  - apply no_pick_bind; [apply no_pick_idx|]; intros; unfold set; destruct (_ <? _)%nat; exact Logic.I.
Qed.
Lemma no_pick_times s k : forall l, no_pick (mutate_times s k l).
Proof. induction k as [|k IH]; intros l; [exact Logic.I|]; cbn; apply no_pick_bind; [apply no_pick_mutate|]; auto. Qed.
Lemma times_perm s k : s <> Duplicate -> forall l, must (mutate_times s k l) (fun r => Permutation l r).
Proof.
  intros Hs; induction k as [|k IH]; intros l; [cbn; auto|]; cbn.
  eapply must_bind_intro; [apply mutate_perm; auto|]; intros r Hr; eapply must_mono; [|apply IH]; cbn; intros a Ha; eapply perm_trans; eauto.
Qed.
Lemma times_mutated s k : forall l r, may (mutate_times s k l) r <-> mutated s k l r.
Proof.
  induction k as [|k IH]; intros l r; cbn [mutate_times].
  - cbn [may]; split; [intros ->; constructor|inversion 1; auto].
  - rewrite may_bind; split.
    + intros (x & Hx & H); econstructor; [exact Hx|]; apply IH; auto.
    + inversion 1; subst; exists g1; split; auto; apply IH; auto.
Qed.

Lemma map_nodup_in {A B} (h : A -> B) (xs : list A) : NoDup xs -> (forall x y, In x xs -> In y xs -> h x = h y -> x = y) -> NoDup (map h xs).
Proof.
  induction 1 as [|x xs Hx Hn IH]; intros Hi; cbn; constructor.
  - intros Hin; apply in_map_iff in Hin as (y & E & Hy); apply Hx; rewrite (Hi x y); cbn; auto.
  - apply IH; intros; apply Hi; cbn; auto.
Qed.
Lemma apply_inj d sg l l' : length l = length l' -> Permutation (seq 0 (length l)) sg -> apply_to d sg l = apply_to d sg l' -> l = l'.
Proof.
  intros Hl Hp E; apply (nth_ext l l' d d); auto; intros i Hi; unfold apply_to in E; rewrite map_ext_in_iff in E; apply E.
  apply (Permutation_in _ Hp), in_seq; lia.
Qed.
Lemma apply_perm d sg l : Permutation (seq 0 (length l)) sg -> Permutation l (apply_to d sg l).
Proof. intros Hp; rewrite <- (apply_id d l) at 1; unfold apply_to; apply Permutation_map; auto. Qed.

Section Orders.
Context (g : list G) (ls : list (list G)) (Hls : all_orders g ls).

Lemma orders_len l : In l ls -> length l = length g.
Proof. intros H; apply (proj2 Hls) in H; apply Permutation_length in H; auto. Qed.
Lemma orders_self : In g ls.
Proof. apply (proj2 Hls); auto. Qed.
Lemma orders_apply d sg : Permutation (seq 0 (length g)) sg -> Permutation (map (apply_to d sg) ls) ls.
Proof.
  intros Hp; apply NoDup_Permutation_bis; [|rewrite map_length; auto|].
  - apply map_nodup_in; [apply Hls|]; intros x y Hx Hy; apply apply_inj; rewrite ?(orders_len x), ?(orders_len y); auto.
  - intros x Hx; apply in_map_iff in Hx as (y & <- & Hy); apply (proj2 Hls).
    eapply perm_trans; [apply (proj2 Hls); exact Hy|]; apply apply_perm; rewrite (orders_len y); auto.
Qed.

Lemma law_apply s d l f : expect (mutate s l) f = expect (mutate s (seq 0 (length l))) (fun sg => f (apply_to d sg l)).
Proof.
  symmetry; apply (expect_alike (fun (a : list nat) b => b = map (fun i => nth i l d) a)); [|apply no_pick_mutate|intros a b ->; reflexivity].
  rewrite <- (apply_id d l) at 2; apply names_mutation.
Qed.

Lemma stationary s f : s <> Duplicate -> total (map (fun l => expect (mutate s l) f) ls) = total (map f ls).
Proof.
  intros Hs; destruct (Nat.eq_dec (length g) 0) as [E|E].
  - f_equal; apply map_ext_in; intros l Hl; apply orders_len in Hl; rewrite mutate_short; [reflexivity|rewrite Hl; lia].
  - set (n := length g); assert (Hd : exists d : G, True) by (revert E; clear; destruct g as [|d g']; [cbn; lia|exists d; auto]); destruct Hd as [d _].
    rewrite (map_ext_in _ (fun l => expect (mutate s (seq 0 n)) (fun sg => f (apply_to d sg l)))).
    2: { intros l Hl; rewrite (law_apply s d); do 3 f_equal; rewrite (orders_len l Hl); reflexivity. }
    rewrite <- (expect_total (mutate s (seq 0 n)) (fun l sg => f (apply_to d sg l)) ls _ (no_pick_mutate _ _) (mutate_perm s _ Hs)).
    rewrite (expect_supp _ _ (fun _ => total (map f ls))); [apply (expect_const _ _ _ (no_pick_mutate _ _) (mutate_perm s _ Hs))|apply no_pick_mutate|].
    intros sg Hsg; apply (must_may _ _ _ (mutate_perm s _ Hs)) in Hsg; cbn beta in Hsg.
    rewrite <- (map_map (apply_to d sg) f); apply total_perm, Permutation_map, orders_apply; exact Hsg.
Qed.
Lemma stationary_times s k f : s <> Duplicate -> total (map (fun l => expect (mutate_times s k l) f) ls) = total (map f ls).
Proof.
  intros Hs; revert f; induction k as [|k IH]; intros f; [reflexivity|].
  rewrite <- (IH f); transitivity (total (map (fun l => expect (mutate s l) (fun x => expect (mutate_times s k x) f)) ls)); [|apply stationary; auto]; f_equal; apply map_ext; intros l; cbn [mutate_times]; apply expect_bind.
Qed.
Lemma stationary_prob s k P : s <> Duplicate ->
  total (map (fun l => prob (mutate_times s k l) P) ls) = INR (length (filter P ls)).
Proof.
  intros Hs; rewrite <- total_count, <- (stationary_times s k (fun l => if P l then 1 else 0) Hs).
  f_equal; apply map_ext; intros; apply prob_expect.
Qed.

(** ** Mixing *)
Lemma times_split s j k l f : expect (mutate_times s (j + k) l) f = expect (mutate_times s j l) (fun x => expect (mutate_times s k x) f).
Proof.
  revert l; induction j as [|j IH]; intros l; [reflexivity|]; cbn [Nat.add mutate_times]; rewrite !expect_bind.
  apply expect_ext; intros x; apply IH.
Qed.
Lemma times_in s k l r : s <> Duplicate -> In l ls -> may (mutate_times s k l) r -> In r ls.
Proof.
  intros Hs Hl Hr; apply (must_may _ _ _ (times_perm s k Hs l)) in Hr; cbn beta in Hr.
  apply (proj2 Hls); eapply perm_trans; [apply (proj2 Hls); exact Hl|exact Hr].
Qed.
Lemma times_bounds s k l f lo hi : s <> Duplicate -> In l ls -> (forall x, In x ls -> lo <= f x <= hi) -> lo <= expect (mutate_times s k l) f <= hi.
Proof.
  intros Hs Hl Hf; split.
  - apply Rle_trans with (expect (mutate_times s k l) (fun _ => lo)).
    + right; symmetry; apply (expect_const _ _ _ (no_pick_times _ _ _) (times_perm s k Hs l)).
    + apply expect_le; [apply no_pick_times|]; intros a Ha; apply Hf; eapply times_in; eauto.
  - apply Rle_trans with (expect (mutate_times s k l) (fun _ => hi)).
    + apply expect_le; [apply no_pick_times|]; intros a Ha; apply Hf; eapply times_in; eauto.
    + right; apply (expect_const _ _ _ (no_pick_times _ _ _) (times_perm s k Hs l)).
Qed.

Definition share s K e := 0 < e /\ forall l f, In l ls -> (forall x, In x ls -> 0 <= f x) -> e * f g <= expect (mutate_times s K l) f.

Lemma share_ex s K : s <> Duplicate -> (forall l, In l ls -> mutated s K l g) -> exists e, share s K e.
Proof.
  intros Hs HK.
  assert (H : forall sub, incl sub ls -> exists e, 0 < e /\ forall l f, In l sub -> (forall x, In x ls -> 0 <= f x) -> e * f g <= expect (mutate_times s K l) f).
  { induction sub as [|l sub IH]; intros Hi; [exists 1; split; [lra|intros l f []]|].
    destruct IH as (e & He & IH); [intros x Hx; apply Hi; cbn; auto|].
    destruct (expect_share (mutate_times s K l) _ g (no_pick_times _ _ _) (times_perm s K Hs l)) as (e' & He' & H').
    { apply times_mutated, HK, Hi; cbn; auto. }
    exists (Rmin e e'); split; [apply Rmin_glb_lt; auto|]; intros l' f Hl' Hf.
    assert (Hg : 0 <= f g) by (apply Hf, orders_self).
    destruct Hl' as [<-|Hl'].
    - apply Rle_trans with (e' * f g); [apply Rmult_le_compat_r; auto; apply Rmin_r|]; apply H'; intros a Ha; apply Hf.
      eapply times_in; eauto; apply Hi; cbn; auto.
    - apply Rle_trans with (e * f g); [apply Rmult_le_compat_r; auto; apply Rmin_l|]; apply IH; auto. }
  destruct (H ls (incl_refl _)) as (e & He & H'); exists e; split; auto.
Qed.

Lemma share_one s K e : s <> Duplicate -> share s K e -> e <= 1.
Proof.
  intros Hs [He H]; pose proof (H g (fun _ => 1) orders_self (fun _ _ => ltac:(lra))) as H1.
  rewrite (expect_const _ _ 1 (no_pick_times _ _ _) (times_perm s K Hs g)) in H1; lra.
Qed.

Lemma contract s K e f lo hi : s <> Duplicate -> share s K e -> (forall x, In x ls -> lo <= f x <= hi) ->
  forall l, In l ls -> lo + e * (f g - lo) <= expect (mutate_times s K l) f <= hi - e * (hi - f g).
Proof.
  intros Hs [He H] Hf l Hl; split.
  - pose proof (H l (fun x => f x - lo) Hl (fun x Hx => ltac:(pose proof (Hf x Hx); lra))) as H1; cbn beta in H1.
    rewrite (expect_ext _ _ (fun x => 1 * f x + - lo)), (expect_affine _ _ f 1 (- lo) (no_pick_times _ _ _) (times_perm s K Hs l)) in H1 by (intros; lra); lra.
  - pose proof (H l (fun x => hi - f x) Hl (fun x Hx => ltac:(pose proof (Hf x Hx); lra))) as H1; cbn beta in H1.
    rewrite (expect_ext _ _ (fun x => (-1) * f x + hi)), (expect_affine _ _ f (-1) hi (no_pick_times _ _ _) (times_perm s K Hs l)) in H1 by (intros; lra); lra.
Qed.

Lemma contract_times s K e q f lo hi : s <> Duplicate -> share s K e -> (forall x, In x ls -> lo <= f x <= hi) ->
  exists lo' hi', hi' - lo' = (1 - e) ^ q * (hi - lo) /\ forall l, In l ls -> lo' <= expect (mutate_times s (q * K) l) f <= hi'.
Proof.
  intros Hs Hsh; revert f lo hi; induction q as [|q IH]; intros f lo hi Hf.
  - exists lo, hi; split; [cbn; lra|]; intros l Hl; cbn; auto.
  - destruct (IH (fun l => expect (mutate_times s K l) f) (lo + e * (f g - lo)) (hi - e * (hi - f g))) as (lo' & hi' & E & H).
    { apply contract; auto. }
    exists lo', hi'; split; [rewrite E; cbn; ring|]; intros l Hl.
    replace (S q * K)%nat with (q * K + K)%nat by lia; rewrite times_split; auto.
Qed.

Lemma mean_between f lo hi : (forall x, In x ls -> lo <= f x <= hi) -> lo <= total (map f ls) / INR (length ls) <= hi.
Proof.
  intros Hf; assert (Hn : 0 < INR (length ls)).
  { apply lt_0_INR; pose proof orders_self as H; destruct ls; [destruct H|cbn; lia]. }
  pose proof (total_le ls (fun _ => lo) f (fun x Hx => proj1 (Hf x Hx))) as H1; pose proof (total_le ls f (fun _ => hi) (fun x Hx => proj2 (Hf x Hx))) as H2.
  rewrite total_const in H1, H2; split.
  - apply Rmult_le_reg_r with (INR (length ls)); auto; unfold Rdiv; rewrite Rmult_assoc, Rinv_l by lra; lra.
  - apply Rmult_le_reg_r with (INR (length ls)); auto; unfold Rdiv; rewrite Rmult_assoc, Rinv_l by lra; lra.
Qed.

Lemma mixing_bound s K e q j l P : s <> Duplicate -> share s K e -> In l ls ->
  Rabs (prob (mutate_times s (q * K + j) l) P - INR (length (filter P ls)) / INR (length ls)) <= (1 - e) ^ q.
Proof.
  intros Hs Hsh Hl; set (f := fun x => if P x then 1 else 0); set (fj := fun x => expect (mutate_times s j x) f).
  assert (Hf : forall x, In x ls -> 0 <= fj x <= 1).
  { intros x Hx; apply times_bounds; auto; intros y _; unfold f; destruct (P y); lra. }
  destruct (contract_times s K e q fj 0 1 Hs Hsh Hf) as (lo & hi & E & H).
  pose proof (mean_between _ _ _ H) as Hm; rewrite (stationary_times s (q * K) fj Hs) in Hm.
  unfold fj in Hm at 1; unfold fj in Hm at 1; rewrite (stationary_times s j f Hs) in Hm; unfold f in Hm; rewrite total_count in Hm.
  rewrite prob_expect, times_split; fold f; specialize (H l Hl); fold fj; apply Rabs_le; lra.
Qed.

Lemma mixing_limit s K l P : s <> Duplicate -> (0 < K)%nat -> (forall x, In x ls -> mutated s K x g) -> In l ls ->
  Un_cv (fun k => prob (mutate_times s k l) P) (INR (length (filter P ls)) / INR (length ls)).
Proof.
  intros Hs HK Hm Hl; destruct (share_ex s K Hs Hm) as (e & Hsh); pose proof (share_one s K e Hs Hsh) as He1; pose proof (proj1 Hsh) as He0.
  intros eps Heps; destruct (pow_lt_1_zero (1 - e) ltac:(rewrite Rabs_pos_eq; lra) eps Heps) as (N0 & HN).
  exists (N0 * K)%nat; intros k Hk; unfold R_dist.
  rewrite (Nat.div_mod k K) by lia; rewrite (Nat.mul_comm K).
  eapply Rle_lt_trans; [apply (mixing_bound s K e); auto|].
  eapply Rle_lt_trans; [apply Rle_abs|]; apply HN; apply Nat.div_le_lower_bound; lia.
Qed.
End Orders.
End Mix.
