(** * LAlike: rules for [alike]. *)
From Coq Require Import List Bool Arith NArith Reals Lia.
From Verif Require Import Rnd LRnd Prob SpecO.
Import ListNotations.

Lemma alike_bind {A B C D} (R : A -> B -> Prop) (Q : C -> D -> Prop) m m' f f' :
  alike R m m' -> (forall a b, R a b -> alike Q (f a) (f' b)) -> alike Q (bind m f) (bind m' f').
Proof.
  revert m'; induction m as [a|e|n k IH|n k IH]; intros [b|e'|n' k'|n' k'] H Hf; cbn in *; try contradiction; auto.
  - destruct H as [-> H]; split; [reflexivity|]; intros i Hi; apply IH; auto.
  - destruct H as [-> H]; split; [reflexivity|]; intros i Hi; apply IH; auto.
Qed.
Lemma alike_mono {A B} (R Q : A -> B -> Prop) m m' : (forall a b, R a b -> Q a b) -> alike R m m' -> alike Q m m'.
Proof.
  intros HRQ; revert m'; induction m as [a|e|n k IH|n k IH]; intros [b|e'|n' k'|n' k'] H; cbn in *; try contradiction; auto.
  - destruct H as [-> H]; split; [reflexivity|]; intros i Hi; apply IH; auto.
  - destruct H as [-> H]; split; [reflexivity|]; intros i Hi; apply IH; auto.
Qed.
Lemma alike_refl {A} (R : A -> A -> Prop) m : (forall a, R a a) -> alike R m m.
Proof. intros HR; induction m; cbn; auto. Qed.
Lemma alike_eq {A} (m : M A) : alike eq m m.
Proof. apply alike_refl; reflexivity. Qed.
Lemma alike_ret {A B} (R : A -> B -> Prop) a b : R a b -> alike R (Ret a) (Ret b).
Proof. auto. Qed.
Lemma alike_if {A B} (R : A -> B -> Prop) (c c' : bool) m1 m2 m1' m2' :
  c = c' -> alike R m1 m1' -> alike R m2 m2' -> alike R (if c then m1 else m2) (if c' then m1' else m2').
Proof. intros <-; destruct c; auto. Qed.
Lemma alike_massert {C D} (R : C -> D -> Prop) b b' (f : unit -> M C) (f' : unit -> M D) :
  b = b' -> (b = true -> alike R (f tt) (f' tt)) -> alike R (bind (massert b) f) (bind (massert b') f').
Proof. intros <- H; destruct b; cbn; auto. Qed.
Lemma alike_unwrap {A B} (R : A -> B -> Prop) o o' :
  match o, o' with Some a, Some b => R a b | None, None => True | _, _ => False end -> alike R (unwrap o) (unwrap o').
Proof. destruct o, o'; cbn; auto; contradiction. Qed.

Section Lists.
Context {A B : Type} (R : A -> B -> Prop).

Lemma F2_nth l l' i : Forall2 R l l' ->
  match nth_error l i, nth_error l' i with Some a, Some b => R a b | None, None => True | _, _ => False end.
Proof. intros H; revert i; induction H; intros [|i]; cbn; auto; apply IHForall2. Qed.
Lemma alike_idx l l' i : Forall2 R l l' -> alike R (idx l i) (idx l' i).
Proof. intros H; unfold idx; pose proof (F2_nth l l' i H); destruct (nth_error l i), (nth_error l' i); cbn; auto; contradiction. Qed.
Lemma F2_firstn l l' i : Forall2 R l l' -> Forall2 R (firstn i l) (firstn i l').
Proof. intros H; revert i; induction H; intros [|i]; cbn; auto. Qed.
Lemma F2_skipn l l' i : Forall2 R l l' -> Forall2 R (skipn i l) (skipn i l').
Proof. intros H; revert i; induction H; intros [|i]; cbn; auto. Qed.
Lemma F2_rev l l' : Forall2 R l l' -> Forall2 R (rev l) (rev l').
Proof. intros H; induction H; cbn; [constructor|]; apply Forall2_app; auto. Qed.
Lemma F2_upd l l' i a b : Forall2 R l l' -> R a b -> Forall2 R (upd l i a) (upd l' i b).
Proof. intros H; revert i; induction H; intros [|i] Hab; cbn; auto. Qed.
Lemma F2_repeat n a b : R a b -> Forall2 R (repeat a n) (repeat b n).
Proof. intros H; induction n; cbn; auto. Qed.
Lemma F2_removelast l l' : Forall2 R l l' -> Forall2 R (removelast l) (removelast l').
Proof. intros H; induction H as [|x y l l' Hxy H IH]; cbn; auto; destruct H; auto. Qed.
Lemma F2_last l l' : Forall2 R l l' ->
  match last (map Some l) None, last (map Some l') None with Some a, Some b => R a b | None, None => True | _, _ => False end.
Proof. intros H; induction H as [|x y l l' Hxy H IH]; cbn; auto; destruct H; cbn in *; auto. Qed.
Lemma F2_hd l l' : Forall2 R l l' ->
  match hd_error l, hd_error l' with Some a, Some b => R a b | None, None => True | _, _ => False end.
Proof. intros H; destruct H; cbn; auto. Qed.
Lemma F2_filter f f' l l' : (forall a b, R a b -> f a = f' b) -> Forall2 R l l' -> Forall2 R (filter f l) (filter f' l').
Proof. intros Hf H; induction H; cbn; auto; rewrite <- (Hf _ _ H); destruct (f x); auto. Qed.
Lemma F2_forallb f f' l l' : (forall a b, R a b -> f a = f' b) -> Forall2 R l l' -> forallb f l = forallb f' l'.
Proof. intros Hf H; induction H; cbn; auto; rewrite <- (Hf _ _ H), IHForall2; reflexivity. Qed.
Lemma F2_existsb f f' l l' : (forall a b, R a b -> f a = f' b) -> Forall2 R l l' -> existsb f l = existsb f' l'.
Proof. intros Hf H; induction H; cbn; auto; rewrite <- (Hf _ _ H), IHForall2; reflexivity. Qed.
Lemma F2_find f f' l l' : (forall a b, R a b -> f a = f' b) -> Forall2 R l l' ->
  match find f l, find f' l' with Some a, Some b => R a b | None, None => True | _, _ => False end.
Proof. intros Hf H; induction H; cbn; auto; rewrite <- (Hf _ _ H); destruct (f x); auto. Qed.
Lemma alike_slice l l' a b : Forall2 R l l' -> alike (Forall2 R) (slice l a b) (slice l' a b).
Proof. intros H; unfold slice; rewrite (Forall2_len _ _ _ H); destruct (_ && _); cbn; auto; apply F2_firstn, F2_skipn; auto. Qed.
Lemma alike_copy_range l l' a b s s' : Forall2 R l l' -> Forall2 R s s' -> alike (Forall2 R) (copy_range l a b s) (copy_range l' a b s').
Proof.
  intros H Hs; unfold copy_range; rewrite (Forall2_len _ _ _ H), (Forall2_len _ _ _ Hs); destruct (_ && _); cbn; auto.
  repeat apply Forall2_app; auto using F2_firstn, F2_skipn.
Qed.
Lemma alike_set l l' i a b : Forall2 R l l' -> R a b -> alike (Forall2 R) (set l i a) (set l' i b).
Proof. intros H Hab; unfold set; rewrite (Forall2_len _ _ _ H); destruct (_ <? _); cbn; auto; apply F2_upd; auto. Qed.
Lemma alike_swap l l' i j : Forall2 R l l' -> alike (Forall2 R) (swap l i j) (swap l' i j).
Proof.
  intros H; unfold swap; eapply alike_bind; [apply alike_idx; eauto|]; intros a b Hab.
  eapply alike_bind; [apply alike_idx; eauto|]; intros c d Hcd; cbn; auto using F2_upd.
Qed.
Lemma alike_swap_remove l l' i : Forall2 R l l' ->
  alike (fun x y => R (fst x) (fst y) /\ Forall2 R (snd x) (snd y)) (swap_remove l i) (swap_remove l' i).
Proof.
  intros H; unfold swap_remove; eapply alike_bind; [apply alike_idx; eauto|]; intros a b Hab.
  eapply (alike_bind R).
  - apply alike_unwrap; rewrite (Forall2_len _ _ _ H); apply F2_nth; auto.
  - intros c d Hcd; cbn; split; auto; apply F2_removelast, F2_upd; auto.
Qed.
Lemma alike_choose l l' : Forall2 R l l' ->
  alike (fun o o' => match o, o' with Some a, Some b => R a b | None, None => True | _, _ => False end) (choose l) (choose l').
Proof.
  intros H; unfold choose; pose proof (Forall2_len _ _ _ H) as E; destruct H as [|x y l l' Hx H]; cbn [alike]; auto.
  rewrite E; eapply alike_bind; [apply alike_eq|]; intros i ? <-.
  eapply alike_bind; [apply alike_idx; constructor; eauto|]; intros a b Hab; cbn; auto.
Qed.
Lemma alike_pick_from l l' : Forall2 R l l' -> alike R (pick_from l) (pick_from l').
Proof.
  intros H; unfold pick_from; cbn; rewrite (Forall2_len _ _ _ H); split; auto; intros i Hi.
  pose proof (F2_nth l l' (N.to_nat i) H); destruct (nth_error l _), (nth_error l' _); cbn; auto; contradiction.
Qed.
Lemma F2_map_cons a b (L : list (list A)) (L' : list (list B)) : R a b -> Forall2 (Forall2 R) L L' -> Forall2 (Forall2 R) (map (cons a) L) (map (cons b) L').
Proof. intros Hab H; induction H; cbn; auto. Qed.
Lemma F2_inserts l l' a b : R a b -> Forall2 R l l' -> Forall2 (Forall2 R) (inserts a l) (inserts b l').
Proof. intros Hab H; induction H; cbn; auto using F2_map_cons. Qed.
Lemma F2_perms l l' : Forall2 R l l' -> Forall2 (Forall2 R) (perms l) (perms l').
Proof.
  intros H; induction H as [|x y l l' Hxy H IH]; cbn; auto.
  induction IH; cbn; [constructor|]; apply Forall2_app; auto using F2_inserts.
Qed.
End Lists.

Lemma F2_map {A B C D} (R : A -> B -> Prop) (Q : C -> D -> Prop) f f' l l' :
  (forall a b, R a b -> Q (f a) (f' b)) -> Forall2 R l l' -> Forall2 Q (map f l) (map f' l').
Proof. intros Hf H; induction H; cbn; auto. Qed.
Lemma F2_map_eq {A B C} (R : A -> B -> Prop) (f : A -> C) f' l l' : (forall a b, R a b -> f a = f' b) -> Forall2 R l l' -> map f l = map f' l'.
Proof. intros Hf H; induction H; cbn; auto; rewrite (Hf _ _ H), IHForall2; reflexivity. Qed.
Lemma F2_eq {A} (l : list A) : Forall2 eq l l.
Proof. induction l; auto. Qed.
Lemma alike_mapM {A B C D} (R : A -> B -> Prop) (Q : C -> D -> Prop) f f' l l' :
  (forall a b, R a b -> alike Q (f a) (f' b)) -> Forall2 R l l' -> alike (Forall2 Q) (mapM f l) (mapM f' l').
Proof.
  intros Hf H; induction H; cbn; auto; eapply alike_bind; [eauto|]; intros c d Hcd.
  eapply alike_bind; [eauto|]; intros cs ds Hs; cbn; auto.
Qed.
Lemma alike_repeatM {C D} (Q : C -> D -> Prop) n m m' : alike Q m m' -> alike (Forall2 Q) (repeatM n m) (repeatM n m').
Proof.
  intros H; induction n; cbn; auto; eapply alike_bind; [eauto|]; intros c d Hcd.
  eapply alike_bind; [eauto|]; intros cs ds Hs; cbn; auto.
Qed.

(** ** What follows from [alike] *)
Lemma alike_may {A B} (R : A -> B -> Prop) m m' a : alike R m m' -> may m a -> exists b, R a b /\ may m' b.
Proof.
  revert m'; induction m as [x|e|n k IH|n k IH]; intros [y|e'|n' k'|n' k'] H Hm; cbn in *; try contradiction.
  - subst; eauto.
  - destruct H as [-> H], Hm as (i & Hi & Hm); destruct (IH i _ (H i Hi) Hm) as (b & Hb & Hb'); eauto.
  - destruct H as [-> H], Hm as (i & Hi & Hm); destruct (IH i _ (H i Hi) Hm) as (b & Hb & Hb'); eauto.
Qed.
Lemma alike_may_fail {A B} (R : A -> B -> Prop) m m' e : alike R m m' -> may_fail m e <-> may_fail m' e.
Proof.
  revert m'; induction m as [x|e0|n k IH|n k IH]; intros [y|e'|n' k'|n' k'] H; cbn in *; try contradiction.
  - tauto.
  - subst; tauto.
  - destruct H as [-> H]; split; intros (i & Hi & Hm); exists i; split; auto; apply (IH i _ (H i Hi)); auto.
  - destruct H as [-> H]; split; intros (i & Hi & Hm); exists i; split; auto; apply (IH i _ (H i Hi)); auto.
Qed.
Lemma alike_flip {A B} (R : A -> B -> Prop) m m' : alike R m m' -> alike (fun b a => R a b) m' m.
Proof.
  revert m'; induction m as [x|e|n k IH|n k IH]; intros [y|e'|n' k'|n' k'] H; cbn in *; try contradiction; auto.
  - destruct H as [-> H]; split; auto.
  - destruct H as [-> H]; split; auto.
Qed.
Lemma alike_prob {A B} (R : A -> B -> Prop) m m' P P' : alike R m m' -> (forall a b, R a b -> P a = P' b) -> prob m P = prob m' P'.
Proof.
  intros H HP; revert m' H; induction m as [x|e|n k IH|n k IH]; intros [y|e'|n' k'|n' k'] H; cbn in *; try contradiction; auto.
  - rewrite (HP _ _ H); reflexivity.
  - destruct H as [-> H]; f_equal; unfold Rsum; f_equal; apply map_ext_in; intros i Hi; apply in_seq in Hi; apply IH, H; lia.
  - destruct H as [-> H]; f_equal; apply map_ext_in; intros i Hi; apply in_seq in Hi; apply IH, H; lia.
Qed.
