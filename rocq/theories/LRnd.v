(** * LRnd: reasoning rules for the execution monad. *)
From Coq Require Import List Bool Arith NArith Lia Permutation.
From Verif Require Import Rnd.
Import ListNotations.

Lemma must_bind {A B} (m : M A) (f : A -> M B) (P : B -> Prop) :
  must (bind m f) P <-> must m (fun a => must (f a) P).
Proof.
  induction m as [a|e|n k IH|n k IH]; cbn; [tauto|tauto| |];
  (split; intros [Hn H]; split; auto; intros i Hi; apply IH; auto).
Qed.

Lemma must_mono {A} (m : M A) (P Q : A -> Prop) :
  (forall a, P a -> Q a) -> must m P -> must m Q.
Proof.
  intros HPQ; induction m as [a|e|n k IH|n k IH]; cbn; auto;
  intros [Hn H]; split; auto.
Qed.

Lemma must_bind_intro {A B} (m : M A) (f : A -> M B) (Q : A -> Prop) (P : B -> Prop) :
  must m Q -> (forall a, Q a -> must (f a) P) -> must (bind m f) P.
Proof. intros Hm Hf; apply must_bind; eapply must_mono; [|exact Hm]; auto. Qed.

Lemma may_bind {A B} (m : M A) (f : A -> M B) v :
  may (bind m f) v <-> exists a, may m a /\ may (f a) v.
Proof.
  induction m as [a|e|n k IH|n k IH]; cbn.
  - split; [intros H; exists a; auto | intros (a' & -> & H); auto].
  - split; [tauto | intros (a & H & _); auto].
  - split.
    + intros (i & Hi & H); apply IH in H as (a & Ha & H); exists a; split; eauto.
    + intros (a & (i & Hi & Ha) & H); exists i; split; auto; apply IH; eauto.
  - split.
    + intros (i & Hi & H); apply IH in H as (a & Ha & H); exists a; split; eauto.
    + intros (a & (i & Hi & Ha) & H); exists i; split; auto; apply IH; eauto.
Qed.

Lemma may_fail_bind {A B} (m : M A) (f : A -> M B) e :
  may_fail (bind m f) e <-> may_fail m e \/ exists a, may m a /\ may_fail (f a) e.
Proof.
  induction m as [a|e'|n k IH|n k IH]; cbn.
  - split; [intros H; right; exists a; auto | intros [[]|(a' & -> & H)]; auto].
  - split; [auto | intros [H|(a & [] & _)]; auto].
  - split.
    + intros (i & Hi & H); apply IH in H as [H|(a & Ha & H)]; [left; eauto|right; exists a; split; eauto].
    + intros [(i & Hi & H)|(a & (i & Hi & Ha) & H)]; exists i; split; auto; apply IH; eauto.
  - split.
    + intros (i & Hi & H); apply IH in H as [H|(a & Ha & H)]; [left; eauto|right; exists a; split; eauto].
    + intros [(i & Hi & H)|(a & (i & Hi & Ha) & H)]; exists i; split; auto; apply IH; eauto.
Qed.

Lemma must_may {A} (m : M A) P v : must m P -> may m v -> P v.
Proof.
  induction m as [a|e|n k IH|n k IH]; cbn; try tauto.
  - intros H <-; auto.
  - intros [_ H] (i & Hi & Hv); eapply IH; eauto.
  - intros [_ H] (i & Hi & Hv); eapply IH; eauto.
Qed.

Lemma must_no_fail {A} (m : M A) P e : must m P -> ~ may_fail m e.
Proof.
  induction m as [a|e'|n k IH|n k IH]; cbn; try tauto.
  - intros [_ H] (i & Hi & Hv); eapply IH; eauto.
  - intros [_ H] (i & Hi & Hv); eapply IH; eauto.
Qed.

Lemma must_exists {A} (m : M A) P : must m P -> exists v, may m v.
Proof.
  induction m as [a|e'|n k IH|n k IH]; cbn; try tauto.
  - eauto.
  - intros [Hn H]; destruct (IH 0%N (H _ Hn)) as [v Hv]; eauto.
  - intros [Hn H]; destruct (IH 0%N (H _ Hn)) as [v Hv]; eauto.
Qed.

Lemma must_strengthen {A} (m : M A) (P Q : A -> Prop) :
  must m P -> (forall v, may m v -> P v -> Q v) -> must m Q.
Proof.
  induction m as [a|e'|n k IH|n k IH]; cbn; try tauto.
  - auto.
  - intros [Hn H] HQ; split; auto; intros i Hi; apply IH; eauto.
  - intros [Hn H] HQ; split; auto; intros i Hi; apply IH; eauto.
Qed.

Lemma must_and {A} (m : M A) (P Q : A -> Prop) :
  must m P -> must m Q -> must m (fun a => P a /\ Q a).
Proof.
  intros HP HQ; eapply must_strengthen; [exact HP|].
  intros v Hv Pv; split; auto; eapply must_may; eauto.
Qed.

Lemma must_fail_bind_l {A B} (m : M A) (f : A -> M B) e :
  must_fail m e -> must_fail (bind m f) e.
Proof.
  induction m as [a|e'|n k IH|n k IH]; cbn; try tauto;
  intros [Hn H]; split; auto.
Qed.

Lemma must_fail_bind_r {A B} (m : M A) (f : A -> M B) (Q : A -> Prop) e :
  must m Q -> (forall a, Q a -> must_fail (f a) e) -> must_fail (bind m f) e.
Proof.
  induction m as [a|e'|n k IH|n k IH]; cbn; try tauto; auto.
  - intros [Hn H] Hf; split; auto; intros i Hi; apply IH; auto.
  - intros [Hn H] Hf; split; auto; intros i Hi; apply IH; auto.
Qed.

Lemma must_fail_not_must {A} (m : M A) P e : must_fail m e -> ~ must m P.
Proof.
  induction m as [a|e'|n k IH|n k IH]; cbn; try tauto;
  intros [Hn H] [_ H']; eapply (IH 0%N); eauto.
Qed.

Lemma must_fail_no_may {A} (m : M A) v e : must_fail m e -> ~ may m v.
Proof.
  induction m as [a|e'|n k IH|n k IH]; cbn; try tauto;
  intros [Hn H] (i & Hi & Hv); eapply IH; eauto.
Qed.

Lemma must_fail_may_fail {A} (m : M A) e : must_fail m e -> may_fail m e.
Proof.
  induction m as [a|e'|n k IH|n k IH]; cbn; try tauto;
  intros [Hn H]; exists 0%N; split; auto.
Qed.

Lemma run_may {A} (m : M A) P tape v : must m P -> run m tape = Some v -> may m v.
Proof.
  revert tape; induction m as [a|e'|n k IH|n k IH]; cbn; try discriminate; intros tape.
  - congruence.
  - intros [Hn H]; destruct tape as [|t ts]; intros Hr.
    + exists 0%N; split; auto; eapply IH; eauto.
    + assert ((t mod n < n)%N) by (apply N.mod_lt; lia).
      exists (t mod n)%N; split; auto; eapply IH; eauto.
  - intros [Hn H]; destruct tape as [|t ts]; intros Hr.
    + exists 0%N; split; auto; eapply IH; eauto.
    + assert ((t mod n < n)%N) by (apply N.mod_lt; lia).
      exists (t mod n)%N; split; auto; eapply IH; eauto.
Qed.

(** ** Library functions *)

Lemma must_gen_range lo hi P :
  must (gen_range lo hi) P <-> lo < hi /\ forall i, lo <= i < hi -> P i.
Proof.
  unfold gen_range; destruct (Nat.ltb_spec lo hi) as [H|H]; cbn.
  - split; intros [Hn HP].
    + split; auto; intros i Hi.
      replace i with (lo + N.to_nat (N.of_nat (i - lo))) by lia; apply HP; lia.
    + split; [lia|]; intros i Hi; apply HP; lia.
  - split; [tauto|lia].
Qed.

Lemma may_gen_range lo hi v : may (gen_range lo hi) v <-> lo <= v < hi.
Proof.
  unfold gen_range; destruct (Nat.ltb_spec lo hi) as [H|H]; cbn.
  - split; [intros (i & Hi & <-); lia|].
    intros Hv; exists (N.of_nat (v - lo)); split; lia.
  - split; [tauto|lia].
Qed.

Lemma may_fail_gen_range lo hi e : may_fail (gen_range lo hi) e <-> hi <= lo /\ e = Panic.
Proof.
  unfold gen_range; destruct (Nat.ltb_spec lo hi) as [H|H]; cbn.
  - split; [intros (i & Hi & []) | lia].
  - split; intuition.
Qed.

Lemma must_gen_range_incl lo hi P :
  must (gen_range_incl lo hi) P <-> lo <= hi /\ forall i, lo <= i <= hi -> P i.
Proof.
  unfold gen_range_incl; destruct (Nat.leb_spec lo hi) as [H|H]; cbn -[Nat.sub].
  - split; intros [Hn HP].
    + split; auto; intros i Hi.
      replace i with (lo + N.to_nat (N.of_nat (i - lo))) by lia; apply HP; lia.
    + split; [lia|]; intros i Hi; apply HP; lia.
  - split; [tauto|lia].
Qed.

Lemma may_gen_range_incl lo hi v : may (gen_range_incl lo hi) v <-> lo <= v <= hi.
Proof.
  unfold gen_range_incl; destruct (Nat.leb_spec lo hi) as [H|H]; cbn -[Nat.sub].
  - split; [intros (i & Hi & <-); lia|].
    intros Hv; exists (N.of_nat (v - lo)); split; lia.
  - split; [tauto|lia].
Qed.

Lemma must_idx {A} (l : list A) i P :
  must (idx l i) P <-> exists a, nth_error l i = Some a /\ P a.
Proof.
  unfold idx; destruct (nth_error l i) as [a|]; cbn.
  - split; [eauto|intros (a' & [= ->] & H); auto].
  - split; [tauto|intros (a' & [=] & _)].
Qed.

Lemma idx_some {A} (l : list A) i a : nth_error l i = Some a -> idx l i = Ret a.
Proof. unfold idx; intros ->; reflexivity. Qed.

Lemma must_massert b P : must (massert b) P <-> b = true /\ P tt.
Proof. destruct b; cbn; intuition congruence. Qed.

Lemma must_unwrap {A} (o : option A) P : must (unwrap o) P <-> exists a, o = Some a /\ P a.
Proof.
  destruct o; cbn; split; eauto.
  - intros (a' & [= ->] & H); auto.
  - tauto.
  - intros (a' & [=] & _).
Qed.

Lemma slice_ok {A} (l : list A) a b :
  a <= b -> b <= length l -> slice l a b = Ret (firstn (b - a) (skipn a l)).
Proof.
  intros H1 H2; unfold slice.
  rewrite (proj2 (Nat.leb_le _ _) H1), (proj2 (Nat.leb_le _ _) H2); reflexivity.
Qed.

Lemma copy_range_ok {A} (l : list A) a b src :
  a <= b -> b <= length l -> length src = b - a ->
  copy_range l a b src = Ret (firstn a l ++ src ++ skipn b l).
Proof.
  intros H1 H2 H3; unfold copy_range.
  rewrite (proj2 (Nat.leb_le _ _) H1), (proj2 (Nat.leb_le _ _) H2), (proj2 (Nat.eqb_eq _ _) H3); reflexivity.
Qed.

Lemma set_ok {A} (l : list A) i v : i < length l -> set l i v = Ret (upd l i v).
Proof. intros H; unfold set; rewrite (proj2 (Nat.ltb_lt _ _) H); reflexivity. Qed.

Lemma upd_length {A} (l : list A) i v : length (upd l i v) = length l.
Proof. revert i; induction l as [|h t IH]; intros [|i]; cbn; auto. Qed.

Lemma nth_error_upd_eq {A} (l : list A) i v : i < length l -> nth_error (upd l i v) i = Some v.
Proof.
  revert i; induction l as [|h t IH]; intros [|i]; cbn; try lia; auto.
  intros H; apply IH; lia.
Qed.

Lemma nth_error_upd_ne {A} (l : list A) i j v : i <> j -> nth_error (upd l i v) j = nth_error l j.
Proof.
  revert i j; induction l as [|h t IH]; intros [|i] [|j]; cbn; try lia; auto.
Qed.

Lemma nth_error_upd {A} (l : list A) i j v :
  nth_error (upd l i v) j = if (i =? j) && (j <? length l) then Some v else nth_error l j.
Proof.
  destruct (Nat.eqb_spec i j) as [->|H]; cbn [andb].
  - destruct (Nat.ltb_spec j (length l)) as [H|H]; [apply nth_error_upd_eq; auto|].
    rewrite (proj2 (nth_error_None _ _)); [|rewrite upd_length; auto].
    symmetry; apply nth_error_None; auto.
  - apply nth_error_upd_ne; auto.
Qed.

Lemma upd_split {A} (l : list A) i v :
  i < length l -> upd l i v = firstn i l ++ v :: skipn (S i) l.
Proof.
  revert i; induction l as [|h t IH]; intros [|i]; cbn; try lia; auto.
  intros H; f_equal; apply IH; lia.
Qed.

Lemma nth_split_eq {A} (l : list A) i a :
  nth_error l i = Some a -> l = firstn i l ++ a :: skipn (S i) l.
Proof.
  revert i; induction l as [|h t IH]; intros [|i]; cbn; try discriminate.
  - intros [= ->]; auto.
  - intros H; f_equal; apply IH; auto.
Qed.

Lemma upd_same {A} (l : list A) i a : nth_error l i = Some a -> upd l i a = l.
Proof.
  revert i; induction l as [|h t IH]; intros [|i]; cbn; try discriminate; auto.
  - intros [= ->]; auto.
  - intros H; f_equal; auto.
Qed.

Lemma nth_error_lt {A} (l : list A) i : i < length l -> exists a, nth_error l i = Some a.
Proof.
  intros H; destruct (nth_error l i) as [a|] eqn:E; eauto.
  apply nth_error_None in E; lia.
Qed.

Lemma nth_error_some_lt {A} (l : list A) i a : nth_error l i = Some a -> i < length l.
Proof. intros H; apply nth_error_Some; congruence. Qed.

Lemma list_ext {A} (l l' : list A) : (forall i, nth_error l i = nth_error l' i) -> l = l'.
Proof.
  revert l'; induction l as [|h t IH]; intros [|h' t'] H; auto.
  - specialize (H 0); discriminate.
  - specialize (H 0); discriminate.
  - f_equal.
    + specialize (H 0); cbn in H; congruence.
    + apply IH; intros i; apply (H (S i)).
Qed.

Lemma swap_ok {A} (l : list A) i j a b :
  nth_error l i = Some a -> nth_error l j = Some b -> swap l i j = Ret (upd (upd l i b) j a).
Proof. intros Ha Hb; unfold swap; rewrite (idx_some _ _ _ Ha); cbn; rewrite (idx_some _ _ _ Hb); reflexivity. Qed.

Lemma swap_perm_lt {A} (l : list A) i j a b :
  i < j -> nth_error l i = Some a -> nth_error l j = Some b ->
  Permutation (upd (upd l i b) j a) l.
Proof.
  revert i j; induction l as [|h t IH]; intros i j Hij Ha Hb.
  - destruct i; discriminate.
  - destruct i as [|i]; destruct j as [|j]; try lia; cbn in *.
    + injection Ha as ->.
      rewrite (nth_split_eq _ _ _ Hb) at 2.
      rewrite upd_split by (eapply nth_error_some_lt; eauto).
      etransitivity; [apply perm_skip; symmetry; apply Permutation_middle|].
      etransitivity; [apply perm_swap|].
      apply perm_skip; apply Permutation_middle.
    + apply perm_skip; apply IH; auto; lia.
Qed.

Lemma upd_comm {A} (l : list A) i j a b : i <> j -> upd (upd l i a) j b = upd (upd l j b) i a.
Proof.
  intros H; apply list_ext; intros k.
  rewrite !nth_error_upd, !upd_length.
  destruct (Nat.eqb_spec i k); destruct (Nat.eqb_spec j k); subst; cbn [andb]; try lia;
  destruct (k <? length l); reflexivity.
Qed.

Lemma swap_perm {A} (l : list A) i j a b :
  nth_error l i = Some a -> nth_error l j = Some b ->
  Permutation (upd (upd l i b) j a) l.
Proof.
  intros Ha Hb; destruct (Nat.lt_trichotomy i j) as [H|[->|H]].
  - eapply swap_perm_lt; eauto.
  - assert (a = b) by congruence; subst.
    rewrite (upd_same (upd l j b) j b).
    + rewrite upd_same; auto.
    + apply nth_error_upd_eq; eapply nth_error_some_lt; eauto.
  - rewrite upd_comm by lia. eapply swap_perm_lt; eauto.
Qed.

Lemma must_pick_from {A} (l : list A) P :
  must (pick_from l) P <-> l <> [] /\ forall a, In a l -> P a.
Proof.
  unfold pick_from; cbn; split.
  - intros [Hn H]; split; [intros ->; cbn in Hn; lia|].
    intros a Ha; apply In_nth_error in Ha as [i Hi].
    pose proof (nth_error_some_lt _ _ _ Hi).
    specialize (H (N.of_nat i)). rewrite Nat2N.id, Hi in H; cbn in H; apply H; lia.
  - intros [Hne H]; split; [destruct l; cbn; [congruence|lia]|].
    intros i Hi; destruct (nth_error_lt l (N.to_nat i)) as [a Ha]; [lia|].
    rewrite Ha; cbn; apply H; eapply nth_error_In; eauto.
Qed.

Lemma may_pick_from {A} (l : list A) v : may (pick_from l) v <-> In v l.
Proof.
  unfold pick_from; cbn; split.
  - intros (i & Hi & H); destruct (nth_error l (N.to_nat i)) as [a|] eqn:E; cbn in H; [|tauto].
    subst; eapply nth_error_In; eauto.
  - intros Ha; apply In_nth_error in Ha as [i Hi].
    pose proof (nth_error_some_lt _ _ _ Hi).
    exists (N.of_nat i); split; [lia|]; rewrite Nat2N.id, Hi; reflexivity.
Qed.

Lemma in_inserts {A} (x : A) l r : In r (inserts x l) <-> exists l1 l2, l = l1 ++ l2 /\ r = l1 ++ x :: l2.
Proof.
  revert r; induction l as [|h t IH]; intros r; cbn.
  - split.
    + intros [<-|[]]; exists [], []; auto.
    + intros (l1 & l2 & H & ->); destruct l1; [|discriminate]; destruct l2; [auto|discriminate].
  - split.
    + intros [<-|H]; [exists [], (h :: t); auto|].
      apply in_map_iff in H as (r' & <- & H); apply IH in H as (l1 & l2 & -> & ->).
      exists (h :: l1), l2; auto.
    + intros (l1 & l2 & H & ->); destruct l1 as [|y l1]; cbn in *.
      * left; congruence.
      * right; injection H as -> ->; apply in_map, IH; eauto.
Qed.

Lemma in_perms {A} (l r : list A) : In r (perms l) <-> Permutation l r.
Proof.
  revert r; induction l as [|h t IH]; intros r; cbn.
  - split; [intros [<-|[]]; auto|]. intros H; apply Permutation_nil in H; auto.
  - rewrite in_flat_map; split.
    + intros (p & Hp & Hr); apply IH in Hp; apply in_inserts in Hr as (l1 & l2 & -> & ->).
      rewrite <- Permutation_middle; auto.
    + intros H.
      assert (Hin : In h r) by (eapply Permutation_in; [exact H|left; auto]).
      apply in_split in Hin as (l1 & l2 & ->).
      exists (l1 ++ l2); split; [apply IH; eapply Permutation_cons_app_inv; eauto|].
      apply in_inserts; eauto.
Qed.

Lemma must_mapM {A B} (f : A -> M B) (l : list A) (Q : A -> B -> Prop) :
  (forall a, In a l -> must (f a) (Q a)) -> must (mapM f l) (fun r => Forall2 Q l r).
Proof.
  induction l as [|h t IH]; intros H; cbn; [constructor|].
  apply must_bind; eapply must_mono; [|apply H; left; auto].
  intros b Hb; apply must_bind; eapply must_mono; [|apply IH; intros a Ha; apply H; right; auto].
  intros bs Hbs; cbn; constructor; auto.
Qed.

Lemma must_repeatM {B} n (m : M B) (Q : B -> Prop) :
  must m Q -> must (repeatM n m) (fun r => length r = n /\ Forall Q r).
Proof.
  intros Hm; induction n as [|n IH]; cbn; [auto|].
  apply must_bind; eapply must_mono; [|exact Hm].
  intros b Hb; apply must_bind; eapply must_mono; [|exact IH].
  intros bs [Hl HF]; cbn; auto.
Qed.

Lemma may_repeatM {B} n (m : M B) r :
  may (repeatM n m) r -> length r = n /\ Forall (may m) r.
Proof.
  revert r; induction n as [|n IH]; cbn; intros r.
  - intros <-; auto.
  - rewrite may_bind; intros (b & Hb & H); apply may_bind in H as (bs & Hbs & <-).
    apply IH in Hbs as [Hl HF]; cbn; auto.
Qed.

Lemma mapM_ret {A B} (f : A -> M B) (g : A -> B) l :
  (forall a, In a l -> f a = Ret (g a)) -> mapM f l = Ret (map g l).
Proof.
  induction l as [|h t IH]; intros H; cbn; auto.
  rewrite (H h (or_introl eq_refl)); cbn; rewrite IH; [reflexivity|].
  intros a Ha; apply H; right; auto.
Qed.

(** Step through a sequence of monadic operations in a [must] goal. *)
Lemma must_ret {A} (a : A) (P : A -> Prop) : P a -> must (Ret a) P.
Proof. auto. Qed.

Lemma must_bind_ret {A B} (a : A) (f : A -> M B) P : must (f a) P -> must (bind (Ret a) f) P.
Proof. auto. Qed.

Lemma bind_ret {A B} (a : A) (f : A -> M B) : bind (Ret a) f = f a.
Proof. reflexivity. Qed.

Lemma must_ext {A} (m : M A) (P Q : A -> Prop) : (forall a, P a <-> Q a) -> must m P <-> must m Q.
Proof. intros H; split; apply must_mono; intros a; apply H. Qed.

(** ** More list lemmas *)
Lemma skipn_skipn' {A} (l : list A) a b : skipn a (skipn b l) = skipn (a + b) l.
Proof.
  revert l; induction b as [|b IH]; intros l; [rewrite Nat.add_0_r; auto|].
  rewrite Nat.add_succ_r; destruct l as [|h t]; cbn [skipn]; [destruct a; auto|]; apply IH.
Qed.

Lemma Forall2_nth {A B} (Q : A -> B -> Prop) l l' i a b :
  Forall2 Q l l' -> nth_error l i = Some a -> nth_error l' i = Some b -> Q a b.
Proof.
  intros H; revert i; induction H as [|x y l l' Hxy H IH]; intros [|i]; cbn; try discriminate.
  - intros [= <-] [= <-]; auto.
  - apply IH.
Qed.

Lemma nth_error_seq' n s i : i < n -> nth_error (seq s n) i = Some (s + i).
Proof.
  revert s i; induction n as [|n IH]; intros s i Hi; [lia|].
  destruct i as [|i]; cbn; [f_equal; lia|]. rewrite IH by lia; f_equal; lia.
Qed.

Lemma NoDup_app_l {A} (l l' : list A) : NoDup (l ++ l') -> NoDup l.
Proof.
  induction l as [|h t IH]; cbn; intros H; constructor; inversion H; subst; auto.
  intros Hi; apply H2, in_or_app; auto.
Qed.

Lemma NoDup_app_r {A} (l l' : list A) : NoDup (l ++ l') -> NoDup l'.
Proof. induction l as [|h t IH]; cbn; intros H; auto; inversion H; auto. Qed.

Lemma Forall2_len {A B} (Q : A -> B -> Prop) l l' : Forall2 Q l l' -> length l = length l'.
Proof. induction 1; cbn; auto. Qed.
