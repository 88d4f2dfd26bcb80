(** * PMix2: which permutation mutations mix and which alternate (C119). *)
From Coq Require Import List Bool Arith NArith ZArith Reals Lia Lra Permutation Factorial.
From Verif Require Import Rnd LRnd Prob LProb MOperators MMutation Spec SpecM SpecO SpecJ LAlike PMutation PMutationProb PSelection2 PModel PShuffle PConv PConnect PRename2 PCommon PMix.
Import ListNotations.

Section Walks.
Context {G : Type}.
Implicit Types (l r g : list G).

Lemma mutated_trans s j k l g r : mutated s j l g -> mutated s k g r -> mutated s (j + k) l r.
Proof. induction 1; cbn; auto; intros; econstructor; eauto. Qed.
Lemma mutated_one s l r : may (mutate s l) r -> mutated s 1 l r.
Proof. intros H; econstructor; [exact H|constructor]. Qed.

Lemma invert_at l r a b : a + 2 <= b -> b <= length l -> rearranged (reverse_src a b) l r -> may (mutate Inversion l) r.
Proof. apply inversion_mutation_reach. Qed.
Lemma insert_at l r i j : i < j -> j < length l -> rearranged (move_src j i) l r -> may (mutate Insertion l) r.
Proof. apply insertion_mutation_reach. Qed.

Ltac src := intros k; do 5 (destruct k as [|k]; [reflexivity|]); cbn; reflexivity.

Lemma invert_back2 a b t : mutated Inversion 2 (a :: b :: t) (a :: b :: t : list G).
Proof.
  econstructor; [apply (invert_at _ (b :: a :: t) 0 2); [lia|cbn; lia|src]|].
  apply mutated_one, (invert_at _ _ 0 2); [lia|cbn; lia|src].
Qed.
Lemma invert_back5 a b c d t : mutated Inversion 5 (a :: b :: c :: d :: t) (a :: b :: c :: d :: t : list G).
Proof.
  econstructor; [apply (invert_at _ (d :: c :: b :: a :: t) 0 4); [lia|cbn; lia|src]|].
  econstructor; [apply (invert_at _ (d :: b :: c :: a :: t) 1 3); [lia|cbn; lia|src]|].
  econstructor; [apply (invert_at _ (d :: b :: a :: c :: t) 2 4); [lia|cbn; lia|src]|].
  econstructor; [apply (invert_at _ (a :: b :: d :: c :: t) 0 3); [lia|cbn; lia|src]|].
  apply mutated_one, (invert_at _ _ 2 4); [lia|cbn; lia|src].
Qed.
Lemma insert_back2 a b t : mutated Insertion 2 (a :: b :: t) (a :: b :: t : list G).
Proof.
  econstructor; [apply (insert_at _ (b :: a :: t) 0 1); [lia|cbn; lia|src]|].
  apply mutated_one, (insert_at _ _ 0 1); [lia|cbn; lia|src].
Qed.
Lemma insert_back3 a b c t : mutated Insertion 3 (a :: b :: c :: t) (a :: b :: c :: t : list G).
Proof.
  econstructor; [apply (insert_at _ (c :: a :: b :: t) 0 2); [lia|cbn; lia|src]|].
  econstructor; [apply (insert_at _ (a :: c :: b :: t) 0 1); [lia|cbn; lia|src]|].
  apply mutated_one, (insert_at _ _ 1 2); [lia|cbn; lia|src].
Qed.

Lemma rounds s g p q : mutated s p g g -> mutated s (q * p) g g.
Proof. intros H; induction q as [|q IH]; [constructor|]; cbn [Nat.mul]; eapply mutated_trans; eauto. Qed.

Lemma returns s g j : mixes s (length g) -> 4 <= j -> mutated s j g g.
Proof.
  intros Hm Hj; destruct s; cbn in Hm; try tauto.
  - replace j with (j * 1) by lia; apply rounds, mutated_one; destruct (Nat.lt_ge_cases (length g) 2) as [H|H].
    + rewrite mutate_short by auto; reflexivity.
    + apply scramble_once; auto.
  - destruct g as [|a [|b [|c [|d t]]]]; cbn in Hm; try lia.
    destruct (Nat.Even_or_Odd j) as [[q ->]|[q ->]].
    + rewrite Nat.mul_comm; apply rounds, invert_back2.
    + replace (2 * q + 1) with (5 + (q - 2) * 2) by lia; eapply mutated_trans; [apply invert_back5|apply rounds, invert_back2].
  - destruct g as [|a [|b [|c t]]]; cbn in Hm; try lia.
    destruct (Nat.Even_or_Odd j) as [[q ->]|[q ->]].
    + rewrite Nat.mul_comm; apply rounds, insert_back2.
    + replace (2 * q + 1) with (3 + (q - 1) * 2) by lia; eapply mutated_trans; [apply insert_back3|apply rounds, insert_back2].
Qed.

Lemma mixes_perm s n : mixes s n -> s <> Duplicate.
Proof. intros H ->; exact H. Qed.

Lemma meets s g l : mixes s (length g) -> Permutation g l -> mutated s (length g + 4) l g.
Proof.
  intros Hm Hp; assert (Hl : length l = length g) by (symmetry; apply Permutation_length; auto).
  destruct (permutations_connected s l g) as (k & Hk & H); [eapply mixes_perm; eauto|symmetry; auto|].
  replace (length g + 4) with (k + (length g + 4 - k)) by lia; eapply mutated_trans; [exact H|]; apply returns; auto; lia.
Qed.

Lemma c119_limit s g ls P : all_orders g ls -> mixes s (length g) ->
  Un_cv (fun k => prob (mutate_times s k g) P) (INR (length (filter P ls)) / INR (length ls)).
Proof.
  intros Hls Hm; apply (mixing_limit g ls Hls s (length g + 4)); [eapply mixes_perm; eauto|lia| |apply (orders_self g ls Hls)].
  intros x Hx; apply meets; auto; apply Hls; auto.
Qed.

Lemma c119_even s k g ls P : s <> Duplicate -> all_orders g ls ->
  total (map (fun l => prob (mutate_times s k l) P) ls) = INR (length (filter P ls)).
Proof. intros Hs Hls; apply (stationary_prob g); auto. Qed.

(** The list of all orders of different genes *)
Lemma inserts_len (x : G) l : length (inserts x l) = S (length l).
Proof. induction l as [|h t IH]; cbn [inserts length]; [reflexivity|]; rewrite map_length, IH; reflexivity. Qed.
Lemma perms_len l : length (perms l) = fact (length l).
Proof.
  induction l as [|h t IH]; [reflexivity|]; cbn [perms length].
  assert (H : forall ps, (forall p, In p ps -> length p = length t) -> length (flat_map (inserts h) ps) = length ps * S (length t)).
  { induction ps as [|p ps IHp]; intros Hp; [reflexivity|]; cbn [flat_map]; rewrite app_length, inserts_len, IHp by (intros; apply Hp; cbn; auto); rewrite (Hp p) by (cbn; auto); cbn [length]; lia. }
  rewrite H, IH; [cbn [fact]; lia|]; intros p Hp; apply in_perms, Permutation_length in Hp; auto.
Qed.
Lemma pivot (x : G) a b a' b' : ~ In x a -> ~ In x a' -> a ++ x :: b = a' ++ x :: b' -> a = a' /\ b = b'.
Proof.
  revert a'; induction a as [|y a IH]; intros [|y' a'] Ha Ha' E; cbn in *; injection E; intros; subst; auto; try tauto.
  destruct (IH a') as [-> ->]; auto.
Qed.
Lemma inserts_nodup (x : G) l : ~ In x l -> NoDup (inserts x l).
Proof.
  induction l as [|h t IH]; intros Hx; cbn; constructor; cbn in *; auto; try constructor.
  - intros H; apply in_map_iff in H as (r & E & _); injection E; intros; subst; tauto.
  - apply map_nodup_in; [apply IH; tauto|]; intros r r' _ _ E; injection E; auto.
Qed.
Lemma perms_nodup l : NoDup l -> NoDup (perms l).
Proof.
  induction 1 as [|h t Hh Hn IH]; cbn [perms]; [constructor; [intros []|constructor]|].
  assert (Hps : forall p, In p (perms t) -> ~ In h p).
  { intros p Hp Hi; apply Hh; apply in_perms in Hp; eapply Permutation_in; [symmetry; exact Hp|exact Hi]. }
  revert IH Hps; generalize (perms t); induction 1 as [|p ps Hp IH IHp]; intros Hps; cbn [flat_map]; [constructor|].
  assert (H1 : NoDup (inserts h p)) by (apply inserts_nodup, Hps; cbn; auto).
  assert (H2 : NoDup (flat_map (inserts h) ps)) by (apply IHp; intros; apply Hps; cbn; auto).
  apply nodup_app; auto; intros r Hr Hr'; apply in_flat_map in Hr' as (p' & Hp' & Hr').
  apply in_inserts in Hr as (a & b & -> & ->); apply in_inserts in Hr' as (a' & b' & -> & E).
  apply pivot in E as [-> ->]; auto.
  - intros Hi; apply (Hps (a ++ b)); [cbn; auto|apply in_app_iff; auto].
  - intros Hi; apply (Hps (a' ++ b')); [cbn; auto|apply in_app_iff; auto].
Qed.
Lemma orders_ex g : NoDup g -> exists ls, all_orders g ls /\ length ls = fact (length g).
Proof. intros Hn; exists (perms g); split; [split; [apply perms_nodup; auto|intros; apply in_perms]|apply perms_len]. Qed.
End Walks.

(** ** Parity *)
Section Parity.
Implicit Types (l r : list nat).
(** Parity of the number of elements of [l] below [x], and of the number of inversions *)
Fixpoint below (x : nat) l : bool := match l with [] => false | y :: t => xorb (y <? x) (below x t) end.
Fixpoint par l : bool := match l with [] => false | x :: t => xorb (below x t) (par t) end.

Lemma below_perm x l r : Permutation l r -> below x l = below x r.
Proof. induction 1; cbn; try congruence. rewrite <- !xorb_assoc, (xorb_comm (y <? x)); reflexivity. Qed.
Lemma par_prefix p l r : Permutation l r -> xorb (par (p ++ l)) (par (p ++ r)) = xorb (par l) (par r).
Proof.
  intros H; induction p as [|x p IH]; [reflexivity|]; cbn [app par].
  rewrite (below_perm x (p ++ l) (p ++ r)) by (apply Permutation_app_head; auto); rewrite <- IH.
  destruct (below x (p ++ r)), (par (p ++ l)), (par (p ++ r)); reflexivity.
Qed.
Lemma par_adj p a b q : a <> b -> par (p ++ a :: b :: q) = negb (par (p ++ b :: a :: q)).
Proof.
  intros Hab; pose proof (par_prefix p (a :: b :: q) (b :: a :: q) (perm_swap _ _ _)) as H; cbn [par below] in H.
  assert (E : xorb (b <? a) (a <? b) = true) by (destruct (Nat.ltb_spec a b), (Nat.ltb_spec b a); try reflexivity; lia).
  destruct (par (p ++ a :: b :: q)), (par (p ++ b :: a :: q)), (b <? a), (a <? b), (below a q), (below b q), (par q); cbn in *; congruence.
Qed.
Lemma par_move p a m q : ~ In a m -> par (p ++ a :: m ++ q) = xorb (Nat.odd (length m)) (par (p ++ m ++ a :: q)).
Proof.
  revert p; induction m as [|b m IH]; intros p Ha; [destruct (par _); reflexivity|]; cbn [app length].
  rewrite par_adj by (intros ->; apply Ha; cbn; auto).
  replace (p ++ b :: a :: m ++ q) with ((p ++ [b]) ++ a :: m ++ q) by (rewrite <- app_assoc; reflexivity).
  rewrite IH by (intros H; apply Ha; cbn; auto); rewrite <- app_assoc; cbn [app].
  rewrite Nat.odd_succ, <- Nat.negb_odd; destruct (Nat.odd (length m)), (par _); reflexivity.
Qed.
Lemma par_swap p a m b q : NoDup (p ++ a :: m ++ b :: q) -> par (p ++ a :: m ++ b :: q) = negb (par (p ++ b :: m ++ a :: q)).
Proof.
  intros Hn; apply NoDup_app_r in Hn; inversion Hn as [|? ? Ha Hn']; subst.
  assert (Hb : ~ In b m) by (intros H; apply NoDup_remove_2 in Hn'; apply Hn', in_app_iff; auto).
  assert (Hab : a <> b) by (intros ->; apply Ha, in_app_iff; cbn; auto).
  rewrite (par_move p b m (a :: q) Hb).
  replace (a :: m ++ b :: q) with (a :: (m ++ [b]) ++ q) by (rewrite <- app_assoc; reflexivity).
  rewrite (par_move p a (m ++ [b]) q).
  2: { intros H; apply in_app_iff in H as [H|[->|[]]]; [apply Ha, in_app_iff; auto|congruence]. }
  rewrite app_length, Nat.add_1_r, Nat.odd_succ, <- Nat.negb_odd, <- !app_assoc; cbn [app].
  destruct (Nat.odd (length m)), (par _); reflexivity.
Qed.
End Parity.

Section Alternate.
Context {G : Type}.
Implicit Types (g r : list G).

Ltac nths := repeat first
  [ rewrite nth_error_app1 by (cbn; rewrite ?app_length, ?rev_length; cbn; lia)
  | rewrite nth_error_app2 by (cbn; rewrite ?app_length, ?rev_length; cbn; lia) ].
Lemma swap_middle (p : list G) a m b q : rearranged (swap_src (length p) (length p + S (length m))) (p ++ a :: m ++ b :: q) (p ++ b :: m ++ a :: q).
Proof.
  intros k; unfold swap_src; destruct (Nat.eqb_spec k (length p)) as [->|N1].
  - nths; rewrite Nat.sub_diag; cbn [nth_error]; replace (length p + S (length m) - length p) with (S (length m)) by lia; cbn [app nth_error].
    nths; rewrite Nat.sub_diag; reflexivity.
  - destruct (Nat.eqb_spec k (length p + S (length m))) as [->|N2].
    + nths; rewrite Nat.sub_diag; replace (length p + S (length m) - length p) with (S (length m)) by lia; cbn [app nth_error].
      nths; rewrite Nat.sub_diag; reflexivity.
    + destruct (Nat.lt_ge_cases k (length p)); [nths; reflexivity|].
      nths; destruct (k - length p) as [|i] eqn:Ek; [lia|]; cbn [app nth_error].
      destruct (Nat.lt_ge_cases i (length m)); [nths; reflexivity|]; nths.
      destruct (i - length m) as [|i'] eqn:Ei; [lia|]; reflexivity.
Qed.
Lemma swap_cut g r i j : i < j -> j < length g -> rearranged (swap_src i j) g r ->
  exists p a m b q, g = p ++ a :: m ++ b :: q /\ r = p ++ b :: m ++ a :: q.
Proof.
  intros Hij Hj Hr; destruct (nth_error g j) as [b|] eqn:Eb; [|apply nth_error_None in Eb; lia].
  destruct (nth_error_split g j Eb) as (u & q & -> & Hu).
  destruct (nth_error u i) as [a|] eqn:Ea; [|apply nth_error_None in Ea; lia].
  destruct (nth_error_split u i Ea) as (p & m & -> & Hp).
  exists p, a, m, b, q; rewrite <- app_assoc in *; split; [reflexivity|].
  eapply rearranged_fun; [exact Hr|]; rewrite app_length in Hu; cbn [length] in Hu; subst i j; exact (swap_middle p a m b q).
Qed.

Lemma as_swap s g r : alternates s (length g) -> may (mutate s g) r -> may (mutate Swap g) r.
Proof.
  intros [Hn Hs] Hr; destruct s; try tauto.
  - apply (must_may _ _ _ (inversion_effect g Hn)) in Hr; cbn beta in Hr; destruct Hr as (a & b & H1 & H2 & Hr).
    apply swap_mutation_reach with (i := a) (j := b - 1); try lia; intros k; rewrite (Hr k); f_equal; unfold reverse_src, swap_src.
    destruct (Nat.leb_spec a k), (Nat.ltb_spec k b), (Nat.eqb_spec k a), (Nat.eqb_spec k (b - 1)); cbn [andb]; lia.
  - apply (must_may _ _ _ (insertion_effect g Hn)) in Hr; cbn beta in Hr; destruct Hr as (i & j & H1 & H2 & Hr).
    apply swap_mutation_reach with (i := i) (j := j); try lia; intros k; rewrite (Hr k); f_equal; unfold move_src, swap_src.
    destruct (Nat.eqb_spec k i), (Nat.ltb_spec i k), (Nat.leb_spec k j), (Nat.leb_spec j k), (Nat.ltb_spec k i), (Nat.eqb_spec k j); cbn [andb]; lia.
Qed.
End Alternate.

Lemma step_par s (l r : list nat) : alternates s (length l) -> NoDup l -> may (mutate s l) r -> par r = negb (par l).
Proof.
  intros Ha Hn Hr; apply as_swap in Hr; auto; destruct Ha as [H2 _].
  apply (must_may _ _ _ (swap_effect l H2)) in Hr; cbn beta in Hr; destruct Hr as (i & j & Hi & Hj & Hij & Hr).
  assert (H : exists i j, i < j /\ j < length l /\ rearranged (swap_src i j) l r).
  { destruct (Nat.lt_ge_cases i j) as [L|L]; [exists i, j; auto|exists j, i; split; [lia|split; auto]].
    intros k; rewrite (Hr k); f_equal; unfold swap_src; destruct (Nat.eqb_spec k i), (Nat.eqb_spec k j); lia. }
  destruct H as (i' & j' & L & L' & H); destruct (swap_cut l r i' j' L L' H) as (p & a & m & b & q & -> & ->).
  rewrite (par_swap p a m b q Hn), negb_involutive; reflexivity.
Qed.
Lemma times_par s k (l r : list nat) : alternates s (length l) -> s <> Duplicate -> NoDup l -> mutated s k l r -> par r = xorb (Nat.odd k) (par l).
Proof.
  intros Ha Hs Hn H; revert Ha Hn; induction H as [g|k g g1 g' H1 H IH]; intros Ha Hn; [destruct (par g); reflexivity|].
  pose proof (must_may _ _ _ (mutate_perm s g Hs) H1) as Hp; cbn beta in Hp.
  rewrite IH, (step_par s g g1) by (auto; try (rewrite <- (Permutation_length Hp); auto); eapply Permutation_NoDup; eauto).
  rewrite Nat.odd_succ, <- Nat.negb_odd; destruct (Nat.odd k), (par g); reflexivity.
Qed.

Lemma may_alike {A B} (R : A -> B -> Prop) (m : M A) (m' : M B) b : alike R m m' -> may m' b -> exists a, may m a /\ R a b.
Proof.
  revert m'; induction m as [a|e|n k IH|n k IH]; intros [b'|e'|n' k'|n' k'] H Hb; cbn in *; try contradiction.
  - subst b'; eauto.
  - destruct H as [-> H], Hb as (i & Hi & Hb); destruct (IH i (k' i) (H i Hi) Hb) as (a & Ha & HR); eauto.
  - destruct H as [-> H], Hb as (i & Hi & Hb); destruct (IH i (k' i) (H i Hi) Hb) as (a & Ha & HR); eauto.
Qed.
Lemma mutated_names {A B} (f : A -> B) s k l r : mutated s k (map f l) r -> exists l', mutated s k l l' /\ r = map f l'.
Proof.
  revert l; induction k as [|k IH]; intros l H; inversion H; subst; [exists l; split; [constructor|auto]|].
  destruct (may_alike _ _ _ _ (names_mutation f s l) H1) as (l1 & Hl1 & ->).
  destruct (IH l1) as (l' & Hl' & ->); auto; exists l'; split; auto; econstructor; eauto.
Qed.

Lemma c119_parity {G} s (g r : list G) k k' : NoDup g -> alternates s (length g) -> mutated s k g r -> mutated s k' g r -> Nat.even k = Nat.even k'.
Proof.
  intros Hn Ha H H'; assert (Hs : s <> Duplicate) by (intros ->; destruct Ha; auto).
  destruct g as [|d g0] eqn:Eg; [destruct Ha as [Ha _]; cbn in Ha; lia|]; rewrite <- Eg in *; clear Eg g0.
  rewrite <- (apply_id d g) in H, H'; apply mutated_names in H as (u & Hu & ->), H' as (v & Hv & E).
  assert (Pu : Permutation (seq 0 (length g)) u) by (eapply mutated_permutation; eauto).
  assert (Pv : Permutation (seq 0 (length g)) v) by (eapply mutated_permutation; eauto).
  assert (Euv : u = v).
  { assert (Hinj : forall x y, In x u -> In y v -> nth x g d = nth y g d -> x = y).
    { intros x y Hx Hy Exy; apply (Permutation_in _ (Permutation_sym Pu)), in_seq in Hx; apply (Permutation_in _ (Permutation_sym Pv)), in_seq in Hy.
      apply (proj1 (NoDup_nth g d) Hn); auto; lia. }
    clear - E Hinj; revert v E Hinj; induction u as [|x u IH]; intros [|y v] E Hinj; cbn in *; try discriminate; auto.
    injection E; intros E1 E2; f_equal; [apply Hinj; auto|apply IH; auto]. }
  subst v; apply times_par in Hu, Hv; rewrite ?seq_length; auto; try apply seq_NoDup.
  rewrite Hu in Hv; rewrite <- !Nat.negb_odd; destruct (Nat.odd k), (Nat.odd k'), (par (seq 0 (length g))); cbn in *; congruence.
Qed.

Fixpoint pos {G} (eqb : G -> G -> bool) (l : list G) (x : G) : nat := match l with [] => 0 | y :: t => if eqb y x then 0 else S (pos eqb t x) end.
Lemma pos_nth {G} (eqb : G -> G -> bool) (g : list G) d : eq_ok eqb -> NoDup g -> forall i, i < length g -> pos eqb g (nth i g d) = i.
Proof.
  intros He; induction 1 as [|x g Hx Hn IH]; intros i Hi; cbn in *; [lia|].
  destruct i as [|i]; [rewrite (proj2 (He x x)); auto|].
  destruct (eqb x (nth i g d)) eqn:E; [apply He in E; subst x; exfalso; apply Hx, nth_In; lia|]; f_equal; apply IH; lia.
Qed.
Lemma below_seq a n : forall x, x <= a -> below x (seq a n) = false.
Proof. revert a; induction n as [|n IH]; intros a x H; [reflexivity|]; cbn [seq below]; rewrite IH by lia; rewrite (proj2 (Nat.ltb_ge a x)) by lia; reflexivity. Qed.
Lemma par_seq a n : par (seq a n) = false.
Proof. revert a; induction n as [|n IH]; intros a; [reflexivity|]; cbn [seq par]; rewrite IH, below_seq by lia; reflexivity. Qed.

Lemma must_supp {A} (m : M A) (Q P : A -> Prop) : must m Q -> (forall a, may m a -> P a) -> must m P.
Proof.
  induction m as [a|e|n k IH|n k IH]; cbn; intros Hm H; auto.
  - destruct Hm as [Hn Hm]; split; auto; intros i Hi; apply IH; auto; intros a Ha; apply H; eauto.
  - destruct Hm as [Hn Hm]; split; auto; intros i Hi; apply IH; auto; intros a Ha; apply H; eauto.
Qed.
Lemma c119_alternates {G} (eqb : G -> G -> bool) s (g : list G) : eq_ok eqb -> NoDup g -> alternates s (length g) ->
  exists P : list G -> bool, forall k, prob (mutate_times s k g) P = (if Nat.even k then 1 else 0)%R.
Proof.
  intros He Hn Ha; assert (Hs : s <> Duplicate) by (intros ->; destruct Ha; auto).
  destruct g as [|d g0] eqn:Eg; [destruct Ha as [Ha _]; cbn in Ha; lia|]; rewrite <- Eg in *; clear Eg g0.
  exists (fun r => negb (par (map (pos eqb g) r))); intros k.
  assert (H : forall r, may (mutate_times s k g) r -> negb (par (map (pos eqb g) r)) = Nat.even k).
  { intros r Hr; apply times_mutated in Hr; rewrite <- (apply_id d g) in Hr; apply mutated_names in Hr as (u & Hu & ->).
    assert (Pu : Permutation (seq 0 (length g)) u) by (eapply mutated_permutation; eauto).
    rewrite map_map, (map_ext_in _ (fun i => i)), map_id.
    2: { intros i Hi; apply pos_nth; auto; apply (Permutation_in _ (Permutation_sym Pu)), in_seq in Hi; lia. }
    apply times_par in Hu; rewrite ?seq_length; auto; [|apply seq_NoDup].
    rewrite Hu, par_seq, xorb_false_r, Nat.negb_odd; reflexivity. }
  destruct (Nat.even k) eqn:Ek.
  - apply prob_one; apply (must_supp _ _ _ (times_perm s k Hs g)); auto.
  - apply (prob_zero _ _ _ (times_perm s k Hs g)); auto.
Qed.

Lemma c119_example :
  all_orders [1; 2; 3] [[1; 2; 3]; [2; 1; 3]; [2; 3; 1]; [1; 3; 2]; [3; 1; 2]; [3; 2; 1]] /\
  mixes Insertion 3 /\ mixes Inversion 4 /\ mixes Scramble 2 /\ alternates Swap 3 /\ alternates Inversion 3 /\ alternates Insertion 2 /\ NoDup [1; 2; 3] /\
  mutated Swap 1 [1; 2; 3] [3; 2; 1] /\ mutated Swap 3 [1; 2; 3] [3; 2; 1] /\
  run (mutate_times Insertion 2 [1; 2; 3]) [2; 0; 1; 0]%N = Some [1; 3; 2].
Proof.
  split; [split|].
  - repeat constructor; cbn; intuition discriminate.
  - intros l; rewrite <- in_perms; cbn; tauto.
  - repeat split; cbn; auto; try (repeat constructor; cbn; intuition lia).
    + apply mutated_one, (swap_mutation_reach _ _ 0 2); cbn; auto; intros k; do 4 (destruct k as [|k]; [reflexivity|]); cbn; reflexivity.
    + apply (mutated_more _ 2 _ [2; 1; 3]); [apply (swap_mutation_reach _ _ 0 1); cbn; auto; intros k; do 4 (destruct k as [|k]; [reflexivity|]); cbn; reflexivity|].
      apply (mutated_more _ 1 _ [2; 3; 1]); [apply (swap_mutation_reach _ _ 1 2); cbn; auto; intros k; do 4 (destruct k as [|k]; [reflexivity|]); cbn; reflexivity|].
      apply mutated_one, (swap_mutation_reach _ _ 0 1); cbn; auto; intros k; do 4 (destruct k as [|k]; [reflexivity|]); cbn; reflexivity.
Qed.
