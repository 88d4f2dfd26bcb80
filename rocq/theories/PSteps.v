(** * PSteps: how many steps of a tour a mutation breaks (C116). *)
From Coq Require Import List Bool Arith NArith Lia Permutation.
From Verif Require Import Rnd LRnd MMutation Spec SpecD LGenes PMutation PMutationProb POperatorsRandom POperatorsNeighbors.
Import ListNotations.

Definition nx (n k : nat) : nat := if S k =? n then 0 else S k.
Definition pv (n k : nat) : nat := if k =? 0 then n - 1 else k - 1.

Lemma nx_mod n k : k < n -> (k + 1) mod n = nx n k.
Proof.
  intros Hk; unfold nx; destruct (Nat.eqb_spec (S k) n) as [E|E].
  - replace (k + 1) with n by lia; apply Nat.mod_same; lia.
  - rewrite Nat.mod_small; lia.
Qed.

Section Steps.
Context {G : Type}.

Lemma rearranged_length src (l r : list G) :
  (forall k, src k < length l <-> k < length l) -> rearranged src l r -> length r = length l.
Proof.
  intros Hs HR.
  assert (K : forall k, k < length r <-> k < length l).
  { intros k; rewrite <- Hs, <- !nth_error_Some, (HR k); tauto. }
  pose proof (K (length r)); pose proof (K (length l)); lia.
Qed.

Lemma kept_steps src (l r : list G) ks :
  (forall k, src k < length l <-> k < length l) -> rearranged src l r ->
  (forall k, k < length l -> ~ In k ks -> exists q, q < length l /\
     (src q = k /\ src (nx (length l) q) = nx (length l) k \/
      src q = nx (length l) k /\ src (nx (length l) q) = k)) ->
  keeps_but (length ks) l r.
Proof.
  intros Hs HR H; exists ks; split; [apply le_n|]; intros k a b Hk Ha Hb.
  pose proof (rearranged_length _ _ _ Hs HR) as Hl.
  pose proof (nth_error_some_lt _ _ _ Ha) as Hlt.
  rewrite nx_mod in Hb by auto.
  destruct (H k Hlt Hk) as (q & Hq & [[E1 E2]|[E1 E2]]); [left|right]; exists q;
    rewrite Hl, nx_mod, !HR, E1, E2 by auto; auto.
Qed.

Lemma keeps_more m m' (l r : list G) : m <= m' -> keeps_but m l r -> keeps_but m' l r.
Proof. intros Hm (ks & Hl & H); exists ks; split; auto; lia. Qed.

Ltac cases :=
  repeat match goal with
  | |- context [?a =? ?b] => destruct (Nat.eqb_spec a b)
  | |- context [?a <=? ?b] => destruct (Nat.leb_spec a b)
  | |- context [?a <? ?b] => destruct (Nat.ltb_spec a b)
  | H : context [?a =? ?b] |- _ => destruct (Nat.eqb_spec a b)
  end; cbn [andb] in *; try lia.

Lemma swap_keeps (l r : list G) i j :
  i < length l -> j < length l -> rearranged (swap_src i j) l r -> keeps_but 4 l r.
Proof.
  intros Hi Hj HR; apply (kept_steps (swap_src i j) l r [i; j; pv (length l) i; pv (length l) j]); auto.
  - intros k; unfold swap_src; cases.
  - intros k Hk Hn; exists k; split; auto; left; cbn in Hn.
    unfold pv, nx, swap_src in *; split; cases.
Qed.

Lemma inversion_keeps (l r : list G) a b :
  a + 2 <= b -> b <= length l -> rearranged (reverse_src a b) l r -> keeps_but 2 l r.
Proof.
  intros Ha Hb HR; apply (kept_steps (reverse_src a b) l r [pv (length l) a; b - 1]); auto.
  - intros k; unfold reverse_src; cases.
  - intros k Hk Hn; cbn in Hn; unfold pv, nx, reverse_src in *.
    destruct (Nat.lt_ge_cases k a) as [H1|H1]; [|destruct (Nat.lt_ge_cases k b) as [H2|H2]].
    + exists k; split; auto; left; split; cases.
    + exists (a + b - 2 - k); split; [cases|right; split; cases].
    + exists k; split; auto; left; split; cases.
Qed.

Lemma insertion_keeps (l r : list G) i j :
  i < j -> j < length l -> rearranged (move_src j i) l r -> keeps_but 3 l r.
Proof.
  intros Hi Hj HR; apply (kept_steps (move_src j i) l r [pv (length l) i; j - 1; j]); auto.
  - intros k; unfold move_src; cases.
  - intros k Hk Hn; cbn in Hn; unfold pv, nx, move_src in *.
    destruct (Nat.lt_ge_cases k i) as [H1|H1]; [|destruct (Nat.lt_ge_cases k j) as [H2|H2]].
    + exists k; split; auto; left; split; cases.
    + exists (k + 1); split; [cases|left; split; cases].
    + exists k; split; auto; left; split; cases.
Qed.

Lemma duplicate_keeps (l r : list G) s t :
  s < length l -> t < length l -> rearranged (copy_src s t) l r -> keeps_but 2 l r.
Proof.
  intros Hs Ht HR; apply (kept_steps (copy_src s t) l r [t; pv (length l) t]); auto.
  - intros k; unfold copy_src; cases.
  - intros k Hk Hn; exists k; split; auto; left; cbn in Hn.
    unfold pv, nx, copy_src in *; split; cases.
Qed.

Lemma keeps_all (l : list G) m : keeps_but m l l.
Proof. exists []; split; [apply Nat.le_0_l|]; intros k a b _ Ha Hb; left; exists k; auto. Qed.

Lemma keeps_none (l r : list G) : keeps_but (length l) l r.
Proof.
  exists (seq 0 (length l)); split; [rewrite seq_length; auto|].
  intros k a b Hk Ha _; exfalso; apply Hk, in_seq; apply nth_error_some_lt in Ha; lia.
Qed.

Lemma c116_kept (s : mutation_strategy) (l : list G) :
  must (mutate s l) (keeps_but (steps_broken s (length l)) l).
Proof.
  destruct (Nat.lt_ge_cases (length l) 2) as [Hl|Hl].
  { rewrite mutate_short by auto; apply keeps_all. }
  destruct s; cbn [mutate steps_broken].
  - eapply must_mono; [|apply swap_effect; auto].
    intros r (i & j & Hi & Hj & _ & HR); apply (swap_keeps l r i j); auto.
  - eapply must_mono; [|apply scramble_effect; auto].
    intros r _; apply keeps_none.
  - eapply must_mono; [|apply inversion_effect; auto].
    intros r (a & b & Ha & Hb & HR); apply (inversion_keeps l r a b); auto.
  - eapply must_mono; [|apply insertion_effect; auto].
    intros r (a & b & Ha & Hb & HR); apply (insertion_keeps l r a b); auto.
  - eapply must_mono; [|apply duplicate_mutation_spec; auto].
    intros r (a & b & Ha & Hb & _ & HR); apply (duplicate_keeps l r a b); auto.
Qed.

End Steps.

(** ** The bounds are attained *)
Definition nextb (l : list nat) (a b : nat) : bool :=
  existsb (fun i => match nth_error l i, nth_error l ((i + 1) mod length l) with
                    | Some x, Some y => (x =? a) && (y =? b) | _, _ => false end) (seq 0 (length l)).

Lemma nextb_ok l a b : cyc_next l a b -> nextb l a b = true.
Proof.
  intros (i & Ha & Hb); apply existsb_exists; exists i; split.
  - apply in_seq; apply nth_error_some_lt in Ha; lia.
  - rewrite Ha, Hb, !Nat.eqb_refl; auto.
Qed.

Definition brokenb (g g' : list nat) (k : nat) : bool :=
  match nth_error g k, nth_error g ((k + 1) mod length g) with
  | Some a, Some b => negb (nextb g' a b) && negb (nextb g' b a) | _, _ => false end.

Lemma breaks (g g' : list nat) m :
  m < length (filter (brokenb g g') (seq 0 (length g))) -> ~ keeps_but m g g'.
Proof.
  intros Hm (ks & Hl & H).
  enough (length (filter (brokenb g g') (seq 0 (length g))) <= length ks) by lia.
  apply NoDup_incl_length; [apply NoDup_filter, seq_NoDup|].
  intros k Hk; apply filter_In in Hk as [_ Hk]; unfold brokenb in Hk.
  destruct (in_dec Nat.eq_dec k ks) as [|Hn]; auto; exfalso.
  destruct (nth_error g k) as [a|] eqn:Ea; [|discriminate].
  destruct (nth_error g ((k + 1) mod length g)) as [b|] eqn:Eb; [|discriminate].
  apply andb_true_iff in Hk as [H1 H2]; apply negb_true_iff in H1, H2.
  destruct (H k a b Hn Ea Eb) as [K|K]; apply nextb_ok in K; congruence.
Qed.

Lemma c116_attained (s : mutation_strategy) :
  exists g g' : list nat, NoDup g /\ may (mutate s g) g' /\ ~ keeps_but (steps_broken s (length g) - 1) g g'.
Proof.
  exists [1; 2; 3; 4; 5; 6; 7; 8].
  assert (ND : NoDup [1; 2; 3; 4; 5; 6; 7; 8]) by (repeat constructor; cbn; lia).
  destruct s; cbn [mutate steps_broken].
  - exists [1; 6; 3; 4; 5; 2; 7; 8]; split; [auto|split].
    + apply (swap_mutation_reach _ _ 1 5); cbn; [lia..|].
      intros k; do 9 (destruct k as [|k]; [reflexivity|]); reflexivity.
    + apply breaks; vm_compute; lia.
  - exists [1; 3; 5; 7; 2; 8; 6; 4]; split; [auto|split].
    + apply (scramble_mutation_reach _ _ 0 8); cbn; [lia..|].
      split; [reflexivity|split].
      * intros k [H|H]; [lia|]; do 8 (destruct k as [|k]; [lia|]); reflexivity.
      * apply NoDup_Permutation; [repeat constructor; cbn; lia..|]; intros x; cbn; lia.
    + apply breaks; vm_compute; lia.
  - exists [1; 5; 4; 3; 2; 6; 7; 8]; split; [auto|split].
    + apply (inversion_mutation_reach _ _ 1 5); cbn; [lia..|].
      intros k; do 9 (destruct k as [|k]; [reflexivity|]); reflexivity.
    + apply breaks; vm_compute; lia.
  - exists [1; 5; 2; 3; 4; 6; 7; 8]; split; [auto|split].
    + apply (insertion_mutation_reach _ _ 1 4); cbn; [lia..|].
      intros k; do 9 (destruct k as [|k]; [reflexivity|]); reflexivity.
    + apply breaks; vm_compute; lia.
  - exists [1; 5; 3; 4; 5; 6; 7; 8]; split; [auto|split].
    + apply (duplicate_mutation_reach _ _ 4 1); cbn; [lia..|].
      intros k; do 9 (destruct k as [|k]; [reflexivity|]); reflexivity.
    + apply breaks; vm_compute; lia.
Qed.

Lemma c116_example :
  run (mutate Inversion [1; 2; 3; 4; 5; 6]) [2; 1]%N = Some [1; 5; 4; 3; 2; 6] /\
  steps_broken Inversion 6 = 2 /\ cyc_adj [1; 5; 4; 3; 2; 6] 6 1 /\ cyc_adj [1; 5; 4; 3; 2; 6] 2 3.
Proof.
  split; [vm_compute; reflexivity|split; [reflexivity|split]].
  - left; exists 5; auto.
  - right; exists 3; auto.
Qed.
