(** * PCrossoverGpx: proofs about GPX2. *)
From Coq Require Import List Bool Arith NArith Lia Permutation.
From Verif Require Import Rnd LRnd MOperators MCrossover Spec POperatorsNeighbors.
Import ListNotations.

Lemma upd_app1 {A} (l l' : list A) i v : i < length l -> upd (l ++ l') i v = upd l i v ++ l'.
Proof.
  revert i; induction l as [|h t IH]; intros [|i] H; cbn in *; try lia; auto.
  f_equal; apply IH; lia.
Qed.

Lemma upd_app2 {A} (l : list A) x v : upd (l ++ [x]) (length l) v = l ++ [v].
Proof. induction l as [|h t IH]; cbn; congruence. Qed.

Lemma swap_remove_ok {A} (l : list A) i x :
  nth_error l i = Some x ->
  exists rest, swap_remove l i = Ret (x, rest) /\ Permutation l (x :: rest).
Proof.
  intros Hx; pose proof (nth_error_some_lt _ _ _ Hx) as Hi.
  unfold swap_remove; rewrite (idx_some _ _ _ Hx); cbn [bind].
  destruct (exists_last (l := l)) as (l0 & lst & ->); [destruct l; cbn in *; [lia|discriminate]|].
  rewrite app_length in *; cbn [length] in *.
  replace (length l0 + 1 - 1) with (length l0) by lia.
  rewrite nth_error_app2, Nat.sub_diag by lia; cbn [nth_error unwrap bind].
  eexists; split; [reflexivity|].
  destruct (Nat.eq_dec i (length l0)) as [->|Hne].
  - rewrite nth_error_app2, Nat.sub_diag in Hx by lia; injection Hx as ->.
    rewrite upd_app2, removelast_last; symmetry; apply Permutation_cons_append.
  - rewrite upd_app1, removelast_last by lia.
    rewrite nth_error_app1 in Hx by lia.
    rewrite upd_split by lia.
    rewrite (nth_split_eq _ _ _ Hx) at 1.
    rewrite <- app_assoc; cbn [app].
    rewrite <- Permutation_middle; apply perm_skip.
    apply Permutation_app_head; symmetry; apply Permutation_cons_append.
Qed.

Lemma filter_id {A} (f : A -> bool) l : (forall x, In x l -> f x = true) -> filter f l = l.
Proof.
  induction l as [|h t IH]; intros H; cbn; auto.
  rewrite (H h) by (left; auto); f_equal; apply IH; intros x Hx; apply H; right; auto.
Qed.

Lemma Permutation_concat {A} (l l' : list (list A)) : Permutation l l' -> Permutation (concat l) (concat l').
Proof.
  induction 1 as [|x l l' H IH|x y l|l1 l2 l3 H1 IH1 H2 IH2]; cbn; auto.
  - apply Permutation_app_head; auto.
  - rewrite !app_assoc; apply Permutation_app_tail, Permutation_app_comm.
  - etransitivity; eauto.
Qed.

Lemma NoDup_app_inv {A} (l l' : list A) :
  NoDup (l ++ l') -> NoDup l /\ NoDup l' /\ forall x, In x l -> In x l' -> False.
Proof.
  induction l as [|h t IH]; cbn; intros H; [repeat split; auto; constructor|].
  inversion H as [|h' t' Hh Ht]; subst; destruct (IH Ht) as (H1 & H2 & H3).
  rewrite in_app_iff in Hh; split; [constructor; tauto|split; auto].
  intros x [->|Hx] Hx'; [tauto|eauto].
Qed.

Lemma assembled_concat {G S0} (sel : S0 -> option G -> list (list G) -> M (nat * S0)) s acc ps r :
  assembled sel s acc ps r -> exists qs, Permutation ps qs /\ r = acc ++ concat qs.
Proof.
  induction 1 as [s acc|s acc ps i s' p ps' r Hne Hm Hp HP Ha (qs & Hq & ->)].
  - exists []; cbn; rewrite app_nil_r; auto.
  - exists (p :: qs); split; [rewrite HP; auto|]; cbn; rewrite app_assoc; auto.
Qed.

Section Gpx.
Context {G : Type} (eqb : G -> G -> bool) (ltb : G -> G -> bool).
Hypothesis Heq : eq_ok eqb.
Context {S0 : Type} (sel : S0 -> option G -> list (list G) -> M (nat * S0)).
(** The selector returns an index of the slice it is given. *)
Hypothesis Hsel : forall s o ps, ps <> [] -> must (sel s o ps) (fun r => fst r < length ps).

Lemma gpx2_loop_spec fuel s acc ps :
  length ps < fuel -> NoDup (concat ps) -> (forall p, In p ps -> p <> []) ->
  must (gpx2_loop eqb sel fuel s acc ps) (assembled sel s acc ps).
Proof.
  revert s acc ps; induction fuel as [|f IH]; intros s acc ps Hf Hnd Hne; [lia|].
  destruct ps as [|q qs]; [cbn; constructor|].
  remember (q :: qs) as ps eqn:Eps.
  assert (Hps : ps <> []) by (subst; discriminate).
  cbn [gpx2_loop]; replace (match ps with [] => Ret acc | _ :: _ => _ end) with
    ('(i, s') <- sel s (last (map Some acc) None) ps ;;
     '(partition, rest) <- swap_remove ps i ;;
      gpx2_loop eqb sel f s' (acc ++ partition)
        (filter (fun p => negb (length p =? 0)) (map (filter (fun g => negb (mem eqb g partition))) rest)))
    by (subst; reflexivity).
  clear Eps q qs.
  apply must_bind; eapply must_strengthen; [apply Hsel; auto|].
  intros [i s'] Hmay Hi; cbn [fst] in Hi.
  destruct (nth_error_lt ps i Hi) as [p Hp].
  destruct (swap_remove_ok ps i p Hp) as (rest & Er & HP).
  apply must_bind; rewrite Er; cbn [must].
  assert (Hnd' : NoDup (concat (p :: rest))) by (eapply Permutation_NoDup; [apply Permutation_concat; exact HP|auto]).
  cbn [concat] in Hnd'; destruct (NoDup_app_inv _ _ Hnd') as (H1 & H2 & H3).
  assert (E1 : map (filter (fun g => negb (mem eqb g p))) rest = rest).
  { rewrite <- (map_id rest) at 2; apply map_ext_in; intros q Hq.
    apply filter_id; intros x Hx; apply negb_true_iff, (mem_notIn eqb Heq).
    intros Hxp; eapply H3; eauto; apply in_concat; eauto. }
  assert (Hne' : forall q, In q rest -> q <> []).
  { intros q Hq; apply Hne; eapply Permutation_in; [symmetry; exact HP|right; auto]. }
  assert (E2 : filter (fun q : list G => negb (length q =? 0)) rest = rest).
  { apply filter_id; intros q Hq; apply negb_true_iff, Nat.eqb_neq.
    specialize (Hne' q Hq); destruct q; cbn; congruence. }
  rewrite E1, E2.
  eapply must_mono; [|apply IH; auto].
  - intros r Hr; eapply asm_step; eauto.
  - apply Permutation_length in HP; cbn in HP; lia.
Qed.

Lemma gpx2_spec p1 p2 s :
  must (generalized_partition_2_crossover eqb ltb p1 p2 sel s)
    (fun r => exists ps, common_partitions eqb ltb p1 p2 = Ret ps /\ assembled sel s [] ps r).
Proof.
  unfold generalized_partition_2_crossover.
  destruct (common_partitions_raw eqb ltb Heq p1 p2) as (ps & E & Hnd & Hin & Hne & _).
  rewrite E; cbn [bind].
  eapply must_mono; [|apply gpx2_loop_spec; auto].
  intros r Hr; exists ps; auto.
Qed.

Lemma NoDup_same_Permutation {A} (l l' : list A) :
  NoDup l -> NoDup l' -> (forall x, In x l <-> In x l') -> Permutation l l'.
Proof. intros; apply NoDup_Permutation; auto. Qed.

Lemma gpx2_genes p1 p2 s :
  must (generalized_partition_2_crossover eqb ltb p1 p2 sel s)
    (fun r => NoDup r /\ (forall x, In x r <-> In x p1) /\
       exists ps qs, common_partitions eqb ltb p1 p2 = Ret ps /\ Permutation ps qs /\ r = concat qs).
Proof.
  eapply must_mono; [|apply gpx2_spec].
  intros r (ps & E & Ha); apply assembled_concat in Ha as (qs & HP & ->); cbn [app].
  destruct (common_partitions_raw eqb ltb Heq p1 p2) as (ps' & E' & Hnd & Hin & _).
  rewrite E in E'; injection E' as <-.
  pose proof (Permutation_concat _ _ HP) as HPc.
  split; [eapply Permutation_NoDup; eauto|split].
  - intros x; rewrite <- Hin; split; apply Permutation_in; [symmetry|]; auto.
  - exists ps, qs; auto.
Qed.

Lemma gpx2_perm p1 p2 s :
  NoDup p1 ->
  must (generalized_partition_2_crossover eqb ltb p1 p2 sel s) (fun r => Permutation p1 r).
Proof.
  intros Hnd; eapply must_mono; [|apply gpx2_genes].
  intros r (H1 & H2 & _); apply NoDup_Permutation; auto; intros x; rewrite H2; tauto.
Qed.

End Gpx.

(** A selector answering out of range makes GPX2 panic. *)
Lemma gpx2_bad_selector {G S0} eqb ltb (p1 p2 : list G) (sel : S0 -> option G -> list (list G) -> M (nat * S0)) s :
  eq_ok eqb -> p1 <> [] ->
  (forall s o ps, must (sel s o ps) (fun r => length ps <= fst r)) ->
  must_fail (generalized_partition_2_crossover eqb ltb p1 p2 sel s) Panic.
Proof.
  intros Heq Hp Hsel; unfold generalized_partition_2_crossover.
  destruct (common_partitions_raw eqb ltb Heq p1 p2) as (ps & E & Hnd & Hin & Hne & _).
  rewrite E; cbn [bind].
  destruct ps as [|q qs].
  - destruct p1 as [|x p1]; [congruence|]; exfalso; apply (Hin x); left; auto.
  - cbn [gpx2_loop]; eapply must_fail_bind_r; [apply Hsel|].
    intros [i s'] Hi; cbn [fst] in Hi; apply must_fail_bind_l.
    unfold swap_remove, idx; rewrite (proj2 (nth_error_None _ _)) by auto; reflexivity.
Qed.
