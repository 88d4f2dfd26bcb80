(** * PConnect: what repeated mutation can reach (C108). *)
From Coq Require Import List Bool Arith NArith Permutation Lia.
From Verif Require Import Rnd LRnd MMutation Spec SpecM PMutation PMutationProb PShuffle.
Import ListNotations.

Lemma Forall2_len {A B} (R : A -> B -> Prop) l r : Forall2 R l r -> length l = length r.
Proof. intros H; induction H; cbn; auto. Qed.

Section Connect.
Context {G : Type}.
Implicit Types (g pre l : list G).

Lemma connected s
  (front : forall pre l1 x l2, l1 <> [] -> exists mid, Permutation (l1 ++ l2) mid /\ may (mutate s (pre ++ l1 ++ x :: l2)) (pre ++ x :: mid)) :
  forall t pre l, Permutation l t -> exists k, k <= length l - 1 /\ mutated s k (pre ++ l) (pre ++ t).
Proof.
  induction t as [|x t IH]; intros pre l HP.
  - apply Permutation_sym, Permutation_nil in HP; subst; exists 0; split; [lia|constructor].
  - assert (Hx : In x l) by (eapply Permutation_in; [apply Permutation_sym; exact HP|left; reflexivity]).
    apply in_split in Hx as (l1 & l2 & ->).
    assert (HP' : Permutation (l1 ++ l2) t) by exact (Permutation_app_inv l1 l2 [] t x HP).
    destruct l1 as [|y l1].
    + destruct (IH (pre ++ [x]) l2 HP') as (k & Hk & H); exists k; rewrite <- !app_assoc in H; cbn in *; split; [lia|exact H].
    + destruct (front pre (y :: l1) x l2 ltac:(discriminate)) as (mid & Hm & H1).
      destruct (IH (pre ++ [x]) mid (perm_trans (Permutation_sym Hm) HP')) as (k & Hk & H); exists (S k); split.
      * rewrite <- (Permutation_length Hm) in Hk; rewrite app_length in *; cbn in *; lia.
      * econstructor; [exact H1|]; rewrite <- !app_assoc in H; exact H.
Qed.

Ltac nths := repeat first
  [ rewrite nth_error_app1 by (cbn; rewrite ?app_length, ?rev_length; cbn; lia)
  | rewrite nth_error_app2 by (cbn; rewrite ?app_length, ?rev_length; cbn; lia) ].

Lemma swap_front pre l1 (x : G) l2 : l1 <> [] -> exists mid, Permutation (l1 ++ l2) mid /\ may (mutate Swap (pre ++ l1 ++ x :: l2)) (pre ++ x :: mid).
Proof.
  destruct l1 as [|y l1]; [contradiction|]; intros _; exists (l1 ++ y :: l2); split; [apply Permutation_middle|].
  apply swap_mutation_reach with (i := length pre) (j := length pre + S (length l1)); [repeat (rewrite app_length; cbn); lia|repeat (rewrite app_length; cbn); lia|lia|].
  intros k; unfold swap_src; destruct (Nat.eqb_spec k (length pre)) as [->|N1].
  - nths; rewrite Nat.sub_diag; cbn [nth_error]; replace (length pre + S (length l1) - length pre) with (S (length l1)) by lia; cbn [app nth_error].
    nths; rewrite Nat.sub_diag; reflexivity.
  - destruct (Nat.eqb_spec k (length pre + S (length l1))) as [->|N2].
    + nths; rewrite Nat.sub_diag; replace (length pre + S (length l1) - length pre) with (S (length l1)) by lia; cbn [app nth_error].
      nths; rewrite Nat.sub_diag; reflexivity.
    + destruct (Nat.lt_ge_cases k (length pre)); [nths; reflexivity|].
      nths; destruct (k - length pre) as [|i] eqn:Ek; [lia|]; cbn [app nth_error].
      destruct (Nat.lt_ge_cases i (length l1)); [nths; reflexivity|]; nths.
      destruct (i - length l1) as [|i'] eqn:Ei; [lia|]; reflexivity.
Qed.

Lemma insertion_front pre l1 (x : G) l2 : l1 <> [] -> exists mid, Permutation (l1 ++ l2) mid /\ may (mutate Insertion (pre ++ l1 ++ x :: l2)) (pre ++ x :: mid).
Proof.
  intros Hne; assert (Hl : 0 < length l1) by (destruct l1; [contradiction|cbn; lia]); exists (l1 ++ l2); split; [reflexivity|].
  apply insertion_mutation_reach with (i := length pre) (j := length pre + length l1); [lia|rewrite !app_length; cbn; lia|].
  intros k; unfold move_src; destruct (Nat.eqb_spec k (length pre)) as [->|N1].
  - nths; rewrite Nat.sub_diag; replace (length pre + length l1 - length pre) with (length l1) by lia; nths; rewrite Nat.sub_diag; reflexivity.
  - destruct (Nat.lt_ge_cases k (length pre)).
    + replace (length pre <? k) with false by (symmetry; apply Nat.ltb_ge; lia).
      replace (length pre + length l1 <=? k) with false by (symmetry; apply Nat.leb_gt; lia); cbn [andb]; nths; reflexivity.
    + replace (length pre <? k) with true by (symmetry; apply Nat.ltb_lt; lia).
      replace (k <? length pre) with false by (symmetry; apply Nat.ltb_ge; lia); rewrite andb_false_r; cbn [andb].
      destruct (Nat.leb_spec k (length pre + length l1)).
      * nths; destruct (k - length pre) as [|i] eqn:Ek; [lia|]; cbn [nth_error]; nths; f_equal; lia.
      * nths; destruct (k - length pre) as [|i] eqn:Ek; [lia|]; cbn [nth_error]; nths.
        replace (S i - length l1) with (S (i - length l1)) by lia; reflexivity.
Qed.

Lemma inversion_front pre l1 (x : G) l2 : l1 <> [] -> exists mid, Permutation (l1 ++ l2) mid /\ may (mutate Inversion (pre ++ l1 ++ x :: l2)) (pre ++ x :: mid).
Proof.
  intros Hne; assert (Hl : 0 < length l1) by (destruct l1; [contradiction|cbn; lia]); exists (rev l1 ++ l2); split; [apply Permutation_app_tail, Permutation_rev|].
  apply inversion_mutation_reach with (a := length pre) (b := length pre + length l1 + 1); [lia|rewrite !app_length; cbn; lia|].
  intros k; unfold reverse_src; destruct (Nat.lt_ge_cases k (length pre)) as [H|H].
  - replace (length pre <=? k) with false by (symmetry; apply Nat.leb_gt; lia); cbn [andb]; nths; reflexivity.
  - replace (length pre <=? k) with true by (symmetry; apply Nat.leb_le; lia); cbn [andb].
    destruct (Nat.ltb_spec k (length pre + length l1 + 1)).
    + nths; destruct (k - length pre) as [|i] eqn:Ek; cbn [nth_error].
      * replace (length pre + (length pre + length l1 + 1) - 1 - k - length pre) with (length l1) by lia; nths; rewrite Nat.sub_diag; reflexivity.
      * nths; replace (length pre + (length pre + length l1 + 1) - 1 - k - length pre) with (length l1 - S i) by lia; nths.
        rewrite <- (rev_involutive l1) at 2; symmetry.
        rewrite (nth_error_nth' (rev (rev l1)) x) by (rewrite !rev_length; lia).
        rewrite (nth_error_nth' (rev l1) x) by (rewrite rev_length; lia); f_equal.
        rewrite rev_nth by (rewrite rev_length; lia); rewrite rev_length; f_equal; lia.
    + nths; destruct (k - length pre) as [|i] eqn:Ek; [lia|]; cbn [nth_error]; nths; rewrite rev_length.
      replace (S i - length l1) with (S (i - length l1)) by lia; reflexivity.
Qed.

Lemma scramble_once g t : Permutation g t -> 2 <= length g -> may (mutate Scramble g) t.
Proof.
  intros HP H2; apply scramble_mutation_reach with (a := 0) (b := length g); [lia|lia|].
  pose proof (Permutation_length HP) as HL; split; [auto|split].
  - intros k [Hk|Hk]; [lia|]; rewrite (proj2 (nth_error_None g k)), (proj2 (nth_error_None t k)) by lia; reflexivity.
  - unfold segment; rewrite Nat.sub_0_r; cbn [skipn]; rewrite HL at 2; rewrite !firstn_all2 by lia; exact HP.
Qed.

Lemma permutations_connected s g t : s <> Duplicate -> Permutation g t -> exists k, k <= length g - 1 /\ mutated s k g t.
Proof.
  intros Hs HP; destruct s; try contradiction.
  - apply (connected Swap swap_front t [] g HP).
  - destruct (Nat.lt_ge_cases (length g) 2) as [H|H].
    + exists 0; split; [lia|]; pose proof (Permutation_length HP) as HL.
      destruct g as [|x [|? ?]], t as [|y [|? ?]]; cbn in *; try lia; [constructor|].
      apply Permutation_length_1 in HP; subst; constructor.
    + exists 1; split; [lia|]; econstructor; [apply scramble_once; eauto|constructor].
  - apply (connected Inversion inversion_front t [] g HP).
  - apply (connected Insertion insertion_front t [] g HP).
Qed.

Lemma mutated_permutation s k g t : s <> Duplicate -> mutated s k g t -> Permutation g t.
Proof.
  intros Hs H; induction H as [g|k g g1 t H1 H IH]; [reflexivity|].
  pose proof (must_may _ _ _ (mutate_perm_length g s Hs) H1) as [HP _]; rewrite HP; auto.
Qed.

(** ** Duplicate *)

(** Positions filled from positions: [c i] says where the gene at [i] came from. *)
Inductive dreach (n : nat) : nat -> (nat -> nat) -> (nat -> nat) -> Prop :=
| dreach_done c f : (forall i, i < n -> c i = f i) -> dreach n 0 c f
| dreach_step k c f s t : s < n -> t < n -> s <> t ->
    dreach n k (fun i => if i =? t then c s else c i) f -> dreach n (S k) c f.

Lemma remove_len h U : NoDup U -> In h U -> S (length (remove Nat.eq_dec h U)) = length U /\ NoDup (remove Nat.eq_dec h U).
Proof.
  induction U as [|x U IH]; intros HN Hin; [contradiction|]; inversion HN as [|? ? Hx HN']; subst; cbn [remove].
  destruct (Nat.eq_dec h x) as [->|N].
  - rewrite notin_remove by auto; auto.
  - destruct Hin as [->|Hin]; [contradiction|]; destruct (IH HN' Hin) as [HL HD]; cbn [length]; split; [lia|].
    constructor; auto; intros H; apply in_remove in H as [H _]; auto.
Qed.

Lemma pigeon (P : nat -> nat -> Prop) U : NoDup U ->
  (forall h, In h U -> exists j, In j U /\ P h j) -> (forall h1 h2 j, In j U -> P h1 j -> P h2 j -> h1 = h2) ->
  forall j, In j U -> exists h, In h U /\ P h j.
Proof.
  intros HN He Hi.
  assert (HJ : exists J, Forall2 P U J /\ incl J U).
  { assert (Hgen : forall V, incl V U -> exists J, Forall2 P V J /\ incl J U).
    { induction V as [|h V IH]; intros HV; [exists []; split; [constructor|intros x []]|].
      destruct IH as (J & HF & HI); [intros x Hx; apply HV; right; auto|].
      destruct (He h (HV h (or_introl eq_refl))) as (j & Hj & Hp); exists (j :: J); split; [constructor; auto|].
      intros x [<-|Hx]; auto. }
    apply Hgen, incl_refl. }
  destruct HJ as (J & HF & HI).
  assert (Hinv : forall j, In j J -> exists h, In h U /\ P h j).
  { clear -HF; induction HF as [|h j U J Hp HF IH]; [intros j []|]; intros x [<-|Hx]; [exists h; cbn; auto|].
    destruct (IH x Hx) as (h' & Hh & Hp'); exists h'; cbn; auto. }
  assert (HJN : NoDup J).
  { clear Hinv He; assert (Hi' : forall h1 h2 j, In j J -> P h1 j -> P h2 j -> h1 = h2) by (intros h1 h2 j Hj; apply Hi; auto).
    clear Hi HI; induction HF as [|h j U0 J Hp HF IH]; [constructor|].
    inversion HN as [|? ? Hh HN']; subst; constructor; [|apply IH; [exact HN'|]; intros h1 h2 j' Hj'; apply Hi'; right; exact Hj'].
    intros Hj; assert (Hx : exists h', In h' U0 /\ P h' j).
    { clear -HF Hj; induction HF as [|h' j' U J Hp HF IH]; [contradiction|]; destruct Hj as [->|Hj]; [exists h'; cbn; auto|].
      destruct (IH Hj) as (x & Hx & Hp'); exists x; cbn; auto. }
    destruct Hx as (h' & Hh' & Hp'); assert (E : h = h') by (eapply Hi'; [left; reflexivity|exact Hp|exact Hp']); subst; contradiction. }
  assert (Hinc : incl U J) by (apply NoDup_length_incl; auto; rewrite (Forall2_len _ _ _ HF); lia).
  intros j Hj; apply Hinv, Hinc, Hj.
Qed.

Section Fill.
Variables (n : nat) (f : nat -> nat) (a b : nat).
Hypotheses (Ha : a < n) (Hb : b < n) (Hab : a <> b) (Ef : f a = f b).

(** The positions still to fill are [U], besides [b]; whatever they need is somewhere. *)
Definition ready (U : list nat) (c : nat -> nat) : Prop :=
  NoDup U /\ (forall j, In j U -> j < n /\ j <> b) /\
  (forall i, i < n -> i <> b -> ~ In i U -> c i = f i) /\
  (forall j, In j U -> exists q, q < n /\ c q = f j).

Lemma fill_one U c h : ready U c -> In h U -> (forall j, In j U -> exists q, q < n /\ q <> h /\ c q = f j) ->
  exists s, s < n /\ s <> h /\ ready (remove Nat.eq_dec h U) (fun i => if i =? h then c s else c i).
Proof.
  intros (HN & HU & Hd & Hs) Hh HA; destruct (HA h Hh) as (s & Hs1 & Hs2 & Hs3); exists s; split; [auto|split; [auto|]].
  split; [apply remove_len; auto|split; [|split]].
  - intros j Hj; apply in_remove in Hj as [Hj _]; auto.
  - intros i Hi Hib Hn; destruct (Nat.eqb_spec i h) as [->|Nh]; [exact Hs3|].
    apply Hd; auto; intros Hin; apply Hn, in_in_remove; auto.
  - intros j Hj; apply in_remove in Hj as [Hj Njh]; destruct (HA j Hj) as (q & Q1 & Q2 & Q3); exists q; split; [auto|].
    destruct (Nat.eqb_spec q h); [contradiction|exact Q3].
Qed.

Lemma fill m : forall U c, length U = m -> ready U c -> exists k, k <= 2 * m + 1 /\ dreach n k c f.
Proof.
  induction m as [|m IH]; intros U c HL HR.
  - destruct U; [|discriminate]; destruct HR as (_ & _ & Hd & _); exists 1; split; [lia|].
    apply dreach_step with (s := a) (t := b); auto; constructor; intros i Hi.
    destruct (Nat.eqb_spec i b) as [->|N]; [rewrite Hd; auto|apply Hd; auto].
  - set (A := fun h => forallb (fun j => existsb (fun q => negb (q =? h) && (c q =? f j)) (seq 0 n)) U).
    assert (HA : forall h, A h = true -> forall j, In j U -> exists q, q < n /\ q <> h /\ c q = f j).
    { intros h H j Hj; unfold A in H; rewrite forallb_forall in H; specialize (H j Hj); apply existsb_exists in H as (q & Hq & H).
      apply in_seq in Hq; apply andb_prop in H as [H1 H2]; apply negb_true_iff, Nat.eqb_neq in H1; apply Nat.eqb_eq in H2; exists q; repeat split; auto; lia. }
    destruct (existsb A U) eqn:EA.
    + apply existsb_exists in EA as (h & Hh & H); destruct (fill_one U c h HR Hh (HA h H)) as (s & S1 & S2 & HR').
      destruct (remove_len h U (proj1 HR) Hh) as [HL' _].
      destruct (IH (remove Nat.eq_dec h U) _ ltac:(lia) HR') as (k & Hk & HD); exists (S k); split; [lia|].
      apply dreach_step with (s := s) (t := h); auto; apply (proj1 (proj2 HR)); auto.
    + assert (HB : forall h, In h U -> exists j, In j U /\ forall q, q < n -> c q = f j -> q = h).
      { intros h Hh; assert (E : A h = false) by (destruct (A h) eqn:E; auto; rewrite <- EA; symmetry; apply existsb_exists; eauto).
        unfold A in E; clear -E; induction U as [|j U IH]; [discriminate|]; cbn [forallb] in E.
        destruct (existsb _ (seq 0 n)) eqn:Ex; cbn [andb] in E.
        - destruct (IH E) as (j' & Hj' & H); exists j'; cbn; auto.
        - exists j; split; [left; auto|]; intros q Hq Ec; destruct (Nat.eq_dec q h) as [|N]; auto; exfalso.
          rewrite <- Bool.not_true_iff_false in Ex; apply Ex, existsb_exists; exists q; split; [apply in_seq; lia|].
          apply Nat.eqb_neq in N; rewrite N; cbn; apply Nat.eqb_eq; auto. }
      pose proof HR as (HN & HU & Hd & Hs).
      assert (Hfree : forall j, In j U -> c b <> f j).
      { intros j Hj E; destruct (pigeon (fun h j => forall q, q < n -> c q = f j -> q = h) U HN HB) with (j := j) as (h & Hh & H); auto.
        - intros h1 h2 j' Hj' H1 H2; destruct (Hs j' Hj') as (q & Q1 & Q2); rewrite <- (H1 q Q1 Q2); auto.
        - specialize (H b Hb E); subst h; apply (proj2 (HU b Hh)); reflexivity. }
      destruct U as [|i U']; [discriminate|]; set (U := i :: U') in *.
      assert (Hi : In i U) by (left; reflexivity); destruct (HU i Hi) as [Hin Hib].
      set (c1 := fun x => if x =? b then c i else c x).
      assert (HA1 : forall j, In j U -> exists q, q < n /\ q <> i /\ c1 q = f j).
      { intros j Hj; destruct (Hs j Hj) as (q & Q1 & Q2); destruct (Nat.eq_dec q i) as [->|N].
        - exists b; split; [auto|split; [auto|]]; unfold c1; rewrite Nat.eqb_refl; exact Q2.
        - exists q; split; [auto|split; [auto|]]; unfold c1; destruct (Nat.eqb_spec q b) as [->|]; [exfalso; eapply Hfree; eauto|exact Q2]. }
      assert (HR1 : ready U c1).
      { split; [auto|split; [auto|split]].
        - intros x Hx Hxb Hn; unfold c1; destruct (Nat.eqb_spec x b); [contradiction|]; apply Hd; auto.
        - intros j Hj; destruct (HA1 j Hj) as (q & Q1 & _ & Q3); eauto. }
      destruct (fill_one U c1 i HR1 Hi HA1) as (s & S1 & S2 & HR').
      destruct (remove_len i U HN Hi) as [HL' _].
      destruct (IH (remove Nat.eq_dec i U) _ ltac:(lia) HR') as (k & Hk & HD); exists (S (S k)); split; [lia|].
      apply dreach_step with (s := i) (t := b); auto.
      apply dreach_step with (s := s) (t := i); auto.
Qed.
End Fill.

Lemma fill_all n f a b : a < n -> b < n -> a <> b -> f a = f b -> (forall i, i < n -> f i < n) ->
  exists k, k <= 2 * n /\ dreach n k (fun i => i) f.
Proof.
  intros Ha Hb Hab Ef Hf.
  destruct (fill n f a b Ha Hb Hab Ef (n - 1) (remove Nat.eq_dec b (seq 0 n)) (fun i => i)) as (k & Hk & H).
  - destruct (remove_len b (seq 0 n) (seq_NoDup n 0)) as [HL _]; [apply in_seq; lia|]; rewrite seq_length in HL; lia.
  - split; [apply remove_len; [apply seq_NoDup|apply in_seq; lia]|split; [|split]].
    + intros j Hj; apply in_remove in Hj as [Hj N]; apply in_seq in Hj; lia.
    + intros i Hi Nb Hn; exfalso; apply Hn, in_in_remove; [auto|apply in_seq; lia].
    + intros j Hj; apply in_remove in Hj as [Hj _]; apply in_seq in Hj; exists (f j); split; auto; apply Hf; lia.
  - exists k; split; [lia|exact H].
Qed.

(** From positions to genomes *)
Definition filled (g : list G) (c : nat -> nat) (r : list G) : Prop :=
  length r = length g /\ forall i, i < length g -> nth_error r i = nth_error g (c i).

Lemma nth_ext' (l r : list G) : length l = length r -> (forall i, i < length r -> nth_error l i = nth_error r i) -> l = r.
Proof.
  revert r; induction l as [|x l IH]; intros [|y r] HL H; cbn in *; try discriminate; auto.
  pose proof (H 0 ltac:(lia)) as H0; cbn in H0; injection H0 as ->; f_equal; apply IH; [lia|]; intros i Hi; apply (H (S i)); lia.
Qed.

Lemma dreach_mutated k : forall g c f r r', dreach (length g) k c f -> filled g c r -> filled g f r' -> mutated Duplicate k r r'.
Proof.
  intros g c f r r' H; revert r; induction H as [c f H|k c f s t Hs Ht Hst H IH]; intros r [L1 H1] [L2 H2].
  - replace r' with r; [constructor|]; apply nth_ext'; [lia|]; intros i Hi; rewrite H1, H2, H by lia; reflexivity.
  - destruct (nth_error r s) as [x|] eqn:Ex; [|apply nth_error_None in Ex; lia].
    assert (F1 : filled g (fun i => if i =? t then c s else c i) (upd r t x)).
    { split; [rewrite upd_length; auto|]; intros i Hi; destruct (Nat.eqb_spec i t) as [->|N].
      - rewrite nth_error_upd_eq by lia; rewrite <- Ex; apply H1; auto.
      - rewrite nth_error_upd_ne by auto; apply H1; auto. }
    econstructor; [|apply IH; [exact F1|split; auto]].
    cbn [mutate]; apply duplicate_mutation_reach with (s := s) (t := t); [lia|lia|auto|].
    intros i; unfold copy_src; destruct (Nat.eqb_spec i t) as [->|N].
    + rewrite nth_error_upd_eq by lia; auto.
    + rewrite nth_error_upd_ne by auto; auto.
Qed.

Lemma positions_of (g r : list G) : incl r g -> exists fl, Forall2 (fun i x => nth_error g i = Some x) fl r.
Proof.
  induction r as [|x r IH]; intros H; [exists []; constructor|].
  destruct IH as (fl & HF); [intros y Hy; apply H; right; auto|].
  destruct (In_nth_error g x (H x (or_introl eq_refl))) as (i & Hi); exists (i :: fl); constructor; auto.
Qed.

Lemma duplicate_reaches g t : t = g \/ (length t = length g /\ incl t g /\ has_repeat t) -> exists k, k <= 2 * length g /\ mutated Duplicate k g t.
Proof.
  intros [->|(HL & HI & a & b & Hab & Hb & E)]; [exists 0; split; [lia|constructor]|].
  destruct (positions_of g t HI) as (fl & HF); pose proof (Forall2_len _ _ _ HF) as HL'.
  assert (Hf : forall i, i < length t -> nth_error g (nth i fl 0) = nth_error t i).
  { clear -HF; induction HF as [|p x fl t Hp HF IH]; cbn; intros i Hi; [lia|]; destruct i as [|i]; [cbn; auto|]; cbn; apply IH; lia. }
  set (f := fun i => nth (if i =? b then a else i) fl 0).
  assert (Hf' : forall i, i < length g -> nth_error g (f i) = nth_error t i).
  { intros i Hi; unfold f; destruct (Nat.eqb_spec i b) as [->|N]; [rewrite Hf by lia; exact E|apply Hf; lia]. }
  destruct (fill_all (length g) f a b) as (k & Hk & H); try lia.
  - unfold f; rewrite Nat.eqb_refl; destruct (Nat.eqb_spec a b); [lia|reflexivity].
  - intros i Hi; apply nth_error_Some; rewrite Hf' by auto; apply nth_error_Some; lia.
  - exists k; split; [auto|]; apply (dreach_mutated k g (fun i => i) f g t H); [split; auto|].
    split; [auto|]; intros i Hi; symmetry; apply Hf'; auto.
Qed.

Lemma duplicate_only k g t : mutated Duplicate k g t -> t = g \/ (length t = length g /\ incl t g /\ has_repeat t).
Proof.
  intros H; remember Duplicate as s eqn:Es; induction H as [g|k g g1 t H1 H IH]; [auto|]; subst s.
  destruct (Nat.lt_ge_cases (length g) 2) as [Hs|Hs].
  - rewrite (mutate_short Duplicate g Hs) in H1; cbn in H1; subst g1; exact IH.
  - pose proof (must_may _ _ _ (duplicate_mutation_spec g Hs) H1) as (s & t0 & S1 & S2 & S3 & HR); right.
    assert (HL : length g1 = length g).
    { apply Nat.le_antisymm.
      - apply nth_error_None; rewrite (HR (length g)); unfold copy_src; destruct (Nat.eqb_spec (length g) t0); [lia|apply nth_error_None; lia].
      - destruct (Nat.le_gt_cases (length g) (length g1)) as [|Hgt]; auto; exfalso.
        pose proof (HR (length g1)) as E; rewrite (proj2 (nth_error_None g1 (length g1)) (le_n _)) in E; symmetry in E; apply nth_error_None in E.
        unfold copy_src in E; destruct (length g1 =? t0); lia. }
    assert (HI : incl g1 g).
    { intros x Hx; apply In_nth_error in Hx as (i & Hi); rewrite HR in Hi; eapply nth_error_In; exact Hi. }
    destruct IH as [->|(L & Inc & Rep)].
    + split; [auto|split; [auto|]].
      assert (E : nth_error g1 s = nth_error g1 t0).
      { rewrite (HR s), (HR t0); unfold copy_src; rewrite Nat.eqb_refl; destruct (Nat.eqb_spec s t0); [contradiction|reflexivity]. }
      destruct (Nat.lt_ge_cases s t0); [exists s, t0|exists t0, s]; repeat split; auto; lia.
    + split; [lia|split; [|exact Rep]]; intros x Hx; auto.
Qed.
End Connect.


Lemma c108_example :
  mutated Insertion 2 [1; 2; 3; 4] [4; 3; 1; 2] /\ Permutation [1; 2; 3; 4] [4; 3; 1; 2] /\
  length [2; 3; 3] = length [1; 2; 3] /\ incl [2; 3; 3] [1; 2; 3] /\ has_repeat [2; 3; 3].
Proof.
  split; [|split; [|split; [reflexivity|split]]].
  - assert (H1 : may (mutate Insertion [1; 2; 3; 4]) [4; 1; 2; 3]).
    { apply insertion_mutation_reach with (i := 0) (j := 3); cbn; [lia|lia|].
      intros k; do 4 (destruct k as [|k]; [reflexivity|]); unfold move_src; cbn; destruct k; reflexivity. }
    assert (H2 : may (mutate Insertion [4; 1; 2; 3]) [4; 3; 1; 2]).
    { apply insertion_mutation_reach with (i := 1) (j := 3); cbn; [lia|lia|].
      intros k; do 4 (destruct k as [|k]; [reflexivity|]); unfold move_src; cbn; destruct k; reflexivity. }
    exact (mutated_more _ _ _ _ _ H1 (mutated_more _ _ _ _ _ H2 (mutated_none _ _))).
  - apply Permutation_trans with [4; 1; 2; 3]; [apply (Permutation_app_comm [1; 2; 3] [4])|].
    apply perm_skip, (Permutation_app_comm [1; 2] [3]).
  - intros x [<-|[<-|[<-|[]]]]; cbn; auto.
  - exists 1, 2; cbn; auto.
Qed.
