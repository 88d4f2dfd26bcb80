(** * PCrossoverCx: proofs about CX. *)
From Coq Require Import List Bool Arith NArith Lia Permutation.
From Verif Require Import Rnd LRnd MOperators MCrossover Spec POperatorsNeighbors LGenes.
Import ListNotations.

Lemma first_false_some l i : first_false l = Some i ->
  nth_error l i = Some false /\ forall j, j < i -> nth_error l j = Some true.
Proof.
  revert i; induction l as [|b t IH]; cbn; intros i; [discriminate|].
  destruct b; cbn.
  - destruct (first_false t) as [k|]; [|discriminate]; intros [= <-].
    destruct (IH k eq_refl) as [H1 H2]; split; auto; intros [|j] Hj; cbn; auto; apply H2; lia.
  - intros [= <-]; split; auto; intros j Hj; lia.
Qed.

Lemma first_false_none l : first_false l = None -> forall i, i < length l -> nth_error l i = Some true.
Proof.
  induction l as [|b t IH]; cbn; intros H i Hi; [lia|].
  destruct b; cbn in *; [|discriminate].
  destruct (first_false t); [discriminate|]; destruct i as [|i]; cbn; auto; apply IH; auto; lia.
Qed.

(** Number of unvisited positions. *)
Definition unvisited (l : list bool) : nat := length (filter negb l).

Lemma unvisited_upd l i : nth_error l i = Some false -> S (unvisited (upd l i true)) = unvisited l.
Proof.
  revert i; induction l as [|b t IH]; intros [|i]; cbn; try discriminate.
  - intros [= ->]; reflexivity.
  - intros H; specialize (IH i H); unfold unvisited in *; cbn; destruct (negb b); cbn; lia.
Qed.

Lemma unvisited_pos l i : nth_error l i = Some false -> 0 < unvisited l.
Proof. intros H; rewrite <- (unvisited_upd l i H); lia. Qed.

Lemma unvisited_le l : unvisited l <= length l.
Proof. unfold unvisited; induction l as [|b t IH]; cbn; [lia|]; destruct (negb b); cbn; lia. Qed.

Section Cx.
Context {G : Type} (eqb : G -> G -> bool).
Hypothesis Heq : eq_ok eqb.
Variables p1 p2 : list G.
Hypothesis Hnd : NoDup p1.
Hypothesis HP : Permutation p1 p2.

Let Hlen : length p2 = length p1.
Proof. symmetry; apply Permutation_length; auto. Qed.
Let Hnd2 : NoDup p2.
Proof. eapply Permutation_NoDup; eauto. Qed.

Notation link := (cx_link p1 p2).

Lemma link_lt i j : link i j -> i < length p1 /\ j < length p1.
Proof. intros (g & H1 & H2); apply nth_error_some_lt in H1, H2; lia. Qed.

(** The order in which a cycle is followed. *)
Definition follows (fp : bool) (i j : nat) : Prop := if fp then link i j else link j i.

Lemma follows_fun fp i j k : follows fp i j -> follows fp i k -> j = k.
Proof.
  destruct fp; intros (g & H1 & H2) (h & H3 & H4).
  - rewrite H1 in H3; injection H3 as <-; apply (NoDup_nth_inj p2 j k g); auto.
  - rewrite H2 in H4; injection H4 as <-; apply (NoDup_nth_inj p1 j k g); auto.
Qed.

Lemma follows_inj fp i j k : follows fp i k -> follows fp j k -> i = j.
Proof.
  destruct fp; intros (g & H1 & H2) (h & H3 & H4).
  - rewrite H2 in H4; injection H4 as <-; apply (NoDup_nth_inj p1 i j g); auto.
  - rewrite H1 in H3; injection H3 as <-; apply (NoDup_nth_inj p2 i j g); auto.
Qed.

Definition vis (v : list bool) (i : nat) : Prop := nth_error v i = Some true.

Lemma vis_dec v i : vis v i \/ ~ vis v i.
Proof. unfold vis; destruct (nth_error v i) as [[|]|]; [left|right|right]; auto; discriminate. Qed.

Lemma vis_upd v c i : c < length v -> vis (upd v c true) i <-> vis v i \/ i = c.
Proof.
  intros Hc; unfold vis; destruct (Nat.eq_dec c i) as [->|H].
  - rewrite nth_error_upd_eq by auto; tauto.
  - rewrite nth_error_upd_ne by auto; split; auto; intros [H'|H']; auto; congruence.
Qed.

Definition closed (v : list bool) : Prop := forall i j, link i j -> (vis v i <-> vis v j).

Definition par (fp : bool) : list G := if fp then p1 else p2.

(** Invariant while following the cycle that started at [s] with visited set [v0]. *)
Record cinv (fp : bool) (s : nat) (v0 v : list bool) (o0 o : list G) (c : nat) : Prop := {
  ci_lv : length v = length p1;
  ci_lo : length o = length p1;
  ci_c : c < length p1;
  ci_sub : forall i, vis v0 i -> vis v i;
  ci_out : forall i j, follows fp i j -> vis v i -> vis v j \/ j = c;
  ci_in : forall i j, follows fp i j -> vis v j -> vis v i \/ j = s;
  ci_start : c = s \/ exists l, vis v l /\ follows fp l c;
  ci_back : vis v c -> c = s;
  ci_path : forall i, vis v i -> vis v0 i \/ cx_cycle_of p1 p2 s i;
  ci_off : forall i, ~ vis v0 i -> vis v i -> nth_error o i = nth_error (par fp) i;
  ci_keep : forall i, vis v0 i -> nth_error o i = nth_error o0 i;
  ci_end : vis v c -> exists l, vis v l /\ follows fp l c;
  ci_s : c <> s -> vis v s;
  ci_cyc : cx_cycle_of p1 p2 s c
}.

Lemma cycle_snoc i j k : cx_cycle_of p1 p2 i j -> link j k \/ link k j -> cx_cycle_of p1 p2 i k.
Proof.
  induction 1 as [i|i j m H H' IH|i j m H H' IH]; intros Hl.
  - destruct Hl as [Hl|Hl]; [eapply cx_fwd|eapply cx_bwd]; eauto; constructor.
  - eapply cx_fwd; eauto.
  - eapply cx_bwd; eauto.
Qed.

Lemma follows_link fp i j : follows fp i j -> link i j \/ link j i.
Proof. destruct fp; auto. Qed.

Lemma follows_total fp i : i < length p1 -> exists j g, follows fp i j /\ j < length p1 /\
  nth_error (par fp) i = Some g /\ (if fp then find_position eqb g p2 else find_position eqb g p1) = Some j.
Proof.
  intros Hi; destruct fp; cbn.
  - destruct (nth_error_lt p1 i Hi) as [g Hg].
    destruct (find_position_in eqb Heq g p2) as (j & Ej & Hj).
    { eapply Permutation_in; eauto; eapply nth_error_In; eauto. }
    exists j, g; split; [exists g; auto|]; split; [apply nth_error_some_lt in Hj; lia|auto].
  - destruct (nth_error_lt p2 i) as [g Hg]; [lia|].
    destruct (find_position_in eqb Heq g p1) as (j & Ej & Hj).
    { eapply Permutation_in; [symmetry|]; eauto; eapply nth_error_In; eauto. }
    exists j, g; split; [exists g; auto|]; split; [apply nth_error_some_lt in Hj; lia|auto].
Qed.

Lemma cx_cycle_spec fp s v0 o0 fuel v o c :
  cinv fp s v0 v o0 o c -> unvisited v < fuel ->
  must (cx_cycle eqb fuel p1 p2 fp o v c) (fun r =>
    (exists c', cinv fp s v0 (snd r) o0 (fst r) c' /\ vis (snd r) c') /\
    unvisited (snd r) <= unvisited v /\ (~ vis v c -> unvisited (snd r) < unvisited v)).
Proof.
  revert v o c; induction fuel as [|fuel IH]; intros v o c I Hf; [lia|].
  cbn [cx_cycle]; pose proof (ci_c _ _ _ _ _ _ _ I) as Hc.
  destruct (nth_error_lt v c) as [b Hb]; [rewrite (ci_lv _ _ _ _ _ _ _ I); auto|].
  rewrite (idx_some _ _ _ Hb); cbn [bind].
  destruct b; [cbn; split; [exists c; auto|]; split; auto; intros H; exfalso; apply H; auto|].
  rewrite set_ok by (rewrite (ci_lv _ _ _ _ _ _ _ I); auto); cbn [bind].
  destruct (follows_total fp c Hc) as (c' & g & Hfol & Hc' & Hg & Hpos).
  replace (if fp then idx p1 c else idx p2 c) with (Ret g)
    by (destruct fp; symmetry; apply idx_some; exact Hg).
  cbn [bind]; rewrite set_ok by (rewrite (ci_lo _ _ _ _ _ _ _ I); auto); cbn [bind].
  replace (if fp then unwrap (find_position eqb g p2) else unwrap (find_position eqb g p1)) with (Ret c')
    by (destruct fp; cbn in Hpos; rewrite Hpos; reflexivity).
  cbn [bind].
  assert (Lv : c < length v) by (rewrite (ci_lv _ _ _ _ _ _ _ I); auto).
  assert (Nc : ~ vis v c) by (unfold vis; rewrite Hb; discriminate).
  assert (Hback : vis (upd v c true) c' -> c' = s).
  { intros H; apply vis_upd in H as [H|H]; auto.
    - destruct (ci_in _ _ _ _ _ _ _ I c c' Hfol H) as [H'|H']; tauto.
    - subst c'; destruct (ci_start _ _ _ _ _ _ _ I) as [H|(l & Hl & Hlc)]; auto.
      assert (c = l) by (eapply follows_inj; eauto); subst; tauto. }
  eapply must_mono; [|apply IH].
  - intros [o' v'] (Hex & Hle & _); cbn [fst snd] in *; split; auto.
    pose proof (unvisited_upd v c Hb); split; [|intros _]; lia.
  - constructor.
    + rewrite upd_length; apply (ci_lv _ _ _ _ _ _ _ I).
    + rewrite upd_length; apply (ci_lo _ _ _ _ _ _ _ I).
    + auto.
    + intros i Hi; apply vis_upd; auto; left; apply (ci_sub _ _ _ _ _ _ _ I); auto.
    + intros i j Hij Hi; apply vis_upd in Hi as [Hi|Hi]; auto.
      * left; apply vis_upd; auto; apply (ci_out _ _ _ _ _ _ _ I i j); auto.
      * subst i; right; eapply follows_fun; eauto.
    + intros i j Hij Hj; apply vis_upd in Hj as [Hj|Hj]; auto.
      * destruct (ci_in _ _ _ _ _ _ _ I i j Hij Hj); auto; left; apply vis_upd; auto.
      * subst j; destruct (ci_start _ _ _ _ _ _ _ I) as [H|(l & Hl & Hlc)]; auto.
        left; apply vis_upd; auto; left; assert (i = l) by (eapply follows_inj; eauto); subst; auto.
    + right; exists c; split; auto; apply vis_upd; auto.
    + auto.
    + intros i Hi; apply vis_upd in Hi as [Hi|Hi]; auto; [apply (ci_path _ _ _ _ _ _ _ I); auto|].
      subst i; right; apply (ci_cyc _ _ _ _ _ _ _ I).
    + intros i H0 Hi; destruct (Nat.eq_dec c i) as [->|Hci].
      * rewrite nth_error_upd_eq by (rewrite (ci_lo _ _ _ _ _ _ _ I); auto); auto.
      * rewrite nth_error_upd_ne by auto; apply (ci_off _ _ _ _ _ _ _ I); auto.
        apply vis_upd in Hi as [Hi|Hi]; auto; congruence.
    + intros i Hi; rewrite nth_error_upd_ne; [apply (ci_keep _ _ _ _ _ _ _ I); auto|].
      intros ->; apply Nc, (ci_sub _ _ _ _ _ _ _ I); auto.
    + intros _; exists c; split; auto; apply vis_upd; auto.
    + intros Hcs; apply vis_upd; auto.
      destruct (Nat.eq_dec c s) as [->|H]; auto; left; apply (ci_s _ _ _ _ _ _ _ I); auto.
    + eapply cycle_snoc; [apply (ci_cyc _ _ _ _ _ _ _ I)|eapply follows_link; eauto].
  - pose proof (unvisited_upd v c Hb); lia.
Qed.

Lemma cycle_closed v i j : closed v -> cx_cycle_of p1 p2 i j -> (vis v i <-> vis v j).
Proof.
  intros Hc; induction 1 as [i|i j k H H' IH|i j k H H' IH]; [tauto| |]; rewrite <- IH.
  - apply Hc; auto.
  - symmetry; apply Hc; auto.
Qed.

Lemma cycle_sym i j : cx_cycle_of p1 p2 i j -> cx_cycle_of p1 p2 j i.
Proof.
  induction 1 as [i|i j k H H' IH|i j k H H' IH]; [constructor| |]; eapply cycle_snoc; eauto.
Qed.

(** One whole cycle. *)
Lemma cx_one_cycle fp s v o fuel :
  length v = length p1 -> length o = length p1 -> s < length p1 -> closed v -> ~ vis v s ->
  unvisited v < fuel ->
  must (cx_cycle eqb fuel p1 p2 fp o v s) (fun r =>
    length (snd r) = length p1 /\ length (fst r) = length p1 /\ closed (snd r) /\
    (forall i, vis (snd r) i <-> vis v i \/ cx_cycle_of p1 p2 s i) /\
    (forall i, vis v i -> nth_error (fst r) i = nth_error o i) /\
    (forall i, vis (snd r) i -> ~ vis v i -> nth_error (fst r) i = nth_error (par fp) i) /\
    unvisited (snd r) < unvisited v).
Proof.
  intros Hlv Hlo Hs Hc Hv Hf.
  eapply must_mono; [|apply (cx_cycle_spec fp s v o fuel v o s); [constructor|auto]].
  - intros [o' v'] ((c' & I & Hc') & _ & Hlt); cbn [fst snd] in *.
    pose proof (ci_back _ _ _ _ _ _ _ I Hc') as E; subst c'.
    assert (Hcl : closed v').
    { assert (Hfw : forall i j, follows fp i j -> vis v' i <-> vis v' j).
      { intros i j Hij; split; intros H.
        - destruct (ci_out _ _ _ _ _ _ _ I i j Hij H); subst; auto.
        - destruct (ci_in _ _ _ _ _ _ _ I i j Hij H) as [H'|H']; auto; subst j.
          destruct (ci_end _ _ _ _ _ _ _ I Hc') as (l & Hl & Hls).
          assert (i = l) by (eapply follows_inj; eauto); subst; auto. }
      intros i j Hij; destruct fp; [apply Hfw; auto|symmetry; apply Hfw; auto]. }
    split; [apply (ci_lv _ _ _ _ _ _ _ I)|]; split; [apply (ci_lo _ _ _ _ _ _ _ I)|]; split; auto.
    split; [|split; [apply (ci_keep _ _ _ _ _ _ _ I)|split; auto]].
    + intros i; split; [apply (ci_path _ _ _ _ _ _ _ I)|].
      intros [H|H]; [apply (ci_sub _ _ _ _ _ _ _ I); auto|apply (cycle_closed v' s i); auto].
    + intros i H1 H2; apply (ci_off _ _ _ _ _ _ _ I); auto.
  - auto.
  - auto.
  - auto.
  - auto.
  - intros i j Hij Hi; left; destruct fp; apply (Hc _ _ Hij); auto.
  - intros i j Hij Hj; left; destruct fp; apply (Hc _ _ Hij); auto.
  - auto.
  - auto.
  - auto.
  - tauto.
  - auto.
  - tauto.
  - tauto.
  - constructor.
Qed.

(** What CX must return: a choice of parent per position. *)
Definition cx_result (o : list G) (ch : nat -> bool) : Prop :=
  length o = length p1 /\
  (forall i, i < length p1 -> nth_error o i = nth_error (if ch i then p1 else p2) i) /\
  ch 0 = true /\
  (forall i j, link i j -> ch i = ch j) /\
  (forall i j, cx_leader p1 p2 i -> cx_leader p1 p2 j -> i < j ->
     (forall k, i < k < j -> ~ cx_leader p1 p2 k) -> ch j = negb (ch i)).

Record oinv (fp : bool) (v : list bool) (o : list G) (s : nat) (ch : nat -> bool) : Prop := {
  oi_lv : length v = length p1;
  oi_lo : length o = length p1;
  oi_s : s < length p1;
  oi_cl : closed v;
  oi_lt : forall i, i < s -> vis v i;
  oi_ns : ~ vis v s;
  oi_off : forall i, vis v i -> nth_error o i = nth_error (par (ch i)) i;
  oi_link : forall i j, link i j -> vis v i -> ch i = ch j;
  oi_alt : forall i j, cx_leader p1 p2 i -> cx_leader p1 p2 j -> vis v i -> vis v j -> i < j ->
     (forall k, i < k < j -> ~ cx_leader p1 p2 k) -> ch j = negb (ch i);
  oi_lead : forall i, cx_leader p1 p2 i -> vis v i -> i < s;
  oi_last : forall l, cx_leader p1 p2 l -> vis v l -> (forall k, cx_leader p1 p2 k -> vis v k -> k <= l) -> fp = negb (ch l);
  oi_zero : vis v 0 -> ch 0 = true;
  oi_first : s = 0 -> fp = true
}.

Lemma cx_loop_spec fuel fp v o s ch :
  oinv fp v o s ch -> unvisited v < fuel ->
  must (cx_loop eqb fuel p1 p2 fp o v s) (fun r => exists ch, cx_result r ch).
Proof.
  revert fp v o s ch; induction fuel as [|fuel IH]; intros fp v o s ch I Hf; [lia|].
  destruct I as [Ilv Ilo Is Icl Ilt Ins Ioff Ilink Ialt Ilead Ilast Izero Ifirst].
  cbn [cx_loop]; rewrite (proj2 (Nat.ltb_lt _ _)) by auto.
  apply must_bind; eapply must_mono; [|apply (cx_one_cycle fp s v o); auto].
  2: { pose proof (unvisited_le v); lia. }
  intros [o' v'] (Hlv & Hlo & Hcl & Hv' & Hkeep & Hnew & Hun); cbn [fst snd] in *.
  set (ch' := fun i => match nth_error v i with Some true => ch i | _ => fp end).
  assert (Cv : forall i, vis v i -> ch' i = ch i) by (intros i Hi; unfold ch'; unfold vis in Hi; rewrite Hi; auto).
  assert (Cn : forall i, ~ vis v i -> ch' i = fp).
  { intros i Hi; unfold ch'; unfold vis in Hi; destruct (nth_error v i) as [[|]|]; tauto. }
  assert (Sl : cx_leader p1 p2 s).
  { split; auto; intros j Hj; destruct (Nat.le_gt_cases s j) as [|Hlt]; auto.
    exfalso; apply Ins, (cycle_closed v s j); auto. }
  assert (Nl : forall i, cx_leader p1 p2 i -> vis v' i -> ~ vis v i -> i = s).
  { intros i [_ Hi] H1 H2; apply Hv' in H1 as [H1|H1]; [tauto|].
    pose proof (Hi s (cycle_sym _ _ H1)); pose proof (proj2 Sl i H1); lia. }
  assert (Voff : forall i, vis v' i -> nth_error o' i = nth_error (par (ch' i)) i).
  { intros i Hi; destruct (vis_dec v i) as [H|H].
    - rewrite Cv, Hkeep by auto; auto.
    - rewrite Cn by auto; auto. }
  assert (Vlink : forall i j, link i j -> vis v' i -> ch' i = ch' j).
  { intros i j Hij Hi; destruct (vis_dec v i) as [H|H].
    - rewrite !Cv; auto; apply (Icl i j); auto.
    - rewrite !Cn; auto; intros H'; apply H, (Icl i j); auto. }
  assert (Valt : forall i j, cx_leader p1 p2 i -> cx_leader p1 p2 j -> vis v' i -> vis v' j -> i < j ->
     (forall k, i < k < j -> ~ cx_leader p1 p2 k) -> ch' j = negb (ch' i)).
  { intros i j Li Lj Vi Vj Hij Hbet.
    destruct (vis_dec v j) as [Hj|Hj].
    - destruct (vis_dec v i) as [Hi|Hi]; [rewrite !Cv by auto; auto|].
      assert (i = s) by auto; subst i; pose proof (Ilead j Lj Hj); lia.
    - assert (j = s) by auto; subst j.
      assert (Hi : vis v i) by (apply Ilt; auto).
      rewrite (Cn s), (Cv i) by auto; apply Ilast; auto.
      intros k Lk Vk; destruct (Nat.le_gt_cases k i) as [|Hki]; auto.
      exfalso; apply (Hbet k); auto. }
  assert (Vzero : vis v' 0 -> ch' 0 = true).
  { intros _; destruct (vis_dec v 0) as [H|H]; [rewrite Cv; auto|rewrite Cn; auto].
    apply Ifirst; destruct s as [|s]; auto; exfalso; apply H, Ilt; lia. }
  destruct (first_false v') as [s'|] eqn:E.
  - apply first_false_some in E as [E1 E2].
    assert (Ns : ~ vis v' s') by (unfold vis; rewrite E1; discriminate).
    assert (Hss : s < s').
    { destruct (Nat.lt_ge_cases s s') as [|H]; auto.
      destruct (Nat.eq_dec s' s) as [->|H'].
      - exfalso; apply Ns, Hv'; right; constructor.
      - exfalso; apply Ns, Hv'; left; apply Ilt; lia. }
    apply (IH (negb fp) v' o' s' ch'); [constructor|lia]; auto.
    + apply nth_error_some_lt in E1; lia.
    + intros i Li Vi; destruct (Nat.lt_ge_cases i s') as [|H]; auto.
      destruct (vis_dec v i) as [H'|H'].
      * pose proof (Ilead i Li H'); lia.
      * assert (i = s) by auto; lia.
    + intros l Ll Vl Hmax.
      assert (Vs : vis v' s) by (apply Hv'; right; constructor).
      pose proof (Hmax s Sl Vs).
      destruct (vis_dec v l) as [H'|H'].
      * pose proof (Ilead l Ll H'); lia.
      * rewrite Cn; auto.
    + intros; lia.
  - cbn; exists ch'.
    assert (All : forall i, i < length p1 -> vis v' i) by (intros i Hi; apply first_false_none; auto; lia).
    split; auto; split; [intros i Hi; apply Voff; auto|]; split; [apply Vzero, All; lia|]; split.
    + intros i j Hij; apply Vlink; auto; apply All; apply link_lt in Hij; tauto.
    + intros i j Li Lj Hij Hb; apply Valt; auto; apply All; [apply Li|apply Lj].
Qed.

Lemma cx_result_perm o ch : cx_result o ch -> Permutation p1 o.
Proof.
  intros (Hl & Hat & _ & Hlink & _); apply incl_Permutation; auto.
  - apply NoDup_nth_error; intros i j Hi E; rewrite Hl in Hi.
    destruct (nth_error_lt o i) as [x Hx]; [lia|]; rewrite Hx in E; symmetry in E.
    pose proof (nth_error_some_lt _ _ _ E) as Hj; rewrite Hl in Hj.
    rewrite Hat in Hx, E by auto.
    destruct (ch i) eqn:Ei; destruct (ch j) eqn:Ej.
    + apply (NoDup_nth_inj p1 i j x); auto.
    + assert (Hk : link i j) by (exists x; auto); apply Hlink in Hk; congruence.
    + assert (Hk : link j i) by (exists x; auto); apply Hlink in Hk; congruence.
    + apply (NoDup_nth_inj p2 i j x); auto.
  - intros x Hx; apply In_nth_error in Hx as [i Hi].
    pose proof (nth_error_some_lt _ _ _ Hi) as Hlt; rewrite Hat in Hi by lia.
    destruct (ch i); apply nth_error_In in Hi; auto.
    eapply Permutation_in; [symmetry; exact HP|auto].
Qed.

Lemma cx_spec :
  must (cycle_crossover eqb p1 p2) (fun r => Permutation p1 r /\ exists ch, cx_result r ch).
Proof.
  enough (H : must (cycle_crossover eqb p1 p2) (fun r => exists ch, cx_result r ch)).
  { eapply must_mono; [|exact H]; intros r [ch Hr]; split; [exact (cx_result_perm r ch Hr)|exists ch; auto]. }
  unfold cycle_crossover.
  rewrite <- Hlen, Nat.eqb_refl; cbn [massert bind]; rewrite Hlen.
  destruct (Nat.ltb_spec (length p1) 2) as [H|H].
  - cbn; exists (fun _ => true); split; auto; split; auto; split; auto; split; auto.
    intros i j [Hi _] [Hj _] Hij; lia.
  - destruct (nth_error_lt p1 0) as [g0 Hg0]; [lia|].
    rewrite (idx_some _ _ _ Hg0); cbn [bind].
    assert (Nv : forall i, ~ vis (repeat false (length p1)) i).
    { intros i Hi; unfold vis in Hi; apply nth_error_In, repeat_spec in Hi; discriminate. }
    apply (cx_loop_spec (S (length p1)) true (repeat false (length p1)) _ 0 (fun _ => true)).
    + constructor; auto; try (intros; exfalso; eapply Nv; eauto; fail).
      * apply repeat_length.
      * apply repeat_length.
      * lia.
      * intros i j _; split; intros Hi; exfalso; eapply Nv; eauto.
      * intros; lia.
    + pose proof (unvisited_le (repeat false (length p1))); rewrite repeat_length in *; lia.
Qed.

End Cx.

Lemma cx_same {G} (eqb : G -> G -> bool) (p : list G) :
  eq_ok eqb -> NoDup p -> must (cycle_crossover eqb p p) (fun r => r = p).
Proof.
  intros Heq Hnd; eapply must_mono; [|apply (cx_spec eqb Heq p p Hnd (Permutation_refl p))].
  intros r (_ & ch & Hl & Hat & _); apply list_ext; intros i.
  destruct (Nat.lt_ge_cases i (length p)) as [Hi|Hi].
  - rewrite Hat by auto; destruct (ch i); auto.
  - rewrite !(proj2 (nth_error_None _ _)); auto; lia.
Qed.
