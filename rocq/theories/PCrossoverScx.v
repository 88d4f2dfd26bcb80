(** * PCrossoverScx: proofs about SCX. *)
From Coq Require Import List Bool Arith NArith Lia Permutation.
From Verif Require Import Rnd LRnd MOperators MCrossover Spec POperatorsNeighbors LGenes.
Import ListNotations.

Lemma scx_rule_ext {G} (p1 p2 u u' : list G) c x :
  (forall y, In y u <-> In y u') -> scx_rule p1 p2 u c x -> scx_rule p1 p2 u' c x.
Proof.
  intros H (n1 & n2 & H1 & H2 & HR); exists n1, n2; split; auto; split; auto.
  rewrite <- !H; destruct HR as [(Ha & Hb & Hc)|HR]; auto.
  left; split; auto; split; auto; eapply first_not_in_ext; eauto.
Qed.

Section Scx.
Context {G : Type} (eqb : G -> G -> bool).
Hypothesis Heq : eq_ok eqb.
Variables p1 p2 : list G.
Hypothesis Hnd : NoDup p1.
Hypothesis HP : Permutation p1 p2.

Let Hlen : length p2 = length p1.
Proof. symmetry; apply Permutation_length; auto. Qed.

Lemma scx_next_spec used cur :
  In cur used -> incl used p1 -> length used < length p1 ->
  must (scx_next eqb p1 p2 used cur) (fun nx => ~ In nx used /\ In nx p1 /\ scx_rule p1 p2 used cur nx).
Proof.
  intros Hc Hincl Hl; unfold scx_next.
  assert (Hc1 : In cur p1) by auto.
  assert (Hc2 : In cur p2) by (eapply Permutation_in; eauto).
  destruct (find_position_in eqb Heq cur p1 Hc1) as (i1 & E1 & N1); rewrite E1; cbn [unwrap bind].
  destruct (find_position_in eqb Heq cur p2 Hc2) as (i2 & E2 & N2); rewrite E2; cbn [unwrap bind].
  pose proof (nth_error_some_lt _ _ _ N1) as L1; pose proof (nth_error_some_lt _ _ _ N2) as L2.
  destruct (nth_error_lt p1 (succ_pos (length p1) i1)) as [n1 M1]; [apply succ_pos_lt; auto|].
  destruct (nth_error_lt p2 (succ_pos (length p1) i2)) as [n2 M2]; [rewrite Hlen; apply succ_pos_lt; lia|].
  rewrite (idx_some _ _ _ M1), (idx_some _ _ _ M2); cbn [bind].
  assert (C1 : cyc_next p1 cur n1) by (eapply cyc_next_pos; eauto).
  assert (C2 : cyc_next p2 cur n2) by (eapply cyc_next_pos; eauto; rewrite Hlen; auto).
  assert (I1 : In n1 p1) by (eapply nth_error_In; eauto).
  assert (I2 : In n2 p2) by (eapply nth_error_In; eauto).
  assert (I2' : In n2 p1) by (eapply Permutation_in; [symmetry|]; eauto).
  destruct (mem eqb n1 used) eqn:V1; destruct (mem eqb n2 used) eqn:V2; cbn [andb];
  (apply (mem_In eqb Heq) in V1 || apply (mem_notIn eqb Heq) in V1);
  (apply (mem_In eqb Heq) in V2 || apply (mem_notIn eqb Heq) in V2).
  - destruct (first_unvisited_exists eqb Heq p1 used Hnd Hl) as [x Hx]; rewrite Hx; cbn.
    apply (find_first_not_in eqb Heq) in Hx.
    pose proof Hx as (l1 & l2 & El & Hx1 & _); split; auto; split.
    + rewrite El; apply in_or_app; right; left; auto.
    + exists n1, n2; split; auto; split; auto.
  - cbn; split; auto; split; auto; exists n1, n2; split; auto; split; auto.
  - cbn; split; auto; split; auto; exists n1, n2; split; auto; split; auto 6.
  - destruct (find_position_in eqb Heq n1 p2) as (k1 & F1 & K1); [eapply Permutation_in; eauto|].
    destruct (find_position_in eqb Heq n2 p1) as (k2 & F2 & K2); [auto|].
    rewrite F1, F2; cbn [unwrap bind must].
    split; [destruct (k1 <? k2); auto|].
    split; [destruct (k1 <? k2); auto|].
    exists n1, n2; split; auto; split; auto; right; right; right; split; auto; split; auto.
    exists k1, k2; auto.
Qed.

Lemma scx_loop_spec k visited cur :
  incl (cur :: visited) p1 -> NoDup (cur :: visited) -> k + length (cur :: visited) <= length p1 ->
  must (scx_loop eqb p1 p2 k visited cur) (fun rest =>
    length rest = k /\ incl rest p1 /\ NoDup (cur :: rest) /\
    (forall x, In x (cur :: rest) -> ~ In x visited) /\
    forall i c x, nth_error (cur :: rest) i = Some c -> nth_error rest i = Some x ->
      scx_rule p1 p2 (visited ++ firstn (S i) (cur :: rest)) c x).
Proof.
  revert visited cur; induction k as [|k IH]; intros visited cur Hi Hn Hk.
  - cbn [scx_loop must]; split; auto; split; [intros x []|]; split; [repeat constructor; auto|]; split.
    + intros x [<-|[]]; inversion Hn; auto.
    + intros i c x _ H; destruct i; discriminate.
  - cbn [scx_loop]; apply must_bind; eapply must_mono; [|apply scx_next_spec].
    + intros nx (Hu & Hin & Hr); apply must_bind; eapply must_mono; [|apply IH].
      * intros rest (Hl & Hinc & Hnd' & Hdis & Hrule); cbn [must].
        split; [cbn; auto|]; split; [intros x [<-|Hx]; auto|]; split; [|split].
        -- constructor; auto; intros H; apply (Hdis cur); auto; left; auto.
        -- intros x [<-|Hx]; [inversion Hn; auto|]. intros Hv; apply (Hdis x); auto; right; auto.
        -- intros [|i] c x Hc Hx.
           ++ cbn in Hc, Hx; injection Hc as <-; injection Hx as <-.
              eapply scx_rule_ext; [|exact Hr]; intros y; rewrite in_app_iff; cbn; tauto.
           ++ cbn [nth_error] in Hc, Hx; eapply scx_rule_ext; [|apply (Hrule i c x); auto].
              intros y; cbn [firstn]; rewrite !in_app_iff; cbn [In]; tauto.
      * intros x [<-|Hx]; auto.
      * constructor; auto.
      * cbn in *; lia.
    + left; auto.
    + auto.
    + cbn in *; lia.
Qed.

Lemma scx_spec pivot :
  In pivot p1 ->
  must (sequential_constructive_crossover eqb p1 p2 pivot) (fun r =>
    Permutation p1 r /\ hd_error r = Some pivot /\
    forall i c x, nth_error r i = Some c -> nth_error r (S i) = Some x ->
      scx_rule p1 p2 (firstn (S i) r) c x).
Proof.
  intros Hp; unfold sequential_constructive_crossover.
  rewrite <- Hlen, Nat.eqb_refl; cbn [massert bind]; rewrite Hlen.
  destruct (Nat.ltb_spec (length p1) 2) as [H|H].
  - destruct p1 as [|y [|z t]]; cbn in Hp, H; [tauto| |lia].
    destruct Hp as [<-|[]]; cbn; split; auto; split; auto.
    intros i c x _ Hx; destruct i; discriminate.
  - apply must_bind; eapply must_mono; [|apply scx_loop_spec].
    + intros rest (Hl & Hinc & Hnd' & _ & Hrule); cbn [must]; split; [|split; [reflexivity|]].
      * apply incl_Permutation; auto; [|cbn; lia]. intros x [<-|Hx]; auto.
      * intros i c x Hc Hx; apply (Hrule i c x); auto.
    + intros x [<-|[]]; auto.
    + repeat constructor; auto.
    + cbn; lia.
Qed.

End Scx.

Lemma scx_bad_pivot {G} (eqb : G -> G -> bool) p1 p2 pivot :
  eq_ok eqb -> length p1 = length p2 -> 2 <= length p1 -> ~ In pivot p1 ->
  must_fail (sequential_constructive_crossover eqb p1 p2 pivot) Panic.
Proof.
  intros Heq Hl H2 Hp; unfold sequential_constructive_crossover.
  rewrite Hl, Nat.eqb_refl; cbn [massert bind]; rewrite <- Hl.
  rewrite (proj2 (Nat.ltb_ge _ _)) by auto.
  destruct (length p1 - 1) as [|k] eqn:E; [lia|].
  apply must_fail_bind_l; cbn [scx_loop]; apply must_fail_bind_l.
  unfold scx_next; rewrite (proj2 (find_position_none eqb Heq pivot p1) Hp); reflexivity.
Qed.
