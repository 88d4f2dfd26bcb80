(** * PBreed: the outcomes of breed, exactly (C94). *)
From Coq Require Import List Bool Arith NArith ZArith Reals Lia Lra.
From Flocq Require Import Core BinarySingleNaN.
From Verif Require Import Rnd LRnd F64 LF64 MStats MPopulation MSelection MModel SpecF SpecB PLinear PSelection PModel PReach ExF ExM.
Import ListNotations.

Lemma happens r : (exists u, may gen_f64 u /\ flt u r = true) <-> can_happen r.
Proof.
  unfold can_happen; split.
  - intros (u & (i & Hi & E) & H); cbn in E; subst u.
    destruct (flt f0 r) eqn:F; auto; rewrite unit_not_below in H by auto; discriminate.
  - intros H; exists (f_unit 0); split; [apply gen_f64_may; reflexivity|].
    apply flt_spec in H as (_ & N & K); apply flt_spec.
    destruct (f_unit_val 0 ltac:(reflexivity)) as [F0 V0].
    split; [apply finite_not_nan; auto|]; split; [exact N|]; rewrite key_finite, V0 by auto.
    change (key f0) with 0%R in K; cbn [Z.of_N]; lra.
Qed.

Lemma skipped r : (exists u, may gen_f64 u /\ flt u r = false) <-> can_be_skipped r.
Proof.
  unfold can_be_skipped; split.
  - intros (u & (i & Hi & E) & H); cbn in E; subst u.
    destruct (fge r f1) eqn:F; auto; exfalso.
    apply fge_spec in F as (N & _ & K).
    enough (flt (f_unit i) r = true) by congruence.
    destruct (f_unit_val i Hi) as [Fi _]; pose proof (f_unit_bound i Hi) as B.
    apply flt_spec; split; [apply finite_not_nan; auto|]; split; auto; rewrite key_finite by auto.
    assert (E1 : key f1 = 1%R) by (rewrite key_finite by reflexivity; exact (proj2 f1_val)).
    pose proof (bpow_gt_0 radix2 (-53)); lra.
  - intros H; exists largest_draw; split; [apply gen_f64_may; reflexivity|].
    destruct u_max_val as [Fu Vu].
    destruct (is_nan r) eqn:N.
    { destruct (flt largest_draw r) eqn:E; auto; apply flt_spec in E as (_ & E & _); congruence. }
    apply flt_false; [apply finite_not_nan; auto|auto|]; rewrite (key_finite largest_draw), Vu by auto.
    assert (K : (key r < 1)%R).
    { apply Rnot_le_lt; intros K; enough (fge r f1 = true) by congruence; apply fge_spec; repeat split; auto.
      rewrite key_finite by reflexivity; rewrite (proj2 f1_val); auto. }
    destruct (is_finite r) eqn:F; [rewrite key_finite in * by auto; apply below_one; auto|].
    pose proof big_pos; pose proof (B2R_bound f1) as B1; rewrite (proj2 f1_val) in B1.
    pose proof (bpow_gt_0 radix2 (-53)); pose proof (f_unit_bound 0 ltac:(reflexivity)).
    destruct r as [sg|[|]| |sg m e Hr]; cbn in F, N, K |- *; try discriminate; lra.
Qed.

Section Breed.
Context {I : Type} (io : individual_ops I) (fexp : f64 -> f64) {MS : Type} (mdl : model I MS).

Lemma distinct_some s p n a r : may (select_distinct io fexp s p (S n) a) (Some r) <->
  may (select io fexp s p) r /\ ieq io (snd r) a = false.
Proof.
  split.
  - revert r; induction n as [|n IH]; intros [i c] H.
    + cbn [select_distinct] in H; apply may_bind in H as ([i' c'] & H1 & H).
      destruct (ieq io c' a) eqn:E; cbn in H; [discriminate|injection H as <- <-; auto].
    + cbn [select_distinct] in H; apply may_bind in H as ([i' c'] & H1 & H).
      destruct (ieq io c' a) eqn:E; cbn [negb] in H; [apply IH; exact H|cbn in H; injection H as <- <-; auto].
  - destruct r as [i c]; cbn [snd]; intros [H E]; cbn [select_distinct]; apply may_bind; exists (i, c); split; auto.
    rewrite E; reflexivity.
Qed.

Lemma distinct_none s p n a : may (select_distinct io fexp s p (S n) a) None <->
  exists i c, may (select io fexp s p) (i, c) /\ ieq io c a = true.
Proof.
  split.
  - cbn [select_distinct]; intros H; apply may_bind in H as ([i' c'] & H1 & H).
    destruct (ieq io c' a) eqn:E; [eauto|cbn in H; discriminate].
  - intros (i & c & H & E); induction n as [|n IH]; cbn [select_distinct]; apply may_bind; exists (i, c); split; auto;
      rewrite E; cbn [negb]; [reflexivity|exact IH].
Qed.

Lemma parent2_iff p b a second : may (breed_parent2 io fexp p b a) second <-> second_parent io fexp p b a second.
Proof.
  unfold breed_parent2; destruct (Nat.ltb_spec 1 (length (individuals p))) as [L|L].
  - split.
    + intros H; apply may_bind in H as (u & Hu & H).
      destruct (flt u (crossover_rate b)) eqn:E.
      * apply may_bind in H as (o & Ho & H); cbn in H; subst second; destruct o as [[i c]|]; cbn [option_map snd second_parent].
        -- apply (distinct_some _ _ 2) in Ho as [Ho D]; cbn [snd] in D; split; [auto|split; [|split; eauto]].
           apply happens; eauto.
        -- apply (distinct_none _ _ 2) in Ho; auto.
      * cbn in H; subst second; right; left; apply skipped; eauto.
    + intros H; apply may_bind; destruct second as [c|]; cbn [second_parent] in H.
      * destruct H as (_ & Hc & D & i & Hi); apply happens in Hc as (u & Hu & E); exists u; split; auto; rewrite E.
        apply may_bind; exists (Some (i, c)); split; [apply (distinct_some _ _ 2); auto|reflexivity].
      * destruct H as [H|[H|H]]; [lia| |].
        -- apply skipped in H as (u & Hu & E); exists u; split; auto; rewrite E; reflexivity.
        -- destruct (flt f0 (crossover_rate b)) eqn:F.
           ++ apply happens in F as (u & Hu & E); exists u; split; auto; rewrite E.
              apply may_bind; exists None; split; [apply (distinct_none _ _ 2); auto|reflexivity].
           ++ exists (f_unit 0); split; [apply gen_f64_may; reflexivity|].
              rewrite unit_not_below by (auto; reflexivity); reflexivity.
  - cbn [may]; split; [intros <-; left; auto|]; destruct second as [c|]; cbn [second_parent]; [intros [H _]; lia|auto].
Qed.

Lemma breed_from_iff ms p b a second x :
  may (breed_from io mdl ms p b a second) x <-> offspring_of io mdl ms p b a second x.
Proof.
  unfold breed_from, offspring_of; cbv zeta.
  set (f0 := match second with Some q => if fgt (fitness io q) (fitness io a) then q else a | None => a end).
  assert (Hf : forall f, rival io a second f <-> f = f0).
  { intros f; unfold rival, f0; destruct second as [c|]; [|tauto].
    destruct (fgt (fitness io c) (fitness io a)); split; [intros [[_ ->]|[H _]]; congruence|auto|intros [[H _]|[_ ->]]; congruence|auto]. }
  clearbody f0; split.
  - intros H; apply may_bind in H as (child & H1 & H); apply may_bind in H as (u & Hu & H).
    apply may_bind in H as (mutant & H2 & H); apply may_bind in H as (improved & H3 & H).
    apply may_bind in H as (ev & H4 & H); apply may_bind in H as (sv & H5 & H); cbn in H; subst x.
    exists child, mutant, improved, ev, f0; split; [destruct second; [auto|symmetry; exact H1]|].
    split; [|split; auto; split; auto; split; [apply Hf; auto|]].
    + destruct (flt u (mutation_rate b)) eqn:E; [left; split; auto; apply happens; eauto|right; split; [apply skipped; eauto|symmetry; exact H2]].
    + destruct (is_valid io ev) eqn:V.
      * destruct sv; [left; auto|right; auto].
      * cbn in H5; subst sv; right; auto.
  - intros (child & mutant & improved & ev & f & H1 & H2 & H3 & H4 & HF & H); apply Hf in HF; subst f.
    apply may_bind; exists child; split; [destruct second; [auto|symmetry; exact H1]|].
    apply may_bind.
    assert (Hu : exists u, may gen_f64 u /\ may (if flt u (mutation_rate b) then m_mutate mdl ms child else Ret child) mutant).
    { destruct H2 as [[C H2]|[C ->]].
      - apply happens in C as (u & Hu & E); exists u; rewrite E; auto.
      - apply skipped in C as (u & Hu & E); exists u; rewrite E; split; [auto|reflexivity]. }
    destruct Hu as (u & Hu & H2'); exists u; split; auto.
    apply may_bind; exists mutant; split; auto; apply may_bind; exists improved; split; auto.
    apply may_bind; exists ev; split; auto; apply may_bind.
    destruct H as [(-> & V & S)|(-> & [V|S])].
    + exists true; rewrite V; split; [auto|reflexivity].
    + exists false; rewrite V; split; reflexivity.
    + exists false; split; [destruct (is_valid io ev); [auto|reflexivity]|reflexivity].
Qed.

Lemma breed_iff ms p b x : may (breed io fexp mdl ms p b) x <->
  exists i a second, may (select io fexp (parent_selector b) p) (i, a) /\
    second_parent io fexp p b a second /\ offspring_of io mdl ms p b a second x.
Proof.
  unfold breed; split.
  - intros H; apply may_bind in H as ([i a] & H1 & H); apply may_bind in H as (o & Ho & H).
    exists i, a, o; rewrite <- parent2_iff, <- breed_from_iff; auto.
  - intros (i & a & o & H1 & H2 & H3); apply may_bind; exists (i, a); split; auto.
    apply may_bind; exists o; rewrite parent2_iff, breed_from_iff; auto.
Qed.
End Breed.

Lemma c94_example :
  second_parent ex_io ex_exp (ex_popn ex_io [4; 5; 6]) (mkBreeding f1 f0 (Tournament 1)) 4 (Some 6) /\
  ~ second_parent ex_io ex_exp (ex_popn ex_io [4; 5; 6]) (mkBreeding f1 f0 (Tournament 1)) 4 (Some 4) /\
  offspring_of ex_io ex_model tt (ex_popn ex_io [4; 5; 6]) (mkBreeding f1 f0 (Tournament 1)) 4 (Some 6) 10.
Proof.
  split; [|split].
  - cbn [second_parent crossover_rate parent_selector]; split; [cbn; lia|]; split; [vm_compute; reflexivity|]; split; [reflexivity|].
    exists 2; cbn; exists 2%N; split; [reflexivity|reflexivity].
  - intros (_ & _ & H & _); vm_compute in H; discriminate.
  - exists 10, 10, 10, 10, 6; split; [reflexivity|]; split; [right; split; [vm_compute; reflexivity|reflexivity]|].
    split; [reflexivity|]; split; [reflexivity|]; split; [left; split; [vm_compute; reflexivity|reflexivity]|].
    left; split; [reflexivity|]; split; [reflexivity|]; vm_compute; reflexivity.
Qed.
