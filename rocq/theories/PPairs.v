(** * PPairs: proofs about the parents breeding picks (C132). *)
From Coq Require Import List Bool Arith NArith ZArith Reals Lia Lra.
From Flocq Require Import Core BinarySingleNaN.
From Verif Require Import Rnd LRnd Prob LProb F64 LF64 MStats MPopulation MSelection MModel SpecF PSelection PSelection2 PSelection3 PPopulation PModel PMix ExF ExM SpecPairs.
Import ListNotations.
Local Open Scope R_scope.

Section Pairs.
Context {I : Type} (io : individual_ops I) (fexp : f64 -> f64).

Lemma second_law s p tries ex (P : nat * I -> bool) : builtin s ->
  prob (select_distinct io fexp s p tries ex) (fun o => match o with Some r => P r | None => false end)
  = prob (select io fexp s p) (fun r => negb (ieq io (snd r) ex) && P r)
    * Rsum tries (fun k => prob (select io fexp s p) (fun r => ieq io (snd r) ex) ^ k).
Proof.
  intros Hs; pose proof (no_pick_select io fexp s p Hs) as Hp; rewrite !prob_expect.
  set (q := expect (select io fexp s p) (fun a => if ieq io (snd a) ex then 1 else 0)).
  set (a := expect (select io fexp s p) (fun a => if negb (ieq io (snd a) ex) && P a then 1 else 0)).
  induction tries as [|t IH]; cbn [select_distinct]; [rewrite Rsum_0; cbn; lra|].
  rewrite expect_bind.
  rewrite (expect_ext _ _ (fun r => (if negb (ieq io (snd r) ex) && P r then 1 else 0) + (if ieq io (snd r) ex then 1 else 0) * (a * Rsum t (fun k => q ^ k)))).
  - rewrite expect_plus, expect_scale by auto; fold a q.
    assert (E : Rsum (S t) (fun k => q ^ k) = 1 + q * Rsum t (fun k => q ^ k)).
    { clear; induction t as [|t IH]; [rewrite Rsum_S, !Rsum_0; cbn; lra|]; rewrite (Rsum_S (S t)); rewrite IH at 1; rewrite (Rsum_S t); cbn [pow]; lra. }
    rewrite E; lra.
  - intros [i c]; cbn [snd]; destruct (ieq io c ex); cbn [negb andb].
    + rewrite IH; lra.
    + cbn [expect]; lra.
Qed.

Lemma prob_supp {A} (m : M A) (P Q : A -> bool) : no_pick m -> (forall a, may m a -> P a = Q a) -> prob m P = prob m Q.
Proof. intros Hp H; rewrite !prob_expect; apply expect_supp; auto; intros a Ha; rewrite (H a Ha); reflexivity. Qed.

Lemma expect_by_index (m : M (nat * I)) n (F : nat -> R) : no_pick m -> must m (fun r => (fst r < n)%nat) ->
  expect m (fun r => F (fst r)) = Rsum n (fun i => prob m (fun r => (fst r =? i)%nat) * F i).
Proof.
  intros Hp Hm.
  transitivity (expect m (fun r => Rsum n (fun i => (if (fst r =? i)%nat then 1 else 0) * F i))).
  - apply expect_supp; auto; intros r Hr; pose proof (must_may _ _ _ Hm Hr) as Hl; cbv beta in Hl.
    rewrite (Rsum_single n (fst r)); auto; [rewrite Nat.eqb_refl; lra|].
    intros i Hi Hne; rewrite (proj2 (Nat.eqb_neq _ _)) by auto; lra.
  - clear Hm; induction n as [|n IH].
    + rewrite Rsum_0, (expect_ext _ _ (fun r => 0 * 0)) by (intros; rewrite Rsum_0; lra).
      rewrite expect_scale by auto; lra.
    + rewrite Rsum_S, <- IH, prob_expect, <- expect_scale, <- expect_plus by auto.
      apply expect_ext; intros r; rewrite Rsum_S; reflexivity.
Qed.

Section Different.
Variables (s : selector I) (p : population I).
Hypothesis (Hs : builtin s)
  (Hmem : must (select io fexp s p) (fun r => nth_error (individuals p) (fst r) = Some (snd r)))
  (Hd : all_different io p).
Let Hp := no_pick_select io fexp s p Hs.

Lemma same_share i x : nth_error (individuals p) i = Some x ->
  prob (select io fexp s p) (fun r => ieq io (snd r) x) = share io fexp s p i.
Proof.
  intros Hx; apply prob_supp; auto; intros r Hr; pose proof (must_may _ _ _ Hmem Hr) as E; cbv beta in E.
  apply (Hd _ _ _ _ E Hx).
Qed.

Lemma pair_law i j : i <> j -> (i < length (individuals p))%nat ->
  prob (parents io fexp s p) (are i j) =
  share io fexp s p i * share io fexp s p j * (1 + share io fexp s p i + share io fexp s p i ^ 2).
Proof.
  intros Hij Hi; unfold parents; rewrite prob_expect, expect_bind.
  destruct (nth_error (individuals p) i) as [x|] eqn:Hx; [|apply nth_error_None in Hx; lia].
  set (c := share io fexp s p j * (1 + share io fexp s p i + share io fexp s p i ^ 2)).
  transitivity (expect (select io fexp s p) (fun r => (if (fst r =? i)%nat then 1 else 0) * c)).
  - apply expect_supp; auto; intros r Hr; pose proof (must_may _ _ _ Hmem Hr) as E; cbv beta in E.
    rewrite expect_bind; cbn [expect are fst snd]; destruct (fst r =? i)%nat eqn:F; cbn [andb].
    + apply Nat.eqb_eq in F; rewrite F, Hx in E; injection E as <-.
      rewrite Rmult_1_l; transitivity (prob (select_distinct io fexp s p 3 x) (fun o => match o with Some r => (fst r =? j)%nat | None => false end)).
      { rewrite prob_expect; apply expect_ext; intros o; unfold are; cbn [fst snd expect]; rewrite F, Nat.eqb_refl; reflexivity. }
      rewrite second_law by auto.
      rewrite (prob_supp _ _ (fun r => (fst r =? j)%nat) Hp).
      * rewrite (Rsum_ext _ _ (fun k => share io fexp s p i ^ k)) by (intros; rewrite (same_share i) by auto; reflexivity).
        fold (share io fexp s p j); unfold c; rewrite !Rsum_S, Rsum_0; cbn [pow]; lra.
      * intros r' Hr'; pose proof (must_may _ _ _ Hmem Hr') as E'; cbv beta in E'.
        rewrite (Hd _ _ _ _ E' Hx); destruct (fst r' =? i)%nat eqn:G; cbn [negb andb]; auto.
        apply Nat.eqb_eq in G; symmetry; apply Nat.eqb_neq; lia.
    + rewrite (expect_ext _ _ (fun _ => 0 * 0)) by (intros; unfold are; cbn [fst snd]; rewrite F; cbn [andb]; lra).
      assert (N : no_pick (select_distinct io fexp s p 3 (snd r))).
      { generalize 3%nat; intros t; induction t as [|t IH]; cbn [select_distinct]; [exact Logic.I|].
        apply no_pick_bind; auto; intros [? ?]; destruct (negb _); auto; exact Logic.I. }
      rewrite expect_scale by auto; lra.
  - rewrite expect_scale by auto; rewrite <- prob_expect; fold (share io fexp s p i); unfold c; lra.
Qed.

Lemma alone_law : prob (parents io fexp s p) alone = Rsum (length (individuals p)) (fun i => share io fexp s p i ^ 4).
Proof.
  unfold parents; rewrite prob_expect, expect_bind.
  transitivity (expect (select io fexp s p) (fun r => share io fexp s p (fst r) ^ 3)).
  - apply expect_supp; auto; intros r Hr; pose proof (must_may _ _ _ Hmem Hr) as E; cbv beta in E.
    rewrite expect_bind, <- (same_share (fst r) (snd r)), <- select_distinct_none_prob, prob_expect by auto.
    apply expect_ext; intros [?|]; reflexivity.
  - rewrite (expect_by_index _ (length (individuals p)) (fun i => share io fexp s p i ^ 3)); auto.
    + eapply must_mono; [|exact Hmem]; cbv beta; intros r E; apply nth_error_Some; rewrite E; discriminate.
Qed.

Lemma stronger_first i j : i <> j -> (i < length (individuals p))%nat -> (j < length (individuals p))%nat ->
  share io fexp s p j <= share io fexp s p i ->
  prob (parents io fexp s p) (are j i) <= prob (parents io fexp s p) (are i j) /\
  (0 < share io fexp s p j < share io fexp s p i -> prob (parents io fexp s p) (are j i) < prob (parents io fexp s p) (are i j)).
Proof.
  intros Hij Hi Hj H; rewrite !pair_law by auto.
  pose proof (prob_nonneg (select io fexp s p) (fun r => (fst r =? j)%nat)) as N; fold (share io fexp s p j) in N.
  set (a := share io fexp s p i) in *; set (b := share io fexp s p j) in *; clearbody a b.
  assert (K : a * b * (1 + a + a ^ 2) - b * a * (1 + b + b ^ 2) = a * b * ((a - b) * (1 + a + b))) by ring.
  split.
  - assert (0 <= a * b * ((a - b) * (1 + a + b))) by (apply Rmult_le_pos; apply Rmult_le_pos; lra); lra.
  - intros L; assert (0 < a * b * ((a - b) * (1 + a + b))) by (apply Rmult_lt_0_compat; apply Rmult_lt_0_compat; lra); lra.
Qed.
End Different.

Lemma alone_at_most s p m : builtin s ->
  selects_members io fexp s p ->
  (forall x, In x (individuals p) -> prob (select io fexp s p) (fun r => ieq io (snd r) x) <= m) ->
  prob (parents io fexp s p) alone <= m ^ 3.
Proof.
  intros Hs Hi Hm; pose proof (no_pick_select io fexp s p Hs) as Hp; unfold parents; rewrite prob_expect, expect_bind.
  rewrite <- (expect_const (select io fexp s p) _ (m ^ 3) Hp Hi).
  apply expect_le; auto; intros r Hr; pose proof (must_may _ _ _ Hi Hr) as E; cbv beta in E.
  rewrite expect_bind.
  apply Rle_trans with (prob (select io fexp s p) (fun r' => ieq io (snd r') (snd r)) ^ 3).
  - rewrite <- select_distinct_none_prob, prob_expect by auto; right; apply expect_ext; intros [?|]; reflexivity.
  - apply pow_incr; split; [apply prob_nonneg|auto].
Qed.

Lemma elitist_alone ratio p x : is_finite ratio = true -> 0 <= B2R ratio < 1 -> individuals p <> [] ->
  fits_usize (length (individuals p)) -> S (elitist_bound (length (individuals p)) ratio) = length (individuals p) ->
  nth_error (individuals p) (length (individuals p) - 1) = Some x -> ieq io x x = true ->
  must (parents io fexp (Elitist ratio) p) (fun z => alone z = true).
Proof.
  intros Fr Hr Hne Hf Hb Hx Hxx.
  assert (S : must (select io fexp (Elitist ratio) p) (fun r => snd r = x)).
  { pose proof (selection_member io fexp (Elitist ratio) p (conj Fr Hr) Hne Hf) as A.
    pose proof (elitist_only_top io fexp ratio p Fr Hr Hne Hf) as B.
    eapply must_mono; [|apply must_and; [exact A|exact B]]; cbv beta; intros r [E L].
    assert (fst r < length (individuals p))%nat by (apply nth_error_Some; rewrite E; discriminate).
    replace (fst r) with (length (individuals p) - 1)%nat in E by lia; congruence. }
  unfold parents; eapply must_bind_intro; [exact S|]; intros r ->.
  apply must_bind_intro with (Q := fun o => o = None).
  - generalize 3%nat; intros t; induction t as [|t IH]; cbn [select_distinct]; [reflexivity|].
    eapply must_bind_intro; [exact S|]; intros [i c]; cbn [snd]; intros ->; rewrite Hxx; exact IH.
  - intros o ->; reflexivity.
Qed.

Context {MS : Type} (mdl : model I MS).

Lemma breed_pairs ms p b (T : I -> I -> bool) : builtin (parent_selector b) ->
  selects_members io fexp (parent_selector b) p -> (1 < length (individuals p))%nat ->
  rest_total mdl ms p ->
  (forall a c, if T a c then m_crossover mdl ms a c = Fail Panic else must (m_crossover mdl ms a c) (fun _ => True)) ->
  (forall o, must (m_mutate mdl ms o) (fun _ => True)) ->
  prob (breed io fexp mdl ms p b) (fun _ => true) =
  1 - prob gen_f64 (fun u => flt u (crossover_rate b))
      * prob (parents io fexp (parent_selector b) p)
          (fun z => match snd z with Some c => T (snd (fst z)) (snd c) | None => false end).
Proof.
  intros Hbi Hsel Hl (Hi & He & Hs) Hc Hm; fold (met (crossover_rate b)).
  set (sel := parent_selector b) in *.
  pose proof (no_pick_select io fexp sel p Hbi) as Hp.
  assert (Hrest : forall parent1 o, (forall c, o = Some c -> T parent1 c = false) ->
    prob (breed_from io mdl ms p b parent1 o) (fun _ => true) = 1).
  { intros parent1 o Ho; apply (prob_must _ (fun _ => True)); unfold breed_from.
    apply must_bind_intro with (Q := fun _ => True).
    { destruct o as [c|]; [|cbn; auto]; pose proof (Hc parent1 c) as G; rewrite (Ho c eq_refl) in G; exact G. }
    intros w _; apply must_bind, must_gen_f64; intros u Hu.
    apply must_bind_intro with (Q := fun _ => True); [destruct (flt _ _); [apply Hm|cbn; auto]|]; intros x _.
    eapply must_bind_intro; [apply Hi|]; intros y _; eapply must_bind_intro; [apply He|]; intros z _.
    apply must_bind_intro with (Q := fun _ => True); [destruct (is_valid io z); [apply Hs|cbn; auto]|]; cbn; auto. }
  assert (Hsome : forall parent1 c, T parent1 c = true -> prob (breed_from io mdl ms p b parent1 (Some c)) (fun _ => true) = 0).
  { intros parent1 c G; unfold breed_from; pose proof (Hc parent1 c) as K; rewrite G in K; rewrite K; reflexivity. }
  set (mt := met (crossover_rate b)) in *.
  assert (Nd : forall t x, no_pick (select_distinct io fexp sel p t x)).
  { intros t x; induction t as [|t IH]; cbn [select_distinct]; [exact Logic.I|].
    apply no_pick_bind; auto; intros [? ?]; destruct (negb _); auto; exact Logic.I. }
  assert (Md : forall t x, must (select_distinct io fexp sel p t x) (fun _ => True)).
  { intros t x; induction t as [|t IH]; cbn [select_distinct]; [exact Logic.I|].
    eapply must_bind_intro; [exact Hsel|]; intros [? ?] _; destruct (negb _); auto; exact Logic.I. }
  set (hit := fun r : nat * I => prob (select_distinct io fexp sel p 3 (snd r)) (fun o => match o with Some c => T (snd r) (snd c) | None => false end)).
  assert (E1 : prob (parents io fexp sel p) (fun z => match snd z with Some c => T (snd (fst z)) (snd c) | None => false end)
    = expect (select io fexp sel p) hit).
  { unfold parents; rewrite prob_expect, expect_bind; apply expect_ext; intros r; rewrite expect_bind; unfold hit; rewrite prob_expect; reflexivity. }
  rewrite E1; unfold breed.
  transitivity (expect (select io fexp sel p)
    (fun r => prob (parent2 <- breed_parent2 io fexp p b (snd r) ;; breed_from io mdl ms p b (snd r) parent2) (fun _ => true))).
  { rewrite prob_expect, expect_bind; apply expect_ext; intros [i1 parent1]; rewrite prob_expect; reflexivity. }
  rewrite (expect_ext _ _ (fun r => (- mt) * hit r + 1)).
  - rewrite (expect_affine _ _ hit (- mt) 1 Hp Hsel); ring.
  - intros [i1 parent1]; cbn [snd]; unfold breed_parent2; rewrite (proj2 (Nat.ltb_lt _ _) Hl).
    set (g := fun u : f64 => bind (if flt u (crossover_rate b) then o <- select_distinct io fexp (parent_selector b) p 3 parent1 ;; Ret (option_map snd o) else Ret None)
      (fun parent2 => breed_from io mdl ms p b parent1 parent2)).
    change (bind (bind gen_f64 _) _) with (bind gen_f64 g).
    rewrite (gate_prob g (crossover_rate b) _ (1 - hit (i1, parent1)) 1); [fold mt; ring|]; intros u Hu; unfold g.
    destruct (flt (f_unit u) (crossover_rate b)); [|cbn [bind]; apply Hrest; discriminate].
    unfold hit; cbn [snd]; fold sel; rewrite !prob_expect, !expect_bind.
    rewrite (expect_ext _ _ (fun o => (-1) * (if match o with Some c => T parent1 (snd c) | None => false end then 1 else 0) + 1)).
    + rewrite (expect_affine _ (fun _ => True) _ (-1) 1 (Nd 3%nat parent1) (Md 3%nat parent1)); ring.
    + intros [c|]; cbn [bind option_map expect].
      * destruct (T parent1 (snd c)) eqn:G.
        -- pose proof (Hsome parent1 (snd c) G) as K; rewrite prob_expect in K; cbv beta iota in K |- *; rewrite K; lra.
        -- pose proof (Hrest parent1 (Some (snd c))) as K; rewrite prob_expect in K; cbv beta iota in K |- *; rewrite K; [lra|congruence].
      * pose proof (Hrest parent1 None) as K; rewrite prob_expect in K; cbv beta iota in K |- *; rewrite K; [lra|discriminate].
Qed.
End Pairs.

(** ** Two individuals and a tournament of two *)
Definition ex_two : population nat := ex_popn ex_io [4; 6]%nat.
Lemma two_member : must (select ex_io ex_exp (Tournament 2) ex_two) (fun r => nth_error (individuals ex_two) (fst r) = Some (snd r)).
Proof. apply selection_member; [auto with arith|discriminate|unfold fits_usize; cbn; unfold usize_max; lia]. Qed.
Lemma two_different : all_different ex_io ex_two.
Proof. intros [|[|[|i]]] [|[|[|j]]] x y; cbn; intros A B; try discriminate; injection A as <-; injection B as <-; reflexivity. Qed.
Lemma two_shares : share ex_io ex_exp (Tournament 2) ex_two 0 = 1 / 4 /\ share ex_io ex_exp (Tournament 2) ex_two 1 = 3 / 4.
Proof.
  assert (P : no_pick (select ex_io ex_exp (Tournament 2) ex_two)) by (apply no_pick_select; exact Logic.I).
  assert (A : share ex_io ex_exp (Tournament 2) ex_two 0 = 1 / 4).
  { unfold share; rewrite (prob_supp _ _ (fun r => (fst r <=? 0)%nat) P) by (intros [[|k] x] _; reflexivity).
    etransitivity; [apply (tournament_law 2 ex_two 0); cbn; lia|]; cbn; lra. }
  split; auto.
  assert (B : prob (select ex_io ex_exp (Tournament 2) ex_two) (fun r => (fst r <=? 1)%nat) = 1).
  { etransitivity; [apply (tournament_law 2 ex_two 1); cbn; lia|]; cbn; lra. }
  assert (C : 1 = share ex_io ex_exp (Tournament 2) ex_two 0 + share ex_io ex_exp (Tournament 2) ex_two 1).
  { rewrite <- B; unfold share; rewrite !prob_expect, <- expect_plus by auto.
    apply expect_ext; intros [[|[|k]] x]; cbn; lra. }
  lra.
Qed.
Lemma two_example :
  match Tournament (I := nat) 2 with Custom _ _ _ _ => False | _ => True end /\
  must (select ex_io ex_exp (Tournament 2) ex_two) (fun r => nth_error (individuals ex_two) (fst r) = Some (snd r)) /\
  all_different ex_io ex_two /\
  prob (parents ex_io ex_exp (Tournament 2) ex_two) (are 1 0) = 111 / 256 /\
  prob (parents ex_io ex_exp (Tournament 2) ex_two) (are 0 1) = 63 / 256 /\
  prob (parents ex_io ex_exp (Tournament 2) ex_two) alone = 82 / 256.
Proof.
  destruct two_shares as [A B].
  split; [exact Logic.I|]; split; [exact two_member|]; split; [exact two_different|].
  split; [|split].
  - rewrite pair_law, A, B; [lra|exact Logic.I|exact two_member|exact two_different|discriminate|cbn; lia].
  - rewrite pair_law, A, B; [lra|exact Logic.I|exact two_member|exact two_different|discriminate|cbn; lia].
  - rewrite alone_law; [|exact Logic.I|exact two_member|exact two_different].
    cbn [length individuals ex_two ex_popn]; rewrite !Rsum_S, Rsum_0, A, B; lra.
Qed.

(** A crossover that panics when the fitter parent is the first one *)
Definition ex_model_first : model nat unit := {|
  m_crossover := fun _ a b => if (b <? a)%nat then Fail Panic else Ret (a + b)%nat;
  m_mutate := fun _ a => Ret (S a);
  m_improve := default_improve;
  m_evaluate := fun _ a => Ret a;
  m_can_survive := default_can_survive ex_io;
  m_pre_generation := default_pre_generation |}.
Lemma met_f1 : met f1 = 1.
Proof.
  unfold met; rewrite (prob_supp _ _ (fun _ => true)); [apply (prob_must _ (fun _ => True)); apply must_gen_f64; auto|cbn; auto|].
  intros u Hm; assert (H : must gen_f64 (fun u => flt u f1 = true)); [|exact (must_may _ _ _ H Hm)].
  apply must_gen_f64; intros i Hi; destruct (f_unit_val i Hi) as [F _]; pose proof (f_unit_bound i Hi) as B.
  apply flt_spec; repeat split; [destruct (f_unit i); auto; discriminate|].
  rewrite !key_finite by (auto; apply f1_val); rewrite (proj2 f1_val); pose proof (bpow_gt_0 radix2 (-53)); lra.
Qed.
Lemma two_breed :
  prob (breed ex_io ex_exp ex_model_first tt ex_two (mkBreeding f1 f0 (Tournament 2))) (fun _ => true) = 145 / 256.
Proof.
  rewrite (breed_pairs ex_io ex_exp ex_model_first tt ex_two (mkBreeding f1 f0 (Tournament 2)) (fun a b => (b <? a)%nat)).
  - cbn [parent_selector crossover_rate]; fold (met f1); rewrite met_f1.
    rewrite (prob_supp _ _ (are 1 0)).
    + destruct two_example as (_ & _ & _ & H & _); rewrite H; lra.
    + unfold parents; apply no_pick_bind; [apply no_pick_select; exact Logic.I|]; intros r; apply no_pick_bind; [|intros; exact Logic.I].
      generalize 3%nat; intros t; induction t as [|t IH]; cbn [select_distinct]; [exact Logic.I|].
      apply no_pick_bind; [apply no_pick_select; exact Logic.I|]; intros [? ?]; destruct (negb _); auto; exact Logic.I.
    + intros z Hz; unfold parents in Hz.
      apply may_bind in Hz as (r & Hr & Hz); apply may_bind in Hz as (o & Ho & Hz); cbn in Hz; subst z; unfold are; cbn [fst snd].
      pose proof (must_may _ _ _ two_member Hr) as E; cbv beta in E.
      destruct o as [r'|]; [|rewrite andb_false_r; reflexivity].
      apply (proj1 (select_distinct_some _ _ _ _ _ _ _)) in Ho as (_ & Ho & _).
      pose proof (must_may _ _ _ two_member Ho) as E'; cbv beta in E'.
      destruct r as [[|[|[|i]]] x], r' as [[|[|[|j]]] y]; cbn in E, E'; try discriminate; injection E as <-; injection E' as <-; reflexivity.
  - exact Logic.I.
  - eapply must_mono; [|exact two_member]; cbv beta; intros r E; eapply nth_error_In; exact E.
  - cbn; lia.
  - split; [|split]; cbn; auto.
  - intros a c; cbn [m_crossover ex_model_first]; destruct (c <? a)%nat; cbn; auto.
  - cbn; auto.
Qed.
Lemma elitist_example :
  let p := ex_popn ex_io [1; 2; 3; 4; 5; 6; 7; 8; 9; 10]%nat in
  S (elitist_bound (length (individuals p)) (f_lit 9 10)) = length (individuals p) /\
  must (parents ex_io ex_exp (Elitist (f_lit 9 10)) p) (fun z => alone z = true).
Proof.
  cbv zeta; assert (E : S (elitist_bound 10 (f_lit 9 10)) = 10%nat) by (vm_compute; reflexivity).
  split; [exact E|].
  apply (elitist_alone _ _ _ _ 10%nat); try reflexivity; try discriminate; auto.
  - vm_compute; split; lra.
Qed.
