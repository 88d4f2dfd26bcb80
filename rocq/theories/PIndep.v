(** * PIndep: the new individuals of a generation are independent (C107). *)
From Coq Require Import List Bool Arith NArith Reals Lia Lra.
From Verif Require Import Rnd Prob LRnd LProb F64 MStats MPopulation MSelection MModel MAlgorithms SpecF SpecI MOneMax ExF ExM PModel PConv.
Import ListNotations.
Local Open Scope R_scope.

Lemma min_scale c (l : list R) : 0 <= c <= 1 -> l <> [] -> (forall x, In x l -> x <= 1) ->
  fold_right Rmin 1 (map (Rmult c) l) = c * fold_right Rmin 1 l.
Proof.
  intros Hc; induction l as [|x l IH]; intros Hne Hl; [contradiction|].
  cbn [map fold_right]; destruct l as [|y l].
  - cbn; specialize (Hl x (or_introl eq_refl)); rewrite (Rmin_left x 1) by auto; apply Rmin_left.
    destruct (Rle_lt_dec 0 x); nra.
  - rewrite IH by (try discriminate; intros z Hz; apply Hl; cbn in *; auto).
    generalize (fold_right Rmin 1 (y :: l)); intros m; unfold Rmin.
    destruct (Rle_dec x m), (Rle_dec (c * x) (c * m)); try reflexivity; nra.
Qed.

Lemma expect_scale {A} (m : M A) (g : A -> R) c : 0 <= c <= 1 -> (forall a, g a <= 1) -> must m (fun _ => True) ->
  expect m (fun a => c * g a) = c * expect m g /\ expect m g <= 1.
Proof.
  intros Hc Hg; induction m as [a|e|n k IH|n k IH]; cbn [expect must]; intros Hm; [split; [reflexivity|apply Hg]|contradiction| |].
  - destruct Hm as [Hn Hm]; assert (Hp : 0 < INR (N.to_nat n)) by (apply INR_pos; lia); split.
    + rewrite (Rsum_ext _ _ (fun i => c * expect (k (N.of_nat i)) g)) by (intros i Hi; apply IH, Hm; lia).
      rewrite Rsum_mult; unfold Rdiv; ring.
    + apply Rmult_le_reg_r with (INR (N.to_nat n)); auto; unfold Rdiv; rewrite Rmult_assoc, Rinv_l, Rmult_1_r, Rmult_1_l by lra.
      rewrite <- (Rmult_1_r (INR (N.to_nat n))), <- Rsum_const; apply Rsum_le; intros i Hi; apply IH, Hm; lia.
  - destruct Hm as [Hn Hm]; split; [|apply fold_min_le_one].
    rewrite <- min_scale; auto.
    + f_equal; rewrite map_map; apply map_ext_in; intros i Hi; apply in_seq in Hi; apply IH, Hm; lia.
    + destruct (N.to_nat n) eqn:E; [lia|discriminate].
    + intros x Hx; apply in_map_iff in Hx as (i & <- & Hi); apply in_seq in Hi; apply IH, Hm; lia.
Qed.

Lemma repeat_each {A} (m : M A) : must m (fun _ => True) -> forall Ps,
  prob (repeatM (length Ps) m) (each Ps) = product (map (prob m) Ps).
Proof.
  intros Hm; induction Ps as [|P Ps IH]; [reflexivity|].
  cbn [length repeatM map product]; rewrite prob_expect, expect_bind.
  rewrite (expect_ext _ _ (fun a => prob (repeatM (length Ps) m) (each Ps) * (if P a then 1 else 0))).
  - rewrite (proj1 (expect_scale m (fun a => if P a then 1 else 0) _ (conj (prob_nonneg _ _) (prob_le_one _ _)) ltac:(intros a; cbv beta; destruct (P a); lra) Hm)).
    rewrite <- prob_expect, IH; apply Rmult_comm.
  - intros a; rewrite expect_bind; cbn [expect each]; rewrite prob_expect; destruct (P a); cbn [andb].
    + rewrite Rmult_1_r; reflexivity.
    + rewrite Rmult_0_r; transitivity (expect (repeatM (length Ps) m) (fun a => 0 * 1)).
      * apply expect_ext; intros; ring.
      * assert (Hr : must (repeatM (length Ps) m) (fun _ => True)) by (eapply must_mono; [|apply (must_repeatM (length Ps) m (fun _ => True)); exact Hm]; auto).
        rewrite (proj1 (expect_scale (repeatM (length Ps) m) (fun _ => 1) 0 ltac:(lra) ltac:(intros; lra) Hr)); ring.
Qed.

Lemma prob_app {A} (m : M (list A)) (l : list A) (P : list A -> bool) :
  prob (news <- m ;; Ret (l ++ news)) (fun r => P (skipn (length l) r)) = prob m P.
Proof.
  rewrite !prob_expect, expect_bind; apply expect_ext; intros a; cbn [expect].
  rewrite skipn_app, skipn_all, Nat.sub_diag; reflexivity.
Qed.

Section Gen.
Context {I : Type} (io : individual_ops I) (fexp : f64 -> f64) {MS : Type} (mdl : model I MS).

Lemma offspring_independent ms b size p offspring Ps : must (breed io fexp mdl ms p b) (fun _ => True) ->
  (2 <= size - length offspring)%nat -> length Ps = (size - length offspring)%nat ->
  prob (generate_new_population io fexp mdl ms (b, size) p offspring) (fun l => each Ps (skipn (length offspring) l))
  = product (map (prob (breed io fexp mdl ms p b)) Ps).
Proof.
  intros Hm H2 HP; rewrite <- repeat_each by auto; unfold generate_new_population; rewrite HP.
  destruct (size - length offspring)%nat as [|[|j]]; [lia|lia|]; apply prob_app.
Qed.

Lemma forallb_each {A} (Q : A -> bool) n (l : list A) : length l = n -> forallb Q l = each (repeat Q n) l.
Proof. intros <-; induction l as [|a l IH]; cbn; auto; rewrite IH; auto. Qed.
Lemma map_repeat {A B} (f : A -> B) x n : map f (repeat x n) = repeat (f x) n.
Proof. induction n as [|n IH]; cbn; auto; rewrite IH; auto. Qed.
Lemma product_repeat c n : product (repeat c n) = c ^ n.
Proof. induction n as [|n IH]; cbn; auto; rewrite IH; auto. Qed.

Lemma prob_supp' {A} (m : M A) (P Q : A -> bool) : (forall a, may m a -> P a = Q a) -> prob m P = prob m Q.
Proof.
  induction m as [a|e|n k IH|n k IH]; cbn; intros H.
  - rewrite H; auto.
  - reflexivity.
  - f_equal; apply Rsum_ext; intros i Hi; apply IH; intros a Ha; apply H; exists (N.of_nat i); split; [lia|exact Ha].
  - f_equal; apply map_ext_in; intros i Hi; apply in_seq in Hi; apply IH; intros a Ha; apply H; exists (N.of_nat i); split; [lia|exact Ha].
Qed.
Lemma repeat_length {A} n (m : M A) l : may (repeatM n m) l -> length l = n.
Proof.
  revert l; induction n as [|n IH]; intros l H; cbn [repeatM] in H; [cbn in H; subst; reflexivity|].
  apply (proj1 (may_bind _ _ _)) in H as (a & _ & H); apply (proj1 (may_bind _ _ _)) in H as (l' & H & E); cbn in E; subst l; cbn; f_equal; apply IH; exact H.
Qed.

Lemma offspring_all ms b size p offspring (Q : I -> bool) : must (breed io fexp mdl ms p b) (fun _ => True) ->
  (2 <= size - length offspring)%nat ->
  prob (generate_new_population io fexp mdl ms (b, size) p offspring) (fun l => forallb Q (skipn (length offspring) l))
  = prob (breed io fexp mdl ms p b) Q ^ (size - length offspring).
Proof.
  intros Hm H2; set (k := (size - length offspring)%nat) in *.
  rewrite <- product_repeat, <- map_repeat, <- repeat_each, List.repeat_length by auto.
  unfold generate_new_population; fold k; destruct k as [|[|j]] eqn:Ek; [lia|lia|].
  rewrite (prob_app (repeatM (S (S j)) (breed io fexp mdl ms p b)) offspring (forallb Q)).
  apply prob_supp'; intros l Hl; apply forallb_each; exact (repeat_length _ _ _ Hl).
Qed.

Lemma initial_independent (nr : M I) Ps : must nr (fun _ => True) ->
  prob (extend_population nr [] (length Ps)) (each Ps) = product (map (prob nr) Ps).
Proof.
  intros Hm; unfold extend_population; destruct Ps as [|P Ps]; [reflexivity|].
  cbn [length Nat.eqb]; rewrite <- repeat_each by auto; exact (prob_app (repeatM (length (P :: Ps)) nr) [] (each (P :: Ps))).
Qed.

Lemma variants_independent ms seed Ps : must (m_mutate mdl ms seed) (fun _ => True) ->
  prob (extend_population_with mdl ms [] (S (length Ps)) seed) (fun l => each Ps (tl l)) = product (map (prob (m_mutate mdl ms seed)) Ps).
Proof.
  intros Hm; unfold extend_population_with; destruct Ps as [|P Ps]; [reflexivity|].
  cbn [length Nat.eqb app]; rewrite <- repeat_each by auto.
  replace (S (S (length Ps)) - 1)%nat with (length (P :: Ps)) by (cbn; lia).
  rewrite (prob_supp' _ _ (fun l => each (P :: Ps) (skipn (length [seed]) l))); [apply (prob_app (repeatM (length (P :: Ps)) (m_mutate mdl ms seed)) [seed])|].
  intros a _; destruct a; reflexivity.
Qed.
End Gen.

(** Two fair coins *)
Lemma c107_coins :
  must gen_bool (fun _ => True) /\
  prob (extend_population gen_bool [] 2) (each [(fun b => b); negb]) = / 4.
Proof.
  assert (Hm : must gen_bool (fun _ => True)) by (vm_compute; split; [reflexivity|intros; exact Logic.I]).
  split; [exact Hm|].
  transitivity (product (map (prob gen_bool) [(fun b => b); negb])).
  { exact (initial_independent gen_bool [(fun b => b); negb] Hm). }
  cbn [map product].
  assert (E : forall P, prob gen_bool P = ((if P true then 1 else 0) + (if P false then 1 else 0)) / 2).
  { intros P; unfold gen_bool; cbn [prob]; change (N.to_nat 2) with 2%nat; rewrite !Rsum_S, Rsum_0; cbn; destruct (P true), (P false); lra. }
  rewrite !E; cbn; lra.
Qed.

(** Breeding among three by rank with certain crossover never panics. *)
Lemma c107_breed : must (breed ex_io ex_exp ex_model tt (ex_popn ex_io [4; 5; 6]%nat) (mkBreeding f1 f0 Rank)) (fun _ => True).
Proof.
  assert (S : selects_members ex_io ex_exp Rank (ex_popn ex_io [4; 5; 6]%nat)).
  { apply must_in_members; [exact Logic.I|discriminate|unfold fits_usize; cbn; unfold usize_max; lia]. }
  eapply must_mono; [|apply (breed_must ex_io ex_exp ex_model tt _ (mkBreeding f1 f0 Rank) (fun _ => True) (fun _ => True) S)]; cbn; auto.
Qed.
