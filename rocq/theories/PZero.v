(** * PZero: the sign of a zero sum does not matter. *)
From Coq Require Import List Bool Arith NArith Lia.
From Flocq Require Import BinarySingleNaN.
From Verif Require Import Rnd LRnd F64 MStats MPopulation MSelection MModel SpecW SpecZ PWord.
Import ListNotations.

Lemma same_number_refl a : same_number a a.
Proof. left; auto. Qed.
Lemma same_number_sym a b : same_number a b -> same_number b a.
Proof. intros [->|(s & s' & -> & ->)]; [left; auto|right; eauto]. Qed.
Lemma same_number_trans a b c : same_number a b -> same_number b c -> same_number a c.
Proof. intros [->|(s & s' & -> & ->)]; auto; intros [<-|(t & t' & E & ->)]; right; eauto. Qed.

Ltac zz := first [left; reflexivity | right; do 2 eexists; split; reflexivity].
Lemma fadd_same a a' b b' : same_number a a' -> same_number b b' -> same_number (fadd a b) (fadd a' b').
Proof.
  intros [->|(s & s' & -> & ->)] [->|(t & t' & -> & ->)].
  - left; auto.
  - destruct a' as [u|u| |u m e H]; cbn; try (left; reflexivity); destruct u, t, t'; zz.
  - destruct b' as [u|u| |u m e H]; cbn; try (left; reflexivity); destruct u, s, s'; zz.
  - destruct s, s', t, t'; zz.
Qed.

Lemma fmul_same u a a' : same_number a a' -> same_number (fmul u a) (fmul u a').
Proof.
  intros [->|(s & s' & -> & ->)]; [left; auto|].
  destruct u as [t|t| |t m e H]; cbn; try (left; reflexivity); zz.
Qed.

Lemma fge_same c a a' : same_number a a' -> fge c a = fge c a'.
Proof. intros [->|(s & s' & -> & ->)]; auto; destruct c as [t|[]| |[] m e H]; reflexivity. Qed.

Lemma zero_sum_nil v : forall l, sum_with_zeros l v -> l = [] -> exists s, v = B754_zero s.
Proof.
  induction 1 as [s|x|l1 l2 a b H1 IH1 H2 IH2]; intros E; [eauto|discriminate|].
  apply app_eq_nil in E as [-> ->]; destruct (IH1 eq_refl) as [s ->]; destruct (IH2 eq_refl) as [t ->]; destruct s, t; eexists; reflexivity.
Qed.

Lemma fadd_zero_l s b : same_number (fadd (B754_zero s) b) b.
Proof. destruct b as [u|u| |u m e H]; cbn; try (left; reflexivity); destruct s, u; zz. Qed.
Lemma fadd_zero_r s b : same_number (fadd b (B754_zero s)) b.
Proof. destruct b as [u|u| |u m e H]; cbn; try (left; reflexivity); destruct s, u; zz. Qed.

Lemma sum_covered l v : sum_with_zeros l v -> forall fuel, length l <= fuel -> exists v', may (par_sum fuel l) v' /\ same_number v v'.
Proof.
  induction 1 as [s|x|l1 l2 a b H1 IH1 H2 IH2]; intros fuel Hf.
  - exists f0; split; [|right; unfold f0; eauto].
    destruct fuel; cbn [par_sum may]; [reflexivity|]; exists 0%N; split; [lia|reflexivity].
  - exists (fadd f0 x); split; [|apply same_number_sym; apply fadd_zero_l].
    destruct fuel; cbn [par_sum may]; [reflexivity|]; exists 0%N; split; [lia|reflexivity].
  - destruct l1 as [|x1 l1].
    + destruct (zero_sum_nil _ _ H1 eq_refl) as [s ->]; destruct (IH2 fuel Hf) as (v' & Hv & E); exists v'; split; auto.
      eapply same_number_trans; [apply fadd_zero_l|auto].
    + destruct l2 as [|x2 l2].
      * rewrite app_nil_r in *; destruct (zero_sum_nil _ _ H2 eq_refl) as [s ->]; destruct (IH1 fuel Hf) as (v' & Hv & E); exists v'; split; auto.
        eapply same_number_trans; [apply fadd_zero_r|auto].
      * rewrite app_length in Hf; cbn [length] in Hf; destruct fuel as [|fuel]; [lia|].
        destruct (IH1 fuel ltac:(cbn; lia)) as (va & Ha & Ea); destruct (IH2 fuel ltac:(cbn; lia)) as (vb & Hb & Eb).
        exists (fadd va vb); split; [|apply fadd_same; auto].
        remember (x1 :: l1) as m1; remember (x2 :: l2) as m2; cbn [par_sum may].
        exists (N.of_nat (length m1)); split; [rewrite app_length; lia|].
        replace (N.of_nat (length m1) =? 0)%N with false by (symmetry; apply N.eqb_neq; subst; cbn; lia).
        rewrite Nat2N.id, firstn_app, skipn_app, Nat.sub_diag, firstn_all, skipn_all; cbn [firstn skipn]; rewrite app_nil_r, app_nil_l.
        apply (proj2 (may_bind _ _ _)); exists va; split; auto; apply (proj2 (may_bind _ _ _)); exists vb; split; auto; reflexivity.
Qed.

Section Zero.
Context {I : Type} (io : individual_ops I) (fexp : f64 -> f64).

Lemma wheel_same (weight : I -> f64) l : forall target target' c k, same_number target target' ->
  wheel weight target c k l = wheel weight target' c k l.
Proof.
  induction l as [|h t IH]; intros target target' c k H; cbn [wheel]; auto.
  rewrite (fge_same _ _ _ H); destruct (fge _ target'); auto.
Qed.

Lemma wheel_select_same weight t t' u (l : list I) : same_number t t' -> wheel_select weight t u l = wheel_select weight t' u l.
Proof. intros H; unfold wheel_select; rewrite (wheel_same weight l (fmul u t) (fmul u t')); auto using fmul_same. Qed.

Lemma select_same s s' (p : population I) : same_wheel s s' -> same_execution (select io fexp s p) (select io fexp s' p).
Proof.
  destruct s, s'; cbn [same_wheel]; intros H; try (rewrite H; apply same_refl); try apply same_refl; try discriminate.
  - apply same_bind; [apply same_refl|]; intros u _; rewrite (wheel_select_same (fitness io) _ _ u (individuals p) H); apply same_refl.
  - destruct H as (-> & -> & H); apply same_bind; [apply same_refl|]; intros u _; rewrite (wheel_select_same (scaled_fitness io fexp temperature0) _ _ u (individuals p) H); apply same_refl.
Qed.

Lemma select_distinct_same s s' p n x : same_wheel s s' -> same_execution (select_distinct io fexp s p n x) (select_distinct io fexp s' p n x).
Proof.
  intros H; induction n as [|n IH]; cbn [select_distinct]; [reflexivity|].
  apply same_bind; [apply select_same; auto|]; intros [i c] _; destruct (negb _); [apply same_refl|auto].
Qed.

Lemma breed_same {MS} (mdl : model I MS) ms p cr mr s s' : same_wheel s s' ->
  same_execution (breed io fexp mdl ms p (mkBreeding cr mr s)) (breed io fexp mdl ms p (mkBreeding cr mr s')).
Proof.
  intros H; unfold breed; cbn [parent_selector]; apply same_bind; [apply select_same; auto|]; intros [i x] _.
  apply same_bind; [|intros; apply same_refl]; unfold breed_parent2; cbn [parent_selector crossover_rate].
  destruct (_ <? _); [|apply same_refl]; apply same_bind; [apply same_refl|]; intros u _; destruct (flt _ _); [|apply same_refl].
  apply same_bind; [apply select_distinct_same; auto|]; intros; apply same_refl.
Qed.

Lemma prepare_covered s p :
  (forall t v, s = RouletteWheel t -> sum_with_zeros (map (fitness io) (individuals p)) v ->
     exists s', may (prepare io fexp s p) s' /\ same_wheel (RouletteWheel v) s') /\
  (forall a c t v, s = Boltzmann a c t -> sum_with_zeros (map (fun x => fexp (fdiv (fitness io x) (fmul a c))) (individuals p)) v ->
     exists s', may (prepare io fexp s p) s' /\ same_wheel (Boltzmann (fmul a c) c v) s').
Proof.
  split.
  - intros t v -> H; destruct (sum_covered _ _ H (length (individuals p))) as (v' & Hv & E); [rewrite map_length; auto|].
    exists (RouletteWheel v'); split; auto; cbn [prepare]; apply (proj2 (may_bind _ _ _)); exists v'; split; auto; reflexivity.
  - intros a c t v -> H; destruct (sum_covered _ _ H (length (individuals p))) as (v' & Hv & E); [rewrite map_length; auto|].
    exists (Boltzmann (fmul a c) c v'); split; [|cbn; auto]; cbn [prepare]; apply (proj2 (may_bind _ _ _)); exists v'; split; auto; reflexivity.
Qed.
End Zero.

Lemma c102_example : sum_with_zeros [f1; f0] (fadd (fadd (B754_zero true) f1) (fadd (B754_zero true) f0)) /\
  same_wheel (I := bool) (RouletteWheel (B754_zero true)) (RouletteWheel f0) /\ B754_zero true <> f0.
Proof.
  split; [|split; [right; exists true, false; auto|discriminate]].
  apply (sz_add [f1] [f0]); [apply (sz_add [] [f1])|apply (sz_add [] [f0])]; constructor.
Qed.
