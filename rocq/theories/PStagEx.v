(** * PStagEx: examples and counterexamples for stagnation (C110). *)
From Coq Require Import List Bool Arith NArith ZArith Reals Lia Lra.
From Flocq Require Import Core BinarySingleNaN.
From Verif Require Import Rnd LRnd F64 LF64 MStats MPopulation MSelection MModel MAlgorithms SpecF SpecA SpecB SpecX ExF ExM ExR
  PPopulation PModel PBreed PReach PAlgorithms PAlgorithms2 PRun PRun2 PRun3 PRun4 PRun5 PReach3 PStag.
Import ListNotations.
Local Open Scope nat_scope.

Notation GAx := (ga_algorithm ex_io ex_exp ex_model).

Definition st : ga_state nat unit := mkGa tt 2 0 (mkBreeding (f_lit 8 10) (f_lit 1 10) (Tournament 1)).

Lemma pick_any p i x : nth_error (individuals p) i = Some x -> may (select ex_io ex_exp (Tournament 1) p) (i, x).
Proof.
  intros Hx; pose proof (nth_error_some_lt _ _ _ Hx) as Hi; cbn [select]; unfold tournament_select.
  destruct (Nat.eqb_spec (length (individuals p)) 0) as [E|_]; [lia|]; cbn [negb massert bind].
  apply may_bind; exists [i]; split; [apply (may_repeat _ i 1), may_gen_range; lia|].
  cbn [unwrap bind fold_left]; rewrite (idx_some _ _ _ Hx); reflexivity.
Qed.

Lemma breed_any p x y : In x (individuals p) -> x <> 0 -> y = x \/ (y = S x /\ fge (f_of_nat (S x)) (f_of_nat x) = true) ->
  may (breed ex_io ex_exp ex_model tt p (ga_breeding st)) y.
Proof.
  intros Hx H0 Hy; apply In_nth_error in Hx as [i Hi]; apply breed_iff; exists i, x, None.
  split; [apply pick_any; auto|]; split; [right; left; vm_compute; reflexivity|].
  exists x, y, y, y, x; split; auto; split; [|split; [reflexivity|split; [reflexivity|split; [reflexivity|left; split; auto; split]]]].
  - destruct Hy as [->|[-> _]]; [right|left]; split; try reflexivity; vm_compute; reflexivity.
  - destruct Hy as [->|[-> _]]; [destruct x; [congruence|reflexivity]|reflexivity].
  - change (fge (f_of_nat y) (f_of_nat x) = true); destruct Hy as [->|[-> Hy]]; auto.
    apply fge_spec; pose proof (f_of_nat_not_nan x); repeat split; auto; lra.
Qed.

Lemma step_to p a b : may (breed ex_io ex_exp ex_model tt p (ga_breeding st)) a -> may (breed ex_io ex_exp ex_model tt p (ga_breeding st)) b ->
  exists p', may (evolve_step ex_io ex_exp ex_model GAx st p) (st, p') /\ made ex_io [a; b] p' /\ generation p' = generation p + 1 /\
    stagnation p' = (if fgt (ps_max (pop_stats p')) (ps_max (pop_stats p)) then 0 else stagnation p + 1).
Proof.
  intros Ha Hb; assert (Hne : [a; b] <> []) by discriminate.
  destruct (must_exists _ _ (replace_must ex_io p [a; b] Hne)) as [[p' old] Hrep].
  destruct (must_may _ _ _ (replace_must ex_io p [a; b] Hne) Hrep) as (Hm & Hold & Hg & Hs); cbn [fst snd] in *; subst old.
  exists p'; split; [|auto].
  unfold evolve_step; apply may_bind; exists st; split; [reflexivity|]; apply may_bind; exists []; split; [reflexivity|].
  apply may_bind; exists [a; b]; split; [|apply may_bind; exists (p', individuals p); split; auto; reflexivity].
  change (may (news <- repeatM 2 (breed ex_io ex_exp ex_model tt p (ga_breeding st)) ;; Ret ([] ++ news)) [a; b]).
  apply may_bind; exists [a; b]; split; [|reflexivity].
  cbn [repeatM]; apply may_bind; exists a; split; auto; apply may_bind; exists [b]; split; [|reflexivity].
  apply may_bind; exists b; split; auto; apply may_bind; exists []; split; reflexivity.
Qed.

Lemma made_in l p x : made ex_io l p -> In x l -> In x (individuals p).
Proof.
  intros (_ & (_ & H) & _) Hx; destruct (H x Hx) as [H1|(y & Hy & E)]; auto; apply Nat.eqb_eq in E; subst; auto.
Qed.
Lemma made_wf l p : made ex_io l p -> well_formed ex_io p.
Proof. intros H; eapply made_well_formed; [|exact H]; intros x _; apply f_of_nat_not_nan. Qed.

Lemma up12 : fge (f_of_nat 2) (f_of_nat 1) = true.
Proof. vm_compute; reflexivity. Qed.

(** Only ones *)
Definition ones_only (p : population nat) : Prop := well_formed ex_io p /\ forall x, In x (individuals p) -> x = 1.
Definition one_two (p : population nat) : Prop := well_formed ex_io p /\ In 1 (individuals p) /\ In 2 (individuals p).

Lemma fall p : In 1 (individuals p) -> exists p', may (evolve_step ex_io ex_exp ex_model GAx st p) (st, p') /\ ones_only p' /\
  generation p' = generation p + 1 /\ stagnation p' <= stagnation p + 1.
Proof.
  intros H1; assert (Hb : may (breed ex_io ex_exp ex_model tt p (ga_breeding st)) 1) by (apply (breed_any p 1); auto).
  destruct (step_to p 1 1 Hb Hb) as (p' & Hs & Hm & Hg & Hst); exists p'; split; auto; split; [|split; auto].
  - split; [eapply made_wf; eauto|]; destruct Hm as (_ & (Hsub & _) & _); intros x Hx; destruct (Hsub x Hx) as [<-|[<-|[]]]; auto.
  - rewrite Hst; destruct (fgt _ _); lia.
Qed.

Lemma rise p : ones_only p -> exists p', may (evolve_step ex_io ex_exp ex_model GAx st p) (st, p') /\ one_two p' /\
  (forall x, In x (individuals p') -> x = 1 \/ x = 2) /\ generation p' = generation p + 1 /\ stagnation p' = 0.
Proof.
  intros [Hw H1].
  assert (Hin : In 1 (individuals p)).
  { destruct Hw as (Hne & _); destruct (individuals p) as [|x l] eqn:E; [congruence|]; rewrite <- (H1 x); left; auto. }
  destruct (step_to p 1 2) as (p' & Hs & Hm & Hg & Hst); [apply (breed_any p 1); auto|apply (breed_any p 1); [exact Hin|discriminate|right; exact (conj eq_refl up12)]|].
  exists p'; split; auto; pose proof (made_wf _ _ Hm) as Hw'.
  assert (H2 : In 2 (individuals p')) by (eapply made_in; eauto; cbn; auto).
  split; [split; auto; split; auto; eapply made_in; eauto; cbn; auto|].
  split; [destruct Hm as (_ & (Hsub & _) & _); intros x Hx; destruct (Hsub x Hx) as [<-|[<-|[]]]; auto|]; split; auto.
  rewrite Hst; destruct (fgt _ _) eqn:E; auto; exfalso.
  destruct (top_member ex_io p Hw) as (x & Hx & Ex & Nx & _); destruct (top_member ex_io p' Hw') as (y & _ & _ & Ny & My).
  assert (E' : fgt (ps_max (pop_stats p')) (ps_max (pop_stats p)) = true); [|congruence].
  apply fgt_spec; split; auto; split; auto; specialize (My 2 H2); unfold top in My; rewrite <- Ex; apply H1 in Hx; subst x.
  assert (L : flt (f_of_nat 1) (f_of_nat 2) = true) by (vm_compute; reflexivity).
  apply flt_spec in L as (_ & _ & L); cbn [fitness ex_io] in *; lra.
Qed.

Lemma no_elite_accepted : ga_accepted no_elite.
Proof.
  split; [discriminate|]; split; [apply ratio_spec; vm_compute; reflexivity|].
  split; [apply rate_lit; vm_compute; reflexivity|]; split; [apply rate_lit; vm_compute; reflexivity|]; discriminate.
Qed.
Lemma configured : ga_configure (ga_from tt) no_elite = Ret st.
Proof.
  assert (E1 : ga_validate no_elite = Ret tt) by (vm_compute; reflexivity).
  assert (E2 : interpolate_usize 0 2 f0 = Ret 0) by (vm_compute; reflexivity).
  unfold ga_configure; rewrite E1; cbn [bind]; change (interpolate_usize 0 (ga_population_size no_elite) (ga_elitism_rate no_elite)) with (interpolate_usize 0 2 f0).
  rewrite E2; reflexivity.
Qed.

Lemma start_from l : l <> [] -> (forall x, In x l -> x <> 0) -> exists p, may (initialize_population ex_io ex_model tt l) p /\ made ex_io l p /\ generation p = 0 /\ stagnation p = 0.
Proof.
  intros Hl H0; destruct (must_exists _ _ (new_must ex_io l Hl)) as [p Hp]; destruct (must_may _ _ _ (new_must ex_io l Hl) Hp) as (Hm & Hg & Hs).
  exists p; split; auto; unfold initialize_population; apply may_bind; exists l; split.
  - clear; induction l as [|a l IH]; cbn [mapM]; [reflexivity|]; apply may_bind; exists a; split; [reflexivity|]; apply may_bind; exists l; split; auto; reflexivity.
  - assert (E : filter (is_valid ex_io) l = l); [|rewrite E; auto].
    clear Hl Hp Hm; induction l as [|a l IH]; cbn [filter]; auto; rewrite IH by (intros; apply H0; cbn; auto).
    assert (a <> 0) by (apply H0; cbn; auto); destruct a; [congruence|reflexivity].
Qed.

Lemma endless_loop fuel : forall p tr, stagnation p <= 1 -> ((ones_only p) \/ (one_two p /\ stagnation p = 0)) ->
  may_fail (evolve_loop ex_io ex_exp ex_model GAx (quiet (patience 2)) fuel st p tt tr) NoFuel.
Proof.
  induction fuel as [|fuel IH]; intros p tr Hst Hp; [reflexivity|]; cbn [evolve_loop].
  apply may_fail_bind; right; exists (true, tt, st); split.
  { apply quiet_may; split; auto; change ((stagnation p <? 2, tt) = (true, tt)); f_equal; apply Nat.ltb_lt; lia. }
  apply may_fail_bind; right; destruct Hp as [Hp|[(_ & H1 & _) H0]].
  - destruct (rise p Hp) as (p' & Hs & H12 & _ & _ & E); exists (st, p'); split; auto; apply IH; [lia|auto].
  - destruct (fall p H1) as (p' & Hs & Ho & _ & E); exists (st, p'); split; auto; apply IH; [lia|auto].
Qed.

Lemma endless : exists (q : ga_params) (init : list nat) (n : nat),
  ga_accepted q /\ 2 <= ga_population_size q /\ robust_strategy (ga_selection_strategy q) /\ total_model ex_model (fun x => x <> 0) /\
  startable ex_io ex_model (fun x => x <> 0) tt init /\ valid_is_number ex_io /\ equal_means_equal_fitness ex_io /\
  impatient n (@patience nat n) /\
  forall fuel, may_fail (evolve_population ex_io ex_exp ex_model GAx (quiet (patience n)) fuel (ga_from tt) init q tt) NoFuel.
Proof.
  exists no_elite, [1; 2], 2.
  split; [exact no_elite_accepted|]; split; [cbn; lia|]; split; [exact Logic.I|]; split; [apply ex_total|]; split.
  { split; [repeat constructor; lia|]; exists 1; split; [left; auto|reflexivity]. }
  split; [apply c64_example|]; split; [apply c64_example|]; split.
  { split; [intros; exact Logic.I|]; intros ps p H; change ((stagnation p <? 2) = false); apply Nat.ltb_ge; auto. }
  intros fuel; unfold evolve_population; change (alg_configure GAx) with (@ga_configure nat unit); rewrite configured; cbn [bind].
  destruct (start_from [1; 2]) as (p & Hp & Hm & _ & Hs); [discriminate|intros x [<-|[<-|[]]]; lia|].
  apply may_fail_bind; right; exists p; split; auto; apply endless_loop; [lia|right; split; auto].
  split; [eapply made_wf; eauto|]; split; eapply made_in; eauto; cbn; auto.
Qed.

(** The counter starts again although an earlier generation was fitter. *)
Lemma counter_refuted : exists (r : run_result nat (ga_state nat unit) unit) k p i o,
  may (evolve_population ex_io ex_exp ex_model GAx (quiet (stop_at 2)) 3 (ga_from tt) [1; 3] no_elite tt) r /\
  nth_error (r_trace r) k = Some p /\ stagnation p = 0 /\ i < k /\ nth_error (r_trace r) i = Some o /\ fitter_than ex_io o p.
Proof.
  destruct (start_from [1; 3]) as (p0 & Hp0 & Hm0 & Hg0 & Hs0); [discriminate|intros x [<-|[<-|[]]]; lia|].
  assert (I1 : In 1 (individuals p0)) by (eapply made_in; eauto; cbn; auto).
  assert (I3 : In 3 (individuals p0)) by (eapply made_in; eauto; cbn; auto).
  destruct (fall p0 I1) as (p1 & Hst1 & Ho1 & Hg1 & _); destruct (rise p1 Ho1) as (p2 & Hst2 & _ & H12 & Hg2 & Hs2).
  assert (Hgo : forall p : population nat, generation p < 2 -> may (quiet (stop_at 2) tt st p) (true, tt, st)).
  { intros p Hp; apply quiet_may; split; auto; change ((generation p <? 2, tt) = (true, tt)); f_equal; apply Nat.ltb_lt; auto. }
  exists (mkRun p2 st tt [p0; p1; p2]), 2, p2, 0, p0; split; [|split; [reflexivity|split; [auto|split; [lia|split; [reflexivity|]]]]].
  - unfold evolve_population; change (alg_configure GAx) with (@ga_configure nat unit); rewrite configured; cbn [bind].
    apply may_bind; exists p0; split; auto; cbn [evolve_loop].
    apply may_bind; exists (true, tt, st); split; [apply Hgo; lia|]; apply may_bind; exists (st, p1); split; auto.
    apply may_bind; exists (true, tt, st); split; [apply Hgo; lia|]; apply may_bind; exists (st, p2); split; auto.
    apply may_bind; exists (false, tt, st); split; [|reflexivity].
    apply quiet_may; split; auto; change ((generation p2 <? 2, tt) = (false, tt)); f_equal; apply Nat.ltb_ge; lia.
  - exists 3; split; auto; intros x Hx; destruct (H12 x Hx) as [->| ->]; vm_compute; reflexivity.
Qed.

Lemma small_levels : fitness_among small_io [f_of_nat 1; f_of_nat 2; f_of_nat 3].
Proof.
  intros x Hx; cbn [is_valid small_io] in Hx; apply andb_true_iff in Hx as [H1 H2]; apply Nat.leb_le in H1, H2.
  destruct x as [|[|[|[|x]]]]; [lia|left|right; left|right; right; left|lia]; reflexivity.
Qed.

Lemma half4 : (1 <= INR 4 * B2R (f_lit 1 2))%R.
Proof. pose proof (proj2 one_half) as E; rewrite E; replace (INR 4) with 4%R by (cbn; lra); lra. Qed.

Lemma c110_example : ga_accepted ex_half /\ robust_strategy (ga_selection_strategy ex_half) /\
  (1 <= INR (ga_population_size ex_half) * B2R (ga_elitism_rate ex_half))%R /\
  total_model ex_model (fun _ => True) /\ startable small_io ex_model (fun _ => True) tt [1; 7] /\
  valid_is_number small_io /\ equal_means_equal_fitness small_io /\ impatient 5 (@patience nat 5) /\
  fitness_among small_io [f_of_nat 1; f_of_nat 2; f_of_nat 3].
Proof.
  split; [exact ex_half_accepted|]; split; [exact Logic.I|]; split; [exact half4|]; split; [apply ex_total_any|]; split.
  { split; [repeat constructor|]; exists 1; split; [left; auto|reflexivity]. }
  split; [intros x _; apply f_of_nat_not_nan|]; split.
  { intros x y E; apply Nat.eqb_eq in E; subst; apply feq_spec; pose proof (f_of_nat_not_nan y); auto. }
  split; [|exact small_levels].
  split; [intros; exact Logic.I|]; intros ps p H; change ((stagnation p <? 5) = false); apply Nat.ltb_ge; auto.
Qed.
