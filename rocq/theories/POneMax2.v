(** * POneMax2: OneMax runs (C69, C76). *)
From Coq Require Import List Bool Arith NArith ZArith Reals Lia Lra Permutation.
From Flocq Require Import Core BinarySingleNaN.
From Verif Require Import Rnd LRnd F64 LF64 MStats MOperators MCrossover MMutation MPopulation MSelection MModel MAlgorithms MOneMax
  Spec SpecF SpecA SpecK PCrossoverAll PMutation PPopulation PModel PAlgorithms PAlgorithms2 PRun PRun3 PRun4 PRun5 PKeep POneMax ExF ExM ExR.
Import ListNotations.
Local Open Scope nat_scope.

Definition has_length (n : nat) (x : onemax) : Prop := length (genome x) = n.

(** ** The operators *)
Lemma om_crossover_must u a b n : 1 <= n -> has_length n a -> has_length n b -> must (onemax_crossover u a b) (has_length n).
Proof.
  unfold has_length; intros Hn Ha Hb; unfold onemax_crossover.
  eapply must_bind_intro; [apply crossover_spx; [congruence|intros E; rewrite E in Ha; cbn in Ha; lia]|].
  intros g (pt & Hp & ->); cbn [must onemax_from genome]; rewrite app_length, firstn_length, skipn_length; lia.
Qed.

Lemma om_crossover_genes u a b x : may (onemax_crossover u a b) x -> forall g, In g (genome x) -> In g (genome a) \/ In g (genome b).
Proof.
  unfold onemax_crossover; intros H; apply may_bind in H as (g & Hg & H); cbn in H; subst x; cbn [onemax_from genome].
  cbn [crossover] in Hg; apply may_bind in Hg as (pt & _ & Hg).
  destruct (Nat.eq_dec (length (genome a)) (length (genome b))) as [E|E].
  - pose proof (must_may _ _ _ (spx_spec _ _ pt E) Hg) as ->; cbn beta.
    intros v Hv; apply in_app_or in Hv as [Hv|Hv]; [left; rewrite <- (firstn_skipn pt (genome a))|right; rewrite <- (firstn_skipn pt (genome b))]; apply in_or_app; auto.
  - unfold single_point_crossover in Hg; rewrite (proj2 (Nat.eqb_neq _ _) E) in Hg; destruct Hg.
Qed.

Lemma copied_length {A} s t (l r : list A) : s < length l -> t < length l -> rearranged (copy_src s t) l r -> length r = length l.
Proof.
  intros Hs Ht H; apply Nat.le_antisymm.
  - apply nth_error_None; rewrite (H (length l)); unfold copy_src; rewrite (proj2 (Nat.eqb_neq _ _)) by lia; apply nth_error_None; auto.
  - destruct (le_lt_dec (length l) (length r)) as [|L]; auto; exfalso.
    assert (E : nth_error r (length r) = None) by (apply nth_error_None; auto); rewrite H in E; apply nth_error_None in E.
    unfold copy_src in E; destruct (_ =? _); lia.
Qed.

Lemma om_mutate_must u a : must (onemax_mutate u a) (fun x => length (genome x) = length (genome a) /\
  om_fitness x = om_fitness a /\ forall g, In g (genome x) -> In g (genome a)).
Proof.
  unfold onemax_mutate; cbn [mutate]; destruct (le_lt_dec 2 (length (genome a))) as [H|H].
  - eapply must_bind_intro; [apply duplicate_mutation_spec; auto|]; intros r (s & t & Hs & Ht & _ & Hr); cbn [must genome om_fitness].
    split; [exact (copied_length s t _ _ Hs Ht Hr)|]; split; auto; intros g Hg; apply In_nth_error in Hg as [k Hk]; rewrite Hr in Hk; eapply nth_error_In; eauto.
  - unfold duplicate_mutation; rewrite (proj2 (Nat.ltb_lt _ _)) by auto; cbn; auto.
Qed.

(** ** The model *)
Lemma om_total n : 1 <= n -> total_model onemax_model (has_length n).
Proof.
  intros Hn; split; [intros; apply om_crossover_must; auto|].
  split; [intros ms a Ha; eapply must_mono; [|apply om_mutate_must]; unfold has_length in *; intros x (-> & _); auto|].
  split; [cbn; auto|]; split; [cbn; auto|]; split; cbn; auto.
Qed.

Lemma om_keeps n : keeps onemax_model (has_length n) (fun x => length (genome x) = n /\ onemax_evaluate tt x = Ret x).
Proof.
  split; [intros x [H _]; exact H|]; split.
  - intros ms a b x [Ha _] [Hb _] H; destruct n as [|n].
    + exfalso; destruct (genome a) eqn:E; [|discriminate]; cbn in H; unfold onemax_crossover in H; apply may_bind in H as (g & Hg & _).
      rewrite E in Hg; cbn in Hg; auto.
    + eapply must_may; [|exact H]; apply om_crossover_must; auto; lia.
  - split; [intros ms a x Ha H; pose proof (must_may _ _ _ (om_mutate_must ms a) H) as (E & _); unfold has_length in *; congruence|].
    split; [intros ms a x Ha H; cbn in H; subst; auto|].
    intros ms a x Ha H; cbn in H; subst x; split; [exact Ha|reflexivity].
Qed.

Lemma om_left_alone : selector_left_alone onemax_model.
Proof. intros ms p b ms' b' [= <- <-]; auto. Qed.

Lemma om_valid ms x : genome x <> [] -> fits_usize (length (genome x)) ->
  must (m_evaluate onemax_model ms x) (fun y => is_valid onemax_ops y = true).
Proof.
  intros Hne Hf; cbn; unfold default_is_valid; cbn [om_fitness].
  assert (Hn : 1 <= length (genome x)) by (destruct (genome x); [congruence|cbn; lia]).
  assert (Hk : count_ones (genome x) <= length (genome x)) by (rewrite count_ones_occ; apply ones_le).
  destruct (f_of_nat_finite (count_ones (genome x))) as [A B]; [unfold fits_usize in Hf; lia|].
  destruct (f_of_nat_finite (length (genome x)) Hf) as [C D]; pose proof (f_of_nat_ge1 _ Hn Hf) as L.
  assert (Le : (0 <= B2R (f_of_nat (count_ones (genome x))) <= B2R (f_of_nat (length (genome x))))%R).
  { rewrite B, D; split; [apply rnd_pos, pos_INR|apply rnd_mono, le_INR; auto]. }
  unfold f_is_finite; destruct (fdiv_correct (f_of_nat (count_ones (genome x))) (f_of_nat (length (genome x))) A) as (_ & _ & E & _); [lra|].
  apply E, rnd_lt_big; set (a := B2R (f_of_nat (count_ones (genome x)))) in *; set (b := B2R (f_of_nat (length (genome x)))) in *.
  assert (U : (0 <= a / b <= 1)%R).
  { split; [apply Rmult_le_pos; [lra|left; apply Rinv_0_lt_compat; lra]|apply Rmult_le_reg_r with b; [lra|]; unfold Rdiv; rewrite Rmult_assoc, Rinv_l; lra]. }
  rewrite Rabs_pos_eq by lra; eapply Rle_trans; [apply U|]; change 1%R with (bpow radix2 0); apply bpow_le; lia.
Qed.

Lemma om_random n : must (onemax_new_random n) (has_length n).
Proof.
  unfold onemax_new_random; eapply must_bind_intro; [apply (must_repeatM n gen_bool (fun _ => True))|].
  - cbn; split; [lia|auto].
  - intros bits [H _]; exact H.
Qed.

(** ** C69 *)
Section Runs.
Context {PS : Type} (fexp : f64 -> f64).
Notation GA := (ga_algorithm onemax_ops fexp onemax_model).
Notation AGA := (aga_algorithm onemax_ops fexp onemax_model).

Lemma om_good_start ms n : 1 <= n -> fits_usize n ->
  must (onemax_new_random n) (fun x => has_length n x /\ must (m_evaluate onemax_model ms x) (fun y => is_valid onemax_ops y = true)).
Proof.
  intros Hn Hf; eapply must_mono; [|apply (om_random n)]; intros x Hx; split; auto; unfold has_length in Hx.
  apply om_valid; [intros E; rewrite E in Hx; cbn in Hx; lia|rewrite Hx; auto].
Qed.
Lemma om_seed n : 1 <= n -> fits_usize n -> exists x, has_length n x /\ forall ms, must (m_evaluate onemax_model ms x) (fun y => is_valid onemax_ops y = true).
Proof.
  intros Hn Hf; exists (mkOneMax (repeat true n) f0); split; [apply repeat_length|]; intros ms; apply om_valid; cbn [genome]; rewrite ?repeat_length; auto.
  destruct n; [lia|discriminate].
Qed.

Lemma ga_om_runs n (f : PS -> population onemax -> M (bool * PS)) s q ps :
  1 <= n -> fits_usize n ->
  ga_accepted q -> 2 <= ga_population_size q -> fits_usize (ga_population_size q) -> robust_strategy (ga_selection_strategy q) ->
  (forall ps p, must (f ps p) (fun _ => True)) ->
  (forall fuel, ~ may_fail (evolution_run onemax_ops fexp onemax_model GA (quiet f) fuel s (onemax_new_random n) q ps) Panic) /\
  (forall k, (forall ps' p, generation p = k -> must (f ps' p) (fun o => fst o = false)) ->
     must (evolution_run onemax_ops fexp onemax_model GA (quiet f) (S k) s (onemax_new_random n) q ps) (fun _ => True)).
Proof.
  intros Hn Hfn Ha H2 Hf Hr Hp; destruct (om_seed n Hn Hfn) as (seed & Hs1 & Hs2).
  destruct (ga_total_runs onemax_ops fexp onemax_model (has_length n) f s (onemax_new_random n) seed q ps) as [A B]; auto using om_total, om_good_start.
  split; [intros fuel; apply A|intros k Hk; apply B; auto].
Qed.
Lemma aga_om_runs n (f : PS -> population onemax -> M (bool * PS)) s q ps :
  1 <= n -> fits_usize n ->
  aga_accepted q -> 2 <= aga_population_size q -> fits_usize (aga_population_size q) -> robust_strategy (aga_selection_strategy q) ->
  (forall ps p, must (f ps p) (fun _ => True)) ->
  (forall fuel, ~ may_fail (evolution_run onemax_ops fexp onemax_model AGA (quiet f) fuel s (onemax_new_random n) q ps) Panic) /\
  (forall k, (forall ps' p, generation p = k -> must (f ps' p) (fun o => fst o = false)) ->
     must (evolution_run onemax_ops fexp onemax_model AGA (quiet f) (S k) s (onemax_new_random n) q ps) (fun _ => True)).
Proof.
  intros Hn Hfn Ha H2 Hf Hr Hp; destruct (om_seed n Hn Hfn) as (seed & Hs1 & Hs2).
  destruct (aga_total_runs onemax_ops fexp onemax_model (has_length n) f s (onemax_new_random n) seed q ps) as [A B]; auto using om_total, om_good_start.
  split; [intros fuel; apply A|intros k Hk; apply B; auto].
Qed.

Lemma ga_om_lengths n (f : PS -> population onemax -> M (bool * PS)) fuel s q ps x r :
  fits_usize (ga_population_size q) ->
  may (evolution_run onemax_ops fexp onemax_model GA (quiet f) fuel s (onemax_new_random n) q ps) (x, r) ->
  (length (genome x) = n /\ onemax_evaluate tt x = Ret x) /\
  forall p y, In p (r_trace r) -> In y (individuals p) -> length (genome y) = n /\ onemax_evaluate tt y = Ret y.
Proof.
  intros Hf H; apply (ga_run_keeps onemax_ops fexp onemax_model _ _ f fuel s (onemax_new_random n) q ps x r (om_keeps n) om_left_alone Hf); auto.
  intros y Hy; exact (must_may _ _ _ (om_random n) Hy).
Qed.
Lemma aga_om_lengths n (f : PS -> population onemax -> M (bool * PS)) fuel s q ps x r :
  fits_usize (aga_population_size q) ->
  may (evolution_run onemax_ops fexp onemax_model AGA (quiet f) fuel s (onemax_new_random n) q ps) (x, r) ->
  (length (genome x) = n /\ onemax_evaluate tt x = Ret x) /\
  forall p y, In p (r_trace r) -> In y (individuals p) -> length (genome y) = n /\ onemax_evaluate tt y = Ret y.
Proof.
  intros Hf H; apply (aga_run_keeps onemax_ops fexp onemax_model _ _ f fuel s (onemax_new_random n) q ps x r (om_keeps n) om_left_alone Hf); auto.
  intros y Hy; exact (must_may _ _ _ (om_random n) Hy).
Qed.

(** Length 0 *)
Lemma ga_configure_cases (s : ga_state onemax unit) q : (exists s', ga_configure s q = Ret s') \/ ga_configure s q = Fail Panic.
Proof.
  unfold ga_configure, ga_validate, interpolate_usize, create_selector, tournament_new, elitist_new, boltzmann_new.
  repeat (match goal with |- context [massert ?b] => destruct b end; cbn [massert bind]; [|right; reflexivity]).
  destruct (ga_selection_strategy q); cbn [bind]; eauto;
  repeat (match goal with |- context [massert ?b] => destruct b end; cbn [massert bind]; [|right; reflexivity]); eauto.
Qed.
Lemma aga_configure_cases (s : aga_state onemax unit) q : (exists s', aga_configure s q = Ret s') \/ aga_configure s q = Fail Panic.
Proof.
  unfold aga_configure, aga_validate, interpolate_usize, create_selector, tournament_new, elitist_new, boltzmann_new.
  repeat (match goal with |- context [massert ?b] => destruct b end; cbn [massert bind]; [|right; reflexivity]).
  destruct (aga_selection_strategy q); cbn [bind]; eauto;
  repeat (match goal with |- context [massert ?b] => destruct b end; cbn [massert bind]; [|right; reflexivity]); eauto.
Qed.

Lemma om_empty_init ms l : Forall (has_length 0) l -> must_fail (initialize_population onemax_ops onemax_model ms l) Panic.
Proof.
  intros H; unfold initialize_population.
  assert (E : mapM (m_evaluate onemax_model ms) l = Ret (map (fun _ => mkOneMax [] (fdiv (f_of_nat 0) (f_of_nat 0))) l)).
  { induction H as [|a l Ha Hl IH]; [reflexivity|]; cbn [mapM]; rewrite IH; cbn [m_evaluate onemax_model]; unfold onemax_evaluate.
    unfold has_length in Ha; destruct (genome a); [reflexivity|discriminate]. }
  rewrite E; cbn [bind]; replace (filter _ _) with (@nil onemax); [apply new_empty|].
  clear; induction l as [|a l IH]; [reflexivity|exact IH].
Qed.

Lemma ga_om_empty (progress : PS -> ga_state onemax unit -> population onemax -> M (bool * PS * ga_state onemax unit)) fuel s q ps :
  must_fail (evolution_run onemax_ops fexp onemax_model GA progress fuel s (onemax_new_random 0) q ps) Panic.
Proof.
  unfold evolution_run.
  eapply must_fail_bind_r.
  - instantiate (1 := Forall (has_length 0)); unfold extend_population; destruct (_ =? 0); [constructor|].
    eapply must_bind_intro; [apply must_repeatM, om_random|]; intros news [_ H]; exact H.
  - intros init Hi; apply must_fail_bind_l; unfold evolve_population; cbn [ga_algorithm alg_configure alg_model].
    destruct (ga_configure_cases s q) as [[s' ->]| ->]; [|reflexivity]; cbn [bind]; apply must_fail_bind_l, om_empty_init; auto.
Qed.
Lemma aga_om_empty (progress : PS -> aga_state onemax unit -> population onemax -> M (bool * PS * aga_state onemax unit)) fuel s q ps :
  must_fail (evolution_run onemax_ops fexp onemax_model AGA progress fuel s (onemax_new_random 0) q ps) Panic.
Proof.
  unfold evolution_run.
  eapply must_fail_bind_r.
  - instantiate (1 := Forall (has_length 0)); unfold extend_population; destruct (_ =? 0); [constructor|].
    eapply must_bind_intro; [apply must_repeatM, om_random|]; intros news [_ H]; exact H.
  - intros init Hi; apply must_fail_bind_l; unfold evolve_population; cbn [aga_algorithm alg_configure alg_model].
    destruct (aga_configure_cases s q) as [[s' ->]| ->]; [|reflexivity]; cbn [bind]; apply must_fail_bind_l, om_empty_init; auto.
Qed.

(** ** C76 *)
Lemma om_no_new b : keeps onemax_model (fun x => ~ In b (genome x)) (fun x => ~ In b (genome x)).
Proof.
  split; [auto|]; split; [intros ms a c x Ha Hc H Hb; destruct (om_crossover_genes ms a c x H b Hb); auto|].
  split; [intros ms a x Ha H Hb; pose proof (must_may _ _ _ (om_mutate_must ms a) H) as (_ & _ & G); auto|].
  split; intros ms a x Ha H; cbn in H; subst x; auto.
Qed.

Lemma ga_om_no_new b (f : PS -> population onemax -> M (bool * PS)) fuel s init q ps r :
  fits_usize (ga_population_size q) -> fits_usize (length init) ->
  (forall x, In x init -> ~ In b (genome x)) ->
  may (evolve_population onemax_ops fexp onemax_model GA (quiet f) fuel s init q ps) r ->
  forall p y, In p (r_trace r) -> In y (individuals p) -> ~ In b (genome y).
Proof.
  intros Hf Hl Hi H; eapply (ga_keeps onemax_ops fexp onemax_model _ _ f fuel s init q ps r (om_no_new b) om_left_alone Hf Hl); auto.
  apply Forall_forall; auto.
Qed.
Lemma aga_om_no_new b (f : PS -> population onemax -> M (bool * PS)) fuel s init q ps r :
  fits_usize (aga_population_size q) -> fits_usize (length init) ->
  (forall x, In x init -> ~ In b (genome x)) ->
  may (evolve_population onemax_ops fexp onemax_model AGA (quiet f) fuel s init q ps) r ->
  forall p y, In p (r_trace r) -> In y (individuals p) -> ~ In b (genome y).
Proof.
  intros Hf Hl Hi H; eapply (aga_keeps onemax_ops fexp onemax_model _ _ f fuel s init q ps r (om_no_new b) om_left_alone Hf Hl); auto.
  apply Forall_forall; auto.
Qed.
End Runs.

Section Stuck.
Context {PS : Type} (fexp : f64 -> f64).
Lemma no_other (b : bool) l : ~ In b l -> Forall (eq (negb b)) l.
Proof. intros H; apply Forall_forall; intros x Hx; destruct b, x; cbn; auto; contradiction. Qed.
Lemma uniform_no (b : bool) l : Forall (eq b) l -> ~ In (negb b) l.
Proof. intros H Hx; rewrite Forall_forall in H; specialize (H _ Hx); destruct b; discriminate. Qed.
Lemma uniform_keep b l : ~ In (negb b) l -> Forall (eq b) l.
Proof. intros H; apply no_other in H; rewrite negb_involutive in H; auto. Qed.

Lemma ga_om_stuck b (f : PS -> population onemax -> M (bool * PS)) fuel s seed q ps x r :
  fits_usize (ga_population_size q) -> Forall (eq b) (genome seed) ->
  may (evolve_individual onemax_ops fexp onemax_model (ga_algorithm onemax_ops fexp onemax_model) (quiet f) fuel s seed q ps) (x, r) ->
  Forall (eq b) (genome x) /\ length (genome x) = length (genome seed).
Proof.
  intros Hf Hb H; split.
  - apply uniform_keep.
    exact (proj1 (ga_individual_keeps onemax_ops fexp onemax_model _ _ f fuel s seed q ps x r (om_no_new (negb b)) om_left_alone Hf (uniform_no _ _ Hb) H)).
  - refine (proj1 (proj1 (ga_individual_keeps onemax_ops fexp onemax_model _ _ f fuel s seed q ps x r (om_keeps (length (genome seed))) om_left_alone Hf eq_refl H))).
Qed.
Lemma aga_om_stuck b (f : PS -> population onemax -> M (bool * PS)) fuel s seed q ps x r :
  fits_usize (aga_population_size q) -> Forall (eq b) (genome seed) ->
  may (evolve_individual onemax_ops fexp onemax_model (aga_algorithm onemax_ops fexp onemax_model) (quiet f) fuel s seed q ps) (x, r) ->
  Forall (eq b) (genome x) /\ length (genome x) = length (genome seed).
Proof.
  intros Hf Hb H; split.
  - apply uniform_keep.
    exact (proj1 (aga_individual_keeps onemax_ops fexp onemax_model _ _ f fuel s seed q ps x r (om_no_new (negb b)) om_left_alone Hf (uniform_no _ _ Hb) H)).
  - refine (proj1 (proj1 (aga_individual_keeps onemax_ops fexp onemax_model _ _ f fuel s seed q ps x r (om_keeps (length (genome seed))) om_left_alone Hf eq_refl H))).
Qed.
End Stuck.

(** ** Examples *)
Definition om_run (n k : nat) : M (onemax * run_result onemax (ga_state onemax unit) unit) :=
  evolution_run onemax_ops (fun x => x) onemax_model (ga_algorithm onemax_ops (fun x => x) onemax_model) (quiet (stop_at k)) (S k) (ga_from tt)
    (onemax_new_random n) ex_half tt.
Lemma c69_example : ga_accepted ex_half /\ robust_strategy (ga_selection_strategy ex_half) /\
  option_map (fun o => (genome (fst o), length (r_trace (snd o)))) (run (om_run 3 2) [0; 1; 0; 1; 1; 0; 0; 0; 1; 0; 1; 1; 5; 3; 1; 2; 3; 2; 1; 4; 2; 1]%N) = Some ([false; true; true], 3).
Proof. split; [apply ex_half_accepted|split; [exact I|vm_compute; reflexivity]]. Qed.
Definition om_stuck (b : bool) (k : nat) : M (onemax * run_result onemax (ga_state onemax unit) unit) :=
  evolve_individual onemax_ops (fun x => x) onemax_model (ga_algorithm onemax_ops (fun x => x) onemax_model) (quiet (stop_at k)) (S k) (ga_from tt)
    (onemax_from (repeat b 3)) ex_half tt.
Lemma c76_example : Forall (eq true) (genome (onemax_from (repeat true 3))) /\
  option_map (fun o => (genome (fst o), length (r_trace (snd o)))) (run (om_stuck true 2) [3; 1; 2; 5; 4]%N) = Some ([true; true; true], 3).
Proof. split; [repeat constructor|vm_compute; reflexivity]. Qed.
Lemma c68_example : genome (onemax_from [true; false; true]) <> [] /\ (Z.of_nat (length (genome (onemax_from [true; false; true]))) <= 2 ^ 53)%Z  /\
  count_occ Bool.bool_dec (genome (onemax_from [true; false; true])) true = 2.
Proof. split; [discriminate|split; [vm_compute; discriminate|reflexivity]]. Qed.
Lemma c75_example : keeps onemax_model (has_length 3) (fun x => length (genome x) = 3 /\ onemax_evaluate tt x = Ret x) /\
  selector_left_alone onemax_model /\ (forall y, may (onemax_new_random 3) y -> has_length 3 y).
Proof. split; [apply om_keeps|split; [apply om_left_alone|]]; intros y Hy; exact (must_may _ _ _ (om_random 3) Hy). Qed.

Lemma genome_eqb_eq a b : genome_eqb a b = true <-> a = b.
Proof.
  revert b; induction a as [|x a IH]; intros [|y b]; cbn; split; intros H; try discriminate; auto.
  - apply andb_true_iff in H as [H1 H2]; apply eqb_prop in H1; apply IH in H2; congruence.
  - injection H as -> ->; rewrite eqb_reflx; cbn; apply IH; auto.
Qed.

Lemma onemax_equality (x y : onemax) :
  ieq onemax_ops x y = true <-> genome x = genome y /\ feq (om_fitness x) (om_fitness y) = true.
Proof. cbn; rewrite andb_true_iff, genome_eqb_eq; tauto. Qed.

Lemma onemax_keeps_genomes (l : list onemax) : l <> [] ->
  must (population_new onemax_ops l) (fun p => forall g, In g (map genome (individuals p)) <-> In g (map genome l)).
Proof.
  intros Hl; eapply must_mono; [|apply (proj2 (c46_new onemax_ops l) Hl)].
  intros p (_ & _ & _ & [H1 H2] & _) g; rewrite !in_map_iff; split; intros (x & Ex & Hx).
  - exists x; auto.
  - destruct (H2 x Hx) as [H|(y & Hy & E)]; [exists x; auto|].
    apply onemax_equality in E as [E _]; exists y; split; congruence.
Qed.

Lemma onemax_replace_keeps_genomes (p : population onemax) (l : list onemax) : l <> [] ->
  must (population_replace onemax_ops p l) (fun '(q, _) =>
    forall g, In g (map genome (individuals q)) <-> In g (map genome l)).
Proof.
  intros Hl; eapply must_mono; [|apply (proj2 (c46_replace onemax_ops p l) Hl)].
  intros [q old] (_ & [H1 H2] & _) g; rewrite !in_map_iff; split; intros (x & Ex & Hx).
  - exists x; auto.
  - destruct (H2 x Hx) as [H|(y & Hy & E)]; [exists x; auto|].
    apply onemax_equality in E as [E _]; exists y; split; congruence.
Qed.

Lemma c68_example2 :
  ieq onemax_ops (mkOneMax [true; false] f1) (mkOneMax [false; true] f1) = false /\
  option_map (fun p => map genome (individuals p)) (run (population_new onemax_ops
    [mkOneMax [true; false] f1; mkOneMax [true; false] f1; mkOneMax [false; true] f1]) [0]%N) =
  Some [[true; false]; [false; true]].
Proof. split; vm_compute; reflexivity. Qed.
