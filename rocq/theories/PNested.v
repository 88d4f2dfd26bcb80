(** * PNested: runs started from within a run (C95), and the default parameters. *)
From Coq Require Import List Bool Arith NArith ZArith Reals Lia Lra Permutation.
From Flocq Require Import Core BinarySingleNaN.
From Verif Require Import Rnd LRnd F64 LF64 MStats MPopulation MSelection MModel MAlgorithms SpecF SpecA SpecB ExF ExM
  PSelection PSelection3 PPopulation PModel PInterp PAlgorithms PAlgorithms2 PRun PRun2 PRun3 PRun4 PRun5 PHist ExR.
Import ListNotations.
Local Open Scope nat_scope.

Section Nested.
Context {I : Type} (io : individual_ops I) (fexp : f64 -> f64) {MS : Type} (mdl : model I MS).
Context {P S0 : Type} (alg : algorithm I MS P S0) {PS PS' : Type} (size : P -> nat) (J : nat -> S0 -> Prop).
Hypothesis Jconf : forall s q s1, fits_usize (size q) -> may (alg_configure alg s q) s1 -> J (size q) s1.
Hypothesis Jprep : forall n s p s', J n s -> may (alg_prepare alg s p) s' -> J n s'.
Hypothesis Jel : forall n s, J n s -> exists e, e < n /\ alg_select_elites alg s = select_top e.
Hypothesis Jrep : forall n s, J n s -> snd (alg_reproduction_parameters alg s) = n.

Lemma step_size n s p s' p' : J n s -> may (evolve_step io fexp mdl alg s p) (s', p') ->
  J n s' /\ generation p' = S (generation p) /\ length (individuals p') <= n.
Proof.
  intros HJ H; pose proof (step_generation io fexp mdl alg _ _ _ _ H) as Hg.
  apply step_may in H as (el & off & H1 & H2 & H3 & H4 & Hne).
  pose proof (Jprep _ _ _ _ HJ H1) as HJ'; split; auto; split; auto.
  destruct (must_may _ _ _ (replace_must io p off Hne) H4) as (Hm & _); cbn [fst] in Hm.
  destruct Hm as (_ & _ & _ & Hl & _).
  destruct (Jel _ _ HJ') as (e & He & Ee); rewrite Ee in H2.
  destruct (select_top_spec e p []) as (rest & top & _ & Lt & Et); rewrite Et in H2; cbn [may app] in H2; subst el.
  pose proof (Jrep _ _ HJ') as Er; destruct (alg_reproduction_parameters alg s') as [b sz]; cbn [snd] in Er; subst sz.
  apply generate_may in H3 as (news & -> & Ln & _); rewrite app_length, Ln in Hl; unfold appended in Hl.
  destruct (n - length top =? 1) eqn:E; [lia|]; destruct (Nat.eqb_spec (n - length top) 1); lia.
Qed.

Lemma nested_inner s init' q' (f' : PS' -> population I -> M (bool * PS')) fuel' ps' r : fits_usize (size q') ->
  may (evolve_population io fexp mdl alg (quiet f') fuel' s init' q' ps') r -> J (size q') (r_algorithm r).
Proof.
  intros Hf H; unfold evolve_population in H; apply may_bind in H as (s1 & Hc & H); apply may_bind in H as (p & Hp & H).
  pose proof (Jconf _ _ _ Hf Hc) as HJ.
  destruct (loop_inv io fexp mdl alg f' (fun s _ => J (size q') s) (fun _ _ => True) fuel') with (s := s1) (p := p) (ps := ps') (tr := @nil (population I)) (r := r)
    as (t & _ & _ & _ & R); auto.
  intros s0 p0 s' p' H0 Hs; split; auto; exact (proj1 (step_size _ _ _ _ _ H0 Hs)).
Qed.

Lemma nested_loop g fuel' init' q q' (f' : PS' -> population I -> M (bool * PS')) ps' (f : PS -> population I -> M (bool * PS)) fuel :
  fits_usize (size q') ->
  let sz k := if k <=? g then size q else size q' in
  forall s p ps tr (r : run_result I S0 PS), J (sz (generation p)) s ->
  may (evolve_loop io fexp mdl alg (nested_at io fexp mdl alg g fuel' init' q' f' ps' f) fuel s p ps tr) r ->
  exists t, r_trace r = tr ++ p :: t /\
    forall k p', nth_error t k = Some p' -> length (individuals p') <= sz (generation p + S k).
Proof.
  intros Hf sz; induction fuel as [|n IH]; intros s p ps tr r HJ H; [destruct H|]; cbn [evolve_loop] in H.
  apply may_bind in H as ([[c ps1] s1] & Hp & H).
  assert (HJ1 : J (sz (S (generation p))) s1).
  { unfold nested_at in Hp; destruct (Nat.eqb_spec (generation p) g) as [E|E].
    - apply may_bind in Hp as (r' & Hr' & Hp); apply may_bind in Hp as ([c' ps''] & _ & Hp); cbn in Hp; injection Hp as -> -> <-.
      unfold sz; destruct (Nat.leb_spec (S (generation p)) g); [lia|]; eapply nested_inner; eauto.
    - apply quiet_may in Hp as [_ ->]; unfold sz in *.
      destruct (Nat.leb_spec (S (generation p)) g); destruct (Nat.leb_spec (generation p) g); auto; lia. }
  destruct c.
  - apply may_bind in H as ([s' p'] & Hs & H); destruct (step_size _ _ _ _ _ HJ1 Hs) as (HJ' & Hg & Hl).
    rewrite <- Hg in HJ'; destruct (IH _ _ _ _ _ HJ' H) as (t & E & A).
    exists (p' :: t); rewrite E, <- app_assoc; split; [reflexivity|].
    intros [|k] p''; cbn [nth_error]; [intros [= <-]; rewrite Nat.add_1_r; auto|].
    intros Hk; specialize (A k p'' Hk); rewrite Hg in A; replace (generation p + S (S k)) with (S (generation p) + S k) by lia; auto.
  - cbn in H; subst r; exists []; split; auto; intros [|k] p'; discriminate.
Qed.

Lemma nested_sizes g fuel' init' q q' (f' : PS' -> population I -> M (bool * PS')) ps' (f : PS -> population I -> M (bool * PS)) fuel s init ps
    (r : run_result I S0 PS) :
  fits_usize (size q) -> fits_usize (size q') ->
  may (evolve_population io fexp mdl alg (nested_at io fexp mdl alg g fuel' init' q' f' ps' f) fuel s init q ps) r ->
  forall k p, nth_error (r_trace r) k = Some p -> 0 < k ->
  length (individuals p) <= (if k <=? g then size q else size q').
Proof.
  intros Hf Hf' H k p Hk Hk0; unfold evolve_population in H; apply may_bind in H as (s1 & Hc & H); apply may_bind in H as (p0 & Hp & H).
  assert (Hg : generation p0 = 0).
  { exact (proj2 (init_begins io mdl _ _ _ Hp)). }
  destruct (nested_loop g fuel' init' q q' f' ps' f fuel Hf' s1 p0 ps [] r) as (t & Et & A); auto.
  - rewrite Hg; cbn; eapply Jconf; eauto.
  - cbn [app] in Et; rewrite Et in Hk; destruct k as [|k]; [lia|]; cbn [nth_error] in Hk; specialize (A k p Hk).
    rewrite Hg in A; exact A.
Qed.
End Nested.

Section Instances.
Context {I : Type} (io : individual_ops I) (fexp : f64 -> f64) {MS : Type} (mdl : model I MS) {PS PS' : Type}.

Definition ga_sized (n : nat) (s : ga_state I MS) : Prop := ga_size s = n /\ ga_elite_size s < n.
Definition aga_sized (n : nat) (s : aga_state I MS) : Prop := aga_size s = n /\ aga_elite_size s < n.

Lemma ga_nested (g fuel' : nat) (init' : list I) (q q' : ga_params) (f' : PS' -> population I -> M (bool * PS')) (ps' : PS')
    (f : PS -> population I -> M (bool * PS)) (fuel : nat) (s : ga_state I MS) (init : list I) (ps : PS) (r : run_result I (ga_state I MS) PS) :
  fits_usize (ga_population_size q) -> fits_usize (ga_population_size q') ->
  may (evolve_population io fexp mdl (ga_algorithm io fexp mdl)
         (nested_at io fexp mdl (ga_algorithm io fexp mdl) g fuel' init' q' f' ps' f) fuel s init q ps) r ->
  forall k p, nth_error (r_trace r) k = Some p -> 0 < k ->
  length (individuals p) <= (if k <=? g then ga_population_size q else ga_population_size q').
Proof.
  apply (nested_sizes io fexp mdl (ga_algorithm io fexp mdl) ga_population_size ga_sized).
  - intros s0 q0 s1 Hf H; destruct (ga_configured s0 q0 s1 Hf H) as (_ & e & [He _] & (H1 & H2 & _) & _).
    split; [auto|rewrite H2; auto].
  - intros n s0 p s' [H1 H2] H; cbn in H; unfold ga_prepare in H; apply may_bind in H as ([ms b] & _ & H).
    apply may_bind in H as (sel & _ & H); cbn in H; subst s'; split; auto.
  - intros n s0 [_ H]; exists (ga_elite_size s0); split; auto.
  - intros n s0 [H _]; exact H.
Qed.

Lemma aga_nested (g fuel' : nat) (init' : list I) (q q' : aga_params) (f' : PS' -> population I -> M (bool * PS')) (ps' : PS')
    (f : PS -> population I -> M (bool * PS)) (fuel : nat) (s : aga_state I MS) (init : list I) (ps : PS) (r : run_result I (aga_state I MS) PS) :
  fits_usize (aga_population_size q) -> fits_usize (aga_population_size q') ->
  may (evolve_population io fexp mdl (aga_algorithm io fexp mdl)
         (nested_at io fexp mdl (aga_algorithm io fexp mdl) g fuel' init' q' f' ps' f) fuel s init q ps) r ->
  forall k p, nth_error (r_trace r) k = Some p -> 0 < k ->
  length (individuals p) <= (if k <=? g then aga_population_size q else aga_population_size q').
Proof.
  apply (nested_sizes io fexp mdl (aga_algorithm io fexp mdl) aga_population_size aga_sized).
  - intros s0 q0 s1 Hf H; destruct (aga_configured s0 q0 s1 Hf H) as (_ & e & [He _] & (H1 & H2 & _) & _).
    split; [auto|rewrite H2; auto].
  - intros n s0 p s' [H1 H2] H; destruct (aga_adjust s0 p) as [[ref cr] mr] eqn:E.
    destruct (aga_prepare_may io fexp mdl s0 p s' H _ _ _ E) as (ms & b & sel & _ & _ & ->); split; auto.
  - intros n s0 [_ H]; exists (aga_elite_size s0); split; auto.
  - intros n s0 [H _]; exact H.
Qed.
End Instances.

(** ** A witness *)
(** Executing a tree, refusing draws without alternatives *)
Fixpoint run_strict {A} (m : M A) (tape : list N) : option A :=
  match m with
  | Ret a => Some a
  | Fail _ => None
  | Draw n k | Pick n k =>
      if (n =? 0)%N then None else
      match tape with
      | [] => run_strict (k 0%N) []
      | t :: ts => run_strict (k (t mod n)%N) ts
      end
  end.

Lemma run_strict_may {A} (m : M A) tape v : run_strict m tape = Some v -> may m v.
Proof.
  revert tape; induction m as [a|e'|n k IH|n k IH]; cbn; try discriminate; intros tape.
  - congruence.
  - destruct (N.eqb_spec n 0) as [|Hn]; [discriminate|]; destruct tape as [|t ts]; intros Hr.
    + exists 0%N; split; [lia|eapply IH; eauto].
    + exists (t mod n)%N; split; [apply N.mod_lt; auto|eapply IH; eauto].
  - destruct (N.eqb_spec n 0) as [|Hn]; [discriminate|]; destruct tape as [|t ts]; intros Hr.
    + exists 0%N; split; [lia|eapply IH; eauto].
    + exists (t mod n)%N; split; [apply N.mod_lt; auto|eapply IH; eauto].
Qed.

Definition ex_nested : M (run_result nat (ga_state nat unit) unit) :=
  evolve_population ex_io ex_exp ex_model (ga_algorithm ex_io ex_exp ex_model)
    (nested_at ex_io ex_exp ex_model (ga_algorithm ex_io ex_exp ex_model) 0 1 [1; 2] (ex_ga 6) (stop_at 0) tt (stop_at 1))
    2 (ga_from tt) [1; 2] (ex_ga 2) tt.
Definition ex_nested_tape : list N :=
  let big := (2 ^ 53 - 1)%N in [0; 0; big; 0; big; big; big; big; 0; 0; big; 0; big; big; 0; big; big; 0; 0; big; 0; 0; 0; 0; big; 0; big; 0; 0; big; big; 0; big; 0; 0; big; big; 0; big; 0]%N.

Lemma nested_refuted : exists (r : run_result nat (ga_state nat unit) unit) p,
  may ex_nested r /\ nth_error (r_trace r) 1 = Some p /\ ga_population_size (ex_ga 2) < length (individuals p).
Proof.
  assert (C : match run_strict ex_nested ex_nested_tape with
    | Some r => match nth_error (r_trace r) 1 with Some p => 2 <? length (individuals p) | None => false end
    | None => false end = true) by (vm_compute; reflexivity).
  destruct (run_strict ex_nested ex_nested_tape) as [r|] eqn:E; [|discriminate].
  destruct (nth_error (r_trace r) 1) as [p|] eqn:Ep; [|discriminate].
  exists r, p; split; [eapply run_strict_may; exact E|]; split; auto; apply Nat.ltb_lt in C; exact C.
Qed.

(** ** The default parameters *)
Lemma closest_lit p q : (Z.abs p <= 2 ^ 53)%Z -> (0 < q <= 2 ^ 53)%Z -> (Z.abs p <= q)%Z -> closest (f_lit p q) (IZR p / IZR q).
Proof.
  intros Hp Hq Hpq; unfold f_lit.
  destruct (f_of_Z_exact p Hp) as [Fp Vp]; destruct (f_of_Z_exact q) as [Fq Vq]; [lia|].
  assert (Hq0 : (0 < IZR q)%R) by (apply IZR_lt; lia).
  destruct (fdiv_correct (f_of_Z p) (f_of_Z q)) as (_ & _ & Hf & Hv); auto; [rewrite Vq; lra|].
  rewrite Vp, Vq in *.
  assert (B : (Rabs (IZR p / IZR q) <= 1)%R).
  { unfold Rdiv; rewrite Rabs_mult, (Rabs_pos_eq (/ IZR q)) by (left; apply Rinv_0_lt_compat; auto).
    rewrite <- abs_IZR; apply IZR_le in Hpq; apply (Rmult_le_reg_r (IZR q)); auto; rewrite Rmult_assoc, Rinv_l by lra; lra. }
  assert (Hb : (- big < rnd (IZR p / IZR q) < big)%R).
  { apply rnd_lt_big; apply Rle_trans with (1 := B); change 1%R with (bpow radix2 0); apply bpow_le; lia. }
  apply Hf in Hb; specialize (Hv Hb); split; auto; intros y Fy; rewrite Hv.
  destruct (round_N_pt radix2 fexp64 (fun x => negb (Z.even x)) (IZR p / IZR q)) as [_ H]; apply H; apply generic_format_B2R.
Qed.

Lemma closest_one : closest f1 1.
Proof.
  split; [exact (proj1 f1_val)|]; intros y _; rewrite (proj2 f1_val); replace (1 - 1)%R with 0%R by lra; rewrite Rabs_R0; apply Rabs_pos.
Qed.

Lemma default_values :
  (ga_population_size ga_params_default = 100 /\
   closest (ga_elitism_rate ga_params_default) (1 / 100) /\
   closest (ga_crossover_rate ga_params_default) (8 / 10) /\
   closest (ga_mutation_rate ga_params_default) (1 / 10) /\
   ga_selection_strategy ga_params_default = StRouletteWheel) /\
  (aga_population_size aga_params_default = 100 /\
   closest (aga_elitism_rate aga_params_default) (1 / 100) /\
   closest (fst (aga_crossover_rate_range aga_params_default)) (3 / 10) /\
   closest (snd (aga_crossover_rate_range aga_params_default)) 1 /\
   closest (fst (aga_mutation_rate_range aga_params_default)) (1 / 10) /\
   closest (snd (aga_mutation_rate_range aga_params_default)) 1 /\
   aga_selection_strategy aga_params_default = StRouletteWheel /\
   aga_parameter_adjustment_interval aga_params_default = 1) /\
  (closest (crossover_rate (breeding_default (I := unit))) (8 / 10) /\
   closest (mutation_rate (breeding_default (I := unit))) (1 / 10) /\
   parent_selector (breeding_default (I := unit)) = roulette_new).
Proof.
  cbn [breeding_default crossover_rate mutation_rate parent_selector ga_params_default aga_params_default ga_population_size ga_elitism_rate ga_crossover_rate ga_mutation_rate ga_selection_strategy
    aga_population_size aga_elitism_rate aga_crossover_rate_range aga_mutation_rate_range aga_selection_strategy aga_parameter_adjustment_interval fst snd].
  repeat split; try reflexivity; try apply closest_one; apply closest_lit; lia.
Qed.
