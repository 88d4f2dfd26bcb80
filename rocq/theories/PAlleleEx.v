(** * PAlleleEx: tours and OneMax genomes without mutation, with examples (C111). *)
From Coq Require Import List Bool Arith NArith ZArith Reals Lia Permutation.
From Flocq Require Import Core BinarySingleNaN.
From Verif Require Import Rnd LRnd F64 LF64 MStats MOperators MCrossover MMutation MPopulation MSelection MModel MAlgorithms MOneMax
  Spec SpecC SpecF SpecA SpecK SpecH SpecT SpecY PCrossoverScx PCrossoverErx PCrossoverAll PCrossoverAny3
  PModel PAlgorithms PRun PRun3 PRun4 PRun5 PTour PAllele ExF ExM ExR ExY PHistEx.
Import ListNotations.
Local Open Scope nat_scope.

Section Tours.
Context {G : Type} (eqb ltb : G -> G -> bool) (steps : nat) (cs : crossover_strategy) (mu : mutation_strategy) (score : list G -> f64).
Hypothesis Heq : eq_ok eqb.
Notation mdl := (tour_model eqb ltb steps cs mu score).

Lemma tour_selector : selector_left_alone mdl.
Proof. intros ms p b ms' b' H; cbn in H; injection H as <- <-; auto. Qed.
Lemma tour_rates : rates_left_alone mdl.
Proof. intros ms p b ms' b' H; cbn in H; injection H as <- <-; auto. Qed.

Definition fixed (cities : list G) (i : nat) (g : G) (x : tour G) : Prop :=
  (cs = PartiallyMapped -> Permutation cities (route x)) /\ holds_at i g (route x).

Lemma fixed_kept cities i g : positional cs \/ cs = PartiallyMapped /\ NoDup cities /\ length cities < steps ->
  crossing_keeps mdl (fixed cities i g) (fixed cities i g).
Proof.
  intros Hcs; split; [auto|]; split; [|split].
  - intros ms a b x [Ha Ga] [Hb Gb] H; cbn [tour_model m_crossover] in H; apply may_bind in H as (r & Hr & H); cbn in H; subst x.
    split; cbn [route].
    + intros E; destruct Hcs as [[? | ?]|(_ & Hn & Hl)]; [congruence..|].
      assert (Ne : route a <> []) by (intros E'; unfold holds_at in Ga; rewrite E' in Ga; destruct i; discriminate).
      transitivity (route a); [auto|].
      refine (must_may _ _ _ (crossover_perm eqb ltb Heq steps cs (route a) (route b) _ _ Ne _ _) Hr).
      * eapply Permutation_NoDup; [exact (Ha E)|exact Hn].
      * transitivity cities; [apply Permutation_sym|]; auto.
      * rewrite <- (Permutation_length (Ha E)); auto.
      * rewrite E; discriminate.
    + refine (crossover_agree eqb ltb Heq steps cs _ _ _ _ _ _ Hr Ga Gb).
      destruct Hcs as [Hc|(Hc & Hn & _)]; [left; exact Hc|right; split; [exact Hc|eapply Permutation_NoDup; [exact (Ha Hc)|exact Hn]]].
  - intros ms a x Ha H; cbn in H; subst; exact Ha.
  - intros ms a x Ha H; cbn in H; subst; exact Ha.
Qed.

Lemma lost_kept i g : positional cs ->
  crossing_keeps mdl (fun x => ~ holds_at i g (route x)) (fun x => ~ holds_at i g (route x)).
Proof.
  intros Hcs; split; [auto|]; split; [|split].
  - intros ms a b x Ha Hb H; cbn [tour_model m_crossover] in H; apply may_bind in H as (r & Hr & H); cbn in H; subst x.
    cbn [route]; unfold holds_at in *; destruct (positional_from eqb ltb Heq _ _ _ _ _ Hcs Hr i) as [-> | ->]; auto.
  - intros ms a x Ha H; cbn in H; subst; exact Ha.
  - intros ms a x Ha H; cbn in H; subst; exact Ha.
Qed.

Context {PS : Type} (fexp : f64 -> f64).
Lemma ga_fixed cities i g (f : PS -> population (tour G) -> M (bool * PS)) fuel s init q ps r :
  positional cs \/ cs = PartiallyMapped /\ NoDup cities /\ length cities < steps ->
  (cs = PartiallyMapped -> forall x, In x init -> Permutation cities (route x)) ->
  (forall x, In x init -> holds_at i g (route x)) ->
  fits_usize (ga_population_size q) -> fits_usize (length init) -> flt f0 (ga_mutation_rate q) = false ->
  may (evolve_population (tour_ops eqb) fexp mdl (ga_algorithm (tour_ops eqb) fexp mdl) (quiet f) fuel s init q ps) r ->
  forall p x, In p (r_trace r) -> In x (individuals p) -> holds_at i g (route x).
Proof.
  intros Hcs Hp Hi Hf Hl Hm H p x Hin Hx.
  refine (proj2 (ga_crossing (tour_ops eqb) fexp mdl (fixed cities i g) (fixed cities i g) f fuel s init q ps r
    (fixed_kept cities i g Hcs) tour_selector tour_rates Hf Hl _ Hm H p x Hin Hx)).
  apply Forall_forall; intros y Hy; split; auto.
Qed.
Lemma aga_fixed cities i g (f : PS -> population (tour G) -> M (bool * PS)) fuel s init q ps r :
  positional cs \/ cs = PartiallyMapped /\ NoDup cities /\ length cities < steps ->
  (cs = PartiallyMapped -> forall x, In x init -> Permutation cities (route x)) ->
  (forall x, In x init -> holds_at i g (route x)) ->
  fits_usize (aga_population_size q) -> fits_usize (length init) ->
  flt f0 (fst (aga_mutation_rate_range q)) = false -> flt f0 (snd (aga_mutation_rate_range q)) = false ->
  may (evolve_population (tour_ops eqb) fexp mdl (aga_algorithm (tour_ops eqb) fexp mdl) (quiet f) fuel s init q ps) r ->
  forall p x, In p (r_trace r) -> In x (individuals p) -> holds_at i g (route x).
Proof.
  intros Hcs Hp Hi Hf Hl Hm Hm' H p x Hin Hx.
  refine (proj2 (aga_crossing (tour_ops eqb) fexp mdl (fixed cities i g) (fixed cities i g) f fuel s init q ps r
    (fixed_kept cities i g Hcs) tour_selector tour_rates Hf Hl _ Hm Hm' H p x Hin Hx)).
  apply Forall_forall; intros y Hy; split; auto.
Qed.
Lemma ga_lost i g (f : PS -> population (tour G) -> M (bool * PS)) fuel s init q ps r :
  positional cs -> (forall x, In x init -> ~ holds_at i g (route x)) ->
  fits_usize (ga_population_size q) -> fits_usize (length init) -> flt f0 (ga_mutation_rate q) = false ->
  may (evolve_population (tour_ops eqb) fexp mdl (ga_algorithm (tour_ops eqb) fexp mdl) (quiet f) fuel s init q ps) r ->
  forall p x, In p (r_trace r) -> In x (individuals p) -> ~ holds_at i g (route x).
Proof.
  intros Hcs Hi Hf Hl Hm H p x Hin Hx.
  refine (ga_crossing (tour_ops eqb) fexp mdl (fun x => ~ holds_at i g (route x)) (fun x => ~ holds_at i g (route x)) f fuel s init q ps r
    (lost_kept i g Hcs) tour_selector tour_rates Hf Hl _ Hm H p x Hin Hx).
  apply Forall_forall; exact Hi.
Qed.
Lemma aga_lost i g (f : PS -> population (tour G) -> M (bool * PS)) fuel s init q ps r :
  positional cs -> (forall x, In x init -> ~ holds_at i g (route x)) ->
  fits_usize (aga_population_size q) -> fits_usize (length init) ->
  flt f0 (fst (aga_mutation_rate_range q)) = false -> flt f0 (snd (aga_mutation_rate_range q)) = false ->
  may (evolve_population (tour_ops eqb) fexp mdl (aga_algorithm (tour_ops eqb) fexp mdl) (quiet f) fuel s init q ps) r ->
  forall p x, In p (r_trace r) -> In x (individuals p) -> ~ holds_at i g (route x).
Proof.
  intros Hcs Hi Hf Hl Hm Hm' H p x Hin Hx.
  refine (aga_crossing (tour_ops eqb) fexp mdl (fun x => ~ holds_at i g (route x)) (fun x => ~ holds_at i g (route x)) f fuel s init q ps r
    (lost_kept i g Hcs) tour_selector tour_rates Hf Hl _ Hm Hm' H p x Hin Hx).
  apply Forall_forall; exact Hi.
Qed.
End Tours.

(** ** OneMax *)
Section Bits.
Context {PS : Type} (fexp : f64 -> f64).
Lemma bool_eq_ok : eq_ok Bool.eqb.
Proof. intros x y; apply Bool.eqb_true_iff. Qed.
Lemma bits_kept i b : crossing_keeps onemax_model (fun x => holds_at i b (genome x)) (fun x => holds_at i b (genome x)).
Proof.
  split; [auto|]; split; [|split].
  - intros ms a c x Ha Hb H; cbn [onemax_model m_crossover] in H; unfold onemax_crossover in H; apply may_bind in H as (r & Hr & H); cbn in H; subst x.
    exact (crossover_agree Bool.eqb _ bool_eq_ok 0 SinglePoint _ _ _ _ _ (or_introl (or_intror eq_refl)) Hr Ha Hb).
  - intros ms a x Ha H; cbn in H; subst; exact Ha.
  - intros ms a x Ha H; cbn in H; subst; exact Ha.
Qed.
Lemma om_selector : selector_left_alone onemax_model.
Proof. intros ms p b ms' b' H; cbn in H; injection H as <- <-; auto. Qed.
Lemma om_rates : rates_left_alone onemax_model.
Proof. intros ms p b ms' b' H; cbn in H; injection H as <- <-; auto. Qed.
Lemma ga_bits i b (f : PS -> population onemax -> M (bool * PS)) fuel s init q ps r :
  (forall x, In x init -> holds_at i b (genome x)) ->
  fits_usize (ga_population_size q) -> fits_usize (length init) -> flt f0 (ga_mutation_rate q) = false ->
  may (evolve_population onemax_ops fexp onemax_model (ga_algorithm onemax_ops fexp onemax_model) (quiet f) fuel s init q ps) r ->
  forall p x, In p (r_trace r) -> In x (individuals p) -> holds_at i b (genome x).
Proof.
  intros Hi Hf Hl Hm H p x Hin Hx.
  refine (ga_crossing onemax_ops fexp onemax_model _ _ f fuel s init q ps r (bits_kept i b) om_selector om_rates Hf Hl _ Hm H p x Hin Hx).
  apply Forall_forall; exact Hi.
Qed.
Lemma aga_bits i b (f : PS -> population onemax -> M (bool * PS)) fuel s init q ps r :
  (forall x, In x init -> holds_at i b (genome x)) ->
  fits_usize (aga_population_size q) -> fits_usize (length init) ->
  flt f0 (fst (aga_mutation_rate_range q)) = false -> flt f0 (snd (aga_mutation_rate_range q)) = false ->
  may (evolve_population onemax_ops fexp onemax_model (aga_algorithm onemax_ops fexp onemax_model) (quiet f) fuel s init q ps) r ->
  forall p x, In p (r_trace r) -> In x (individuals p) -> holds_at i b (genome x).
Proof.
  intros Hi Hf Hl Hm Hm' H p x Hin Hx.
  refine (aga_crossing onemax_ops fexp onemax_model _ _ f fuel s init q ps r (bits_kept i b) om_selector om_rates Hf Hl _ Hm Hm' H p x Hin Hx).
  apply Forall_forall; exact Hi.
Qed.
End Bits.

(** ** Witnesses *)
Lemma nat_ok : eq_ok Nat.eqb.
Proof. intros x y; apply Nat.eqb_eq. Qed.
Lemma perm4 (p : list nat) : In p [[0; 1; 2; 3]; [1; 0; 2; 3]; [1; 2; 0; 3]] -> Permutation [0; 1; 2; 3] p.
Proof.
  intros [<-|[<-|[<-|[]]]].
  - apply Permutation_refl.
  - apply perm_swap.
  - apply perm_trans with [1; 0; 2; 3]; [apply perm_swap|apply perm_skip, perm_swap].
Qed.
Lemma nodup4 : NoDup [0; 1; 2; 3].
Proof. repeat constructor; cbn; intuition discriminate. Qed.

Lemma cross4 s p2 t r : s <> SinglePoint -> In p2 [[0; 1; 2; 3]; [1; 0; 2; 3]; [1; 2; 0; 3]] ->
  run (crossover Nat.eqb Nat.ltb 5 s [0; 1; 2; 3] p2) t = Some r -> may (crossover Nat.eqb Nat.ltb 5 s [0; 1; 2; 3] p2) r.
Proof.
  intros Hs Hp H; refine (run_may _ _ _ _ (crossover_perm Nat.eqb Nat.ltb nat_ok 5 s _ _ nodup4 (perm4 _ Hp) _ _ Hs) H); [discriminate|cbn; lia].
Qed.

Lemma others_break s : ~ positional s -> s <> PartiallyMapped ->
  exists (p1 p2 r : list nat) (i g : nat), perm_parents p1 p2 /\ length p1 < 5 /\
    may (crossover Nat.eqb Nat.ltb 5 s p1 p2) r /\ holds_at i g p1 /\ holds_at i g p2 /\ ~ holds_at i g r.
Proof.
  intros Hp Hm; exists [0; 1; 2; 3], [1; 0; 2; 3].
  assert (PP : perm_parents [0; 1; 2; 3] [1; 0; 2; 3]) by (split; [exact nodup4|apply perm4; right; left; reflexivity]).
  assert (X : exists t r, run (crossover Nat.eqb Nat.ltb 5 s [0; 1; 2; 3] [1; 0; 2; 3]) t = Some r /\ nth_error r 2 <> Some 2).
  { destruct s; try (exfalso; apply Hp; red; tauto); try congruence.
    - exists [1; 0; 0; 0]%N; eexists; split; [vm_compute; reflexivity|cbn; discriminate].
    - exists [2]%N; eexists; split; [vm_compute; reflexivity|cbn; discriminate].
    - exists [2; 0; 0; 0; 0; 0; 0; 0; 0; 0]%N; eexists; split; [vm_compute; reflexivity|cbn; discriminate].
    - exists [0; 0]%N; eexists; split; [vm_compute; reflexivity|cbn; discriminate]. }
  destruct X as (t & r & Hr & Hne); exists r, 2, 2; split; [exact PP|]; split; [cbn; lia|]; split.
  - refine (cross4 s _ t r _ _ Hr); [intros ->; apply Hp; red; tauto|right; left; reflexivity].
  - repeat split; auto.
Qed.

Lemma pmx_invents : exists (p1 p2 r : list nat) (i g : nat), perm_parents p1 p2 /\ length p1 < 5 /\
    may (crossover Nat.eqb Nat.ltb 5 PartiallyMapped p1 p2) r /\ ~ holds_at i g p1 /\ ~ holds_at i g p2 /\ holds_at i g r.
Proof.
  exists [0; 1; 2; 3], [1; 2; 0; 3], [0; 2; 1; 3], 2, 1.
  split; [split; [exact nodup4|apply perm4; right; right; left; reflexivity]|]; split; [cbn; lia|]; split.
  - apply (cross4 _ _ [0; 0]%N); [discriminate|right; right; left; reflexivity|vm_compute; reflexivity].
  - repeat split; cbn; discriminate.
Qed.

Lemma tour_run_must cs p2 : cs <> SinglePoint -> In p2 [[0; 1; 2; 3]; [1; 0; 2; 3]; [1; 2; 0; 3]] ->
  must (tour_run cs [[0; 1; 2; 3]; p2]) (fun _ => True).
Proof.
  intros Hc Hp; eapply must_mono; [|refine (proj2 (ga_total (tour_ops Nat.eqb) ex_exp (tour_model Nat.eqb Nat.ltb 5 cs Scramble flat)
    (fun x => Permutation [0; 1; 2; 3] (route x)) (stop_at 1) (ga_from tt) _ no_mutation tt _ _ _ _ _ _ _ _) 1 _)].
  - auto.
  - split; [discriminate|]; split; [apply ratio_lit; vm_compute; reflexivity|]; split; [exact rate1|]; split; [exact rate0|exact Logic.I].
  - cbn; lia.
  - apply small_fits; cbn; lia.
  - apply small_fits; cbn; lia.
  - exact Logic.I.
  - exact (tour_total Nat.eqb Nat.ltb nat_ok 5 cs flat [0; 1; 2; 3] Hc nodup4 (le_n 5) Scramble ltac:(discriminate) ltac:(discriminate)).
  - split.
    + constructor; [apply Permutation_refl|]; constructor; [exact (perm4 _ Hp)|constructor].
    + exists (mkTour [0; 1; 2; 3] f0); split; [left; reflexivity|reflexivity].
  - intros; apply stop_total.
  - intros; apply stop_stops; auto.
Qed.

Lemma tour_run_shows cs p2 t l : cs <> SinglePoint -> In p2 [[0; 1; 2; 3]; [1; 0; 2; 3]; [1; 2; 0; 3]] ->
  option_map routes_shown (run (tour_run cs [[0; 1; 2; 3]; p2]) t) = Some l ->
  exists r, may (tour_run cs [[0; 1; 2; 3]; p2]) r /\ routes_shown r = l.
Proof.
  intros Hc Hp H; destruct (run _ t) as [r|] eqn:E; [|discriminate]; injection H as H; exists r; split; [|exact H].
  exact (run_may _ _ _ _ (tour_run_must cs p2 Hc Hp) E).
Qed.

Lemma shown {S0 PS} (r : run_result (tour nat) S0 PS) l k j p x : routes_shown r = l ->
  nth_error l k = Some p -> nth_error p j = Some x ->
  exists q y, In q (r_trace r) /\ In y (individuals q) /\ route y = x.
Proof.
  intros <- Hp Hx; unfold routes_shown in Hp; rewrite nth_error_map in Hp; destruct (nth_error (r_trace r) k) as [q|] eqn:Hq; [|discriminate].
  injection Hp as <-; rewrite nth_error_map in Hx; destruct (nth_error (individuals q) j) as [y|] eqn:Hy; [|discriminate].
  injection Hx as <-; exists q, y; split; [eapply nth_error_In; eauto|split; [eapply nth_error_In; eauto|reflexivity]].
Qed.

Lemma order_run_breaks : exists r, may (tour_run Order [[0; 1; 2; 3]; [1; 0; 2; 3]]) r /\
  exists p x, In p (r_trace r) /\ In x (individuals p) /\ ~ holds_at 2 2 (route x).
Proof.
  destruct (tour_run_shows Order [1; 0; 2; 3] [0; 0; 0; 1]%N [[[0; 1; 2; 3]; [1; 0; 2; 3]]; [[1; 0; 2; 3]; [0; 2; 3; 1]; [0; 1; 2; 3]]]) as (r & Hr & El);
    [discriminate|right; left; reflexivity|vm_compute; reflexivity|].
  exists r; split; [exact Hr|]; destruct (shown r _ 1 1 _ _ El eq_refl eq_refl) as (q & y & Hq & Hy & Ey).
  exists q, y; split; [exact Hq|]; split; [exact Hy|]; rewrite Ey; cbn; discriminate.
Qed.

Lemma pmx_run_invents : exists r, may (tour_run PartiallyMapped [[0; 1; 2; 3]; [1; 2; 0; 3]]) r /\
  exists p x, In p (r_trace r) /\ In x (individuals p) /\ holds_at 2 1 (route x).
Proof.
  destruct (tour_run_shows PartiallyMapped [1; 2; 0; 3] [0; 0; 0; 1]%N [[[0; 1; 2; 3]; [1; 2; 0; 3]]; [[1; 2; 0; 3]; [0; 2; 1; 3]; [0; 1; 2; 3]]]) as (r & Hr & El);
    [discriminate|right; right; left; reflexivity|vm_compute; reflexivity|].
  exists r; split; [exact Hr|]; destruct (shown r _ 1 1 _ _ El eq_refl eq_refl) as (q & y & Hq & Hy & Ey).
  exists q, y; split; [exact Hq|]; split; [exact Hy|]; rewrite Ey; reflexivity.
Qed.

Lemma c111_example : NoDup [0; 1; 2; 3] /\ flt f0 (ga_mutation_rate no_mutation) = false /\ fits_usize (ga_population_size no_mutation) /\
  (exists r, may (tour_run PartiallyMapped [[0; 1; 2; 3]; [1; 2; 0; 3]]) r /\
     routes_shown r = [[[0; 1; 2; 3]; [1; 2; 0; 3]]; [[1; 2; 0; 3]; [0; 2; 1; 3]; [0; 1; 2; 3]]]) /\
  (exists r, may (tour_run Cycle [[0; 1; 2; 3]; [1; 2; 0; 3]]) r /\
     routes_shown r = [[[0; 1; 2; 3]; [1; 2; 0; 3]]; [[1; 2; 0; 3]; [0; 1; 2; 3]]]).
Proof.
  split; [exact nodup4|]; split; [vm_compute; reflexivity|]; split; [apply small_fits; cbn; lia|]; split.
  - apply (tour_run_shows PartiallyMapped [1; 2; 0; 3] [0; 0; 0; 1]%N); [discriminate|right; right; left; reflexivity|vm_compute; reflexivity].
  - apply (tour_run_shows Cycle [1; 2; 0; 3] [0; 0; 0; 1]%N); [discriminate|right; right; left; reflexivity|vm_compute; reflexivity].
Qed.
