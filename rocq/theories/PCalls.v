(** * PCalls: proofs about the number of calls of user code (C115). *)
From Coq Require Import List Bool Arith NArith Lia ZArith Reals.
From Flocq Require Import IEEE754.Binary IEEE754.BinarySingleNaN.
From Verif Require Import Rnd LRnd F64 Spec SpecA SpecP MStats MPopulation MSelection MModel MAlgorithms PAlgorithms.
Import ListNotations.

(** ** Rules *)

Lemma calls_bind {A B} (m : M A) (f : A -> M B) n b :
  may_calls (bind m f) n b <-> exists a n1 n2, may_calls m n1 a /\ may_calls (f a) n2 b /\ n = n1 + n2.
Proof.
  revert n; induction m as [a|e|c k IH|c k IH]; intros n; cbn [bind may_calls].
  - split.
    + intros H. exists a, 0, n. auto.
    + intros (a' & n1 & n2 & (E & E0) & H & Hn). subst. exact H.
  - split; [intros []|intros (? & ? & ? & [] & _)].
  - destruct (c =? 0)%N.
    + destruct n as [|n].
      * split; [intros []|intros (a & n1 & n2 & H & _ & Hn)]. destruct n1; [exact H|discriminate].
      * rewrite IH. split; intros (a & n1 & n2 & H & H2 & Hn).
        -- exists a, (S n1), n2. cbn. repeat split; auto.
        -- destruct n1 as [|n1]; [destruct H|]. exists a, n1, n2. cbn in Hn. repeat split; auto.
    + split.
      * intros (i & Hi & H). rewrite IH in H. destruct H as (a & n1 & n2 & H & H2 & Hn).
        exists a, n1, n2. repeat split; auto. exists i; auto.
      * intros (a & n1 & n2 & (i & Hi & H) & H2 & Hn). exists i. split; auto. rewrite IH. exists a, n1, n2; auto.
  - split.
    + intros (i & Hi & H). rewrite IH in H. destruct H as (a & n1 & n2 & H & H2 & Hn).
      exists a, n1, n2. repeat split; auto. exists i; auto.
    + intros (a & n1 & n2 & (i & Hi & H) & H2 & Hn). exists i. split; auto. rewrite IH. exists a, n1, n2; auto.
Qed.

Lemma unmarked_calls {A} (m : M A) : unmarked m -> forall n a, may_calls m n a -> n = 0 /\ may m a.
Proof.
  induction m as [b|e|c k IH|c k IH]; cbn [unmarked may_calls may]; intros U n a H.
  - destruct H; auto.
  - destruct H.
  - destruct U as (Hc & U). destruct (N.eqb_spec c 0) as [E|_]; [lia|].
    destruct H as (i & Hi & H). destruct (IH i (U i Hi) n a H) as (E & H2). split; [exact E|]. exists i; auto.
  - destruct H as (i & Hi & H). destruct (IH i (U i Hi) n a H) as (E & H2). split; [exact E|]. exists i; auto.
Qed.

Lemma unmarked_may {A} (m : M A) : unmarked m -> forall a, may m a -> may_calls m 0 a.
Proof.
  induction m as [b|e|c k IH|c k IH]; cbn [unmarked may_calls may]; intros U a H.
  - auto.
  - destruct H.
  - destruct U as (Hc & U). destruct (N.eqb_spec c 0) as [E|_]; [lia|].
    destruct H as (i & Hi & H). exists i. split; [exact Hi|]. apply IH; auto.
  - destruct H as (i & Hi & H). exists i. split; [exact Hi|]. apply IH; auto.
Qed.

Lemma unmarked_bind {A B} (m : M A) (f : A -> M B) : unmarked m -> (forall a, may m a -> unmarked (f a)) -> unmarked (bind m f).
Proof.
  induction m as [a|e|c k IH|c k IH]; cbn [unmarked bind]; intros U F.
  - apply F. reflexivity.
  - exact I.
  - destruct U as (Hc & U). split; [exact Hc|]. intros i Hi. apply IH; auto. intros a Ha. apply F. cbn. exists i; auto.
  - intros i Hi. apply IH; auto. intros a Ha. apply F. cbn. exists i; auto.
Qed.

(** [m] is [m'] with marks, and [C] bounds their number *)
Definition tallies {A} (m m' : M A) (C : A -> nat -> Prop) : Prop :=
  (forall n a, may_calls m n a -> may m' a /\ C a n) /\ (forall a, may m' a -> exists n, may_calls m n a).

Lemma tallies_unmarked {A} (m : M A) (C : A -> nat -> Prop) : unmarked m -> (forall a, may m a -> C a 0) -> tallies m m C.
Proof.
  intros U H. split.
  - intros n a Ha. destruct (unmarked_calls m U n a Ha) as (E & Hm). subst n. auto.
  - intros a Ha. exists 0. apply unmarked_may; auto.
Qed.

Lemma tallies_mono {A} (m m' : M A) (C D : A -> nat -> Prop) :
  tallies m m' C -> (forall a n, may m' a -> C a n -> D a n) -> tallies m m' D.
Proof.
  intros (H1 & H2) HD. split; [|exact H2]. intros n a Ha. destruct (H1 n a Ha) as (Hm & Hc). auto.
Qed.

Lemma tallies_bind {A B} (m m' : M A) (f f' : A -> M B) C1 C2 (C : B -> nat -> Prop) :
  tallies m m' C1 -> (forall a, may m' a -> tallies (f a) (f' a) (C2 a)) ->
  (forall a b n1 n2, may m' a -> may (f' a) b -> C1 a n1 -> C2 a b n2 -> C b (n1 + n2)) ->
  tallies (bind m f) (bind m' f') C.
Proof.
  intros (H1 & H2) F HC. split.
  - intros n b Hb. apply calls_bind in Hb. destruct Hb as (a & n1 & n2 & Ha & Hb & Hn). subst n.
    destruct (H1 n1 a Ha) as (Hm & Hc). destruct (F a Hm) as (F1 & _). destruct (F1 n2 b Hb) as (Hm2 & Hc2).
    split; [|eauto]. apply may_bind. exists a; auto.
  - intros b Hb. apply may_bind in Hb. destruct Hb as (a & Ha & Hb). destruct (H2 a Ha) as (n1 & Hn1).
    destruct (F a Ha) as (_ & F2). destruct (F2 b Hb) as (n2 & Hn2). exists (n1 + n2). apply calls_bind. exists a, n1, n2; auto.
Qed.

Lemma tallies_ret {A} (a : A) (C : A -> nat -> Prop) : C a 0 -> tallies (Ret a) (Ret a) C.
Proof. intros H. apply tallies_unmarked; [exact I|]. cbn. intros ? ->. exact H. Qed.

Lemma tallies_mark_if {A} (b : bool) (m : M A) : unmarked m -> tallies (mark_if b m) m (fun _ n => n = if b then 1 else 0).
Proof.
  intros U. destruct b; cbn [mark_if]; [|apply tallies_unmarked; auto]. split.
  - intros [|n] a Ha; cbn in Ha; [destruct Ha|]. destruct (unmarked_calls m U n a Ha) as (E & Hm). subst n. auto.
  - intros a Ha. exists 1. cbn. apply unmarked_may; auto.
Qed.

Lemma tallies_repeatM {A} (m m' : M A) lo hi k : tallies m m' (fun _ n => lo <= n <= hi) ->
  tallies (repeatM k m) (repeatM k m') (fun l n => length l = k /\ k * lo <= n <= k * hi).
Proof.
  intros H. induction k as [|k IH]; cbn [repeatM].
  - apply tallies_ret. auto.
  - eapply tallies_bind; [exact H| |].
    + intros a _. eapply tallies_bind; [exact IH| |].
      * intros l _. apply (tallies_ret (a :: l) (fun r n => r = a :: l /\ n = 0)). auto.
      * intros l r n1 n2 _ _ Hl (E & E0). instantiate (1 := fun _ r n => length r = S k /\ k * lo <= n <= k * hi).
        cbn. subst. cbn. rewrite Nat.add_0_r. destruct Hl as (<- & Hl). auto.
    + cbn. intros a r n1 n2 _ _ Hn (Hl & Hr). split; [exact Hl|]. lia.
Qed.

Lemma tallies_mapM {A B} (f f' : A -> M B) c (l : list A) : (forall x, tallies (f x) (f' x) (fun _ n => n = c)) ->
  tallies (mapM f l) (mapM f' l) (fun _ n => n = length l * c).
Proof.
  intros H. induction l as [|h t IH]; cbn [mapM].
  - apply tallies_ret. reflexivity.
  - eapply tallies_bind; [apply H| |].
    + intros b _. eapply tallies_bind; [exact IH| |].
      * intros bs _. apply (tallies_ret (b :: bs) (fun _ n => n = 0)). reflexivity.
      * intros bs r n1 n2 _ _ E E0. instantiate (1 := fun _ _ n => n = length t * c). cbn in *. subst. lia.
    + cbn. intros b r n1 n2 _ _ -> ->. lia.
Qed.

(** ** The crate itself makes no empty draw *)

Lemma um_ret {A} (a : A) : unmarked (Ret a). Proof. exact I. Qed.
Lemma um_gen_range a b : unmarked (gen_range a b).
Proof. unfold gen_range. destruct (Nat.ltb_spec a b); cbn; [|exact I]. split; [lia|auto]. Qed.
Lemma um_gen_range_incl a b : unmarked (gen_range_incl a b).
Proof. unfold gen_range_incl. destruct (Nat.leb_spec a b); cbn -[N.of_nat Nat.sub]; [|exact I]. split; [lia|auto]. Qed.
Lemma um_gen_f64 : unmarked gen_f64. Proof. split; [reflexivity|]. intros i _. exact I. Qed.
Lemma um_idx {A} (l : list A) i : unmarked (idx l i). Proof. unfold idx. destruct (nth_error l i); exact I. Qed.
Lemma um_unwrap {A} (o : option A) : unmarked (unwrap o). Proof. destruct o; exact I. Qed.
Lemma um_massert b : unmarked (massert b). Proof. destruct b; exact I. Qed.
Lemma um_slice {A} (l : list A) a b : unmarked (slice l a b).
Proof. unfold slice. destruct (_ && _); exact I. Qed.
Lemma um_pick_from {A} (l : list A) : unmarked (pick_from l).
Proof. unfold pick_from. cbn. intros i _. destruct (nth_error l (N.to_nat i)); exact I. Qed.
Lemma um_repeatM {A} (m : M A) k : unmarked m -> unmarked (repeatM k m).
Proof. intros U. induction k as [|k IH]; cbn [repeatM]; [exact I|]. apply unmarked_bind; [exact U|]. intros a _. apply unmarked_bind; [exact IH|]. intros; exact I. Qed.
#[export] Hint Resolve um_ret um_gen_range um_gen_range_incl um_gen_f64 um_idx um_unwrap um_massert um_slice um_pick_from um_repeatM : um.
Ltac um := repeat (first [apply unmarked_bind; [solve [eauto with um]|intros ? _] | progress cbn beta iota]); eauto with um.

Section Calls.
Context {I : Type} (io : individual_ops I) (fexp : f64 -> f64) {MS : Type} (mdl : model I MS) (w : method).
Hypothesis Hmdl : unmarked_model mdl.
Notation mdw := (watch w mdl).

Lemma um_par_sum fuel l : unmarked (par_sum fuel l).
Proof.
  revert l; induction fuel as [|f IH]; intros l; cbn [par_sum]; [exact Logic.I|].
  cbn [unmarked]. intros i _. destruct (i =? 0)%N; [exact Logic.I|].
  apply unmarked_bind; [apply IH|]. intros a _. apply unmarked_bind; [apply IH|]. intros; exact Logic.I.
Qed.

Lemma um_prepare s p : unmarked_selector s -> unmarked (prepare io fexp s p).
Proof.
  intros U. destruct s; cbn [prepare]; try exact Logic.I.
  - apply unmarked_bind; [apply um_par_sum|]. intros; exact Logic.I.
  - cbv zeta. apply unmarked_bind; [apply um_par_sum|]. intros; exact Logic.I.
  - apply unmarked_bind; [apply U|]. intros; exact Logic.I.
Qed.
Lemma prepare_selector s p s' : unmarked_selector s -> may (prepare io fexp s p) s' -> unmarked_selector s'.
Proof.
  intros U. destruct s; cbn [prepare]; cbv zeta; intros H.
  - cbn in H. subst. exact Logic.I.
  - apply may_bind in H. destruct H as (x & _ & H). cbn in H. subst. exact Logic.I.
  - apply may_bind in H. destruct H as (x & _ & H). cbn in H. subst. exact Logic.I.
  - cbn in H. subst. exact Logic.I.
  - cbn in H. subst. exact Logic.I.
  - cbn in H. subst. exact Logic.I.
  - apply may_bind in H. destruct H as (x & _ & H). cbn in H. subst. exact U.
Qed.

Lemma um_wheel_select f t u l : unmarked (wheel_select (I := I) f t u l).
Proof. unfold wheel_select, last_entry. destruct (wheel _ _ _ _ _); [exact Logic.I|]. um. Qed.
Lemma um_select s p : unmarked_selector s -> unmarked (select io fexp s p).
Proof.
  intros U. destruct s; cbn [select].
  - unfold tournament_select. cbv zeta. um.
  - apply unmarked_bind; [apply um_gen_f64|]. intros; apply um_wheel_select.
  - apply unmarked_bind; [apply um_gen_f64|]. intros; apply um_wheel_select.
  - unfold rank_select. cbv zeta. apply unmarked_bind; [apply um_gen_range_incl|]. intros a _. destruct (rank_loop _ _ _ _); [exact Logic.I|]. um.
  - unfold elitist_select. cbv zeta. um.
  - unfold linear_select. cbv zeta. um.
  - apply U.
Qed.
Lemma um_select_distinct s p k x : unmarked_selector s -> unmarked (select_distinct io fexp s p k x).
Proof.
  intros U. induction k as [|k IH]; cbn [select_distinct]; [exact Logic.I|].
  apply unmarked_bind; [apply um_select, U|]. intros (i, c) _. destruct (negb _); [exact Logic.I|exact IH].
Qed.
Lemma um_parent2 p b x : unmarked_selector (parent_selector b) -> unmarked (breed_parent2 io fexp p b x).
Proof.
  intros U. unfold breed_parent2. destruct (1 <? _); [|exact Logic.I]. apply unmarked_bind; [apply um_gen_f64|]. intros u _.
  destruct (flt u _); [|exact Logic.I]. apply unmarked_bind; [apply um_select_distinct, U|]. intros; exact Logic.I.
Qed.
Lemma parent2_small p b x o : length (individuals p) <= 1 -> may (breed_parent2 io fexp p b x) o -> o = None.
Proof.
  intros L. unfold breed_parent2. destruct (Nat.ltb_spec 1 (length (individuals p))); [lia|]. cbn. auto.
Qed.

Definition one (b : bool) : nat := if b then 1 else 0.

(** Breeding from the parents on *)
Lemma calls_breed_from ms p b x o :
  tallies (breed_from io mdw ms p b x o) (breed_from io mdl ms p b x o)
    (fun _ n => least_breed w <= n <= match w with NewRandom | PreGeneration => 0 | Crossover => match o with Some _ => 1 | None => 0 end | _ => 1 end).
Proof.
  destruct Hmdl as (Hc & Hm & Hi & He & Hs & Hp). unfold breed_from. cbv zeta.
  set (fp := match o with Some q => _ | None => x end). clearbody fp.
  eapply tallies_bind with (C1 := fun _ n => n = match o with Some _ => one (method_eqb w Crossover) | None => 0 end).
  { destruct o as [q|]; [apply tallies_mark_if, Hc|apply tallies_ret; reflexivity]. }
  { intros y _. eapply tallies_bind with (C1 := fun _ n => n = 0); [apply tallies_unmarked; [apply um_gen_f64|reflexivity]| |].
    { intros u _. eapply tallies_bind with (C1 := fun _ n => n <= one (method_eqb w Mutate)).
      { destruct (flt u (mutation_rate b)).
        - eapply tallies_mono; [apply tallies_mark_if, Hm|]. cbn. intros ? ? _ ->. apply le_n.
        - apply tallies_ret. lia. }
      { intros y1 _. eapply tallies_bind; [apply tallies_mark_if, Hi| |].
        { intros y2 _. eapply tallies_bind; [apply tallies_mark_if, He| |].
          { intros y3 _. eapply tallies_bind with (C1 := fun _ n => n <= one (method_eqb w CanSurvive)).
            { destruct (is_valid io y3).
              - eapply tallies_mono; [apply tallies_mark_if, Hs|]. cbn. intros ? ? _ ->. apply le_n.
              - apply tallies_ret. lia. }
            { intros sv _. eapply (tallies_ret _ (fun _ n => n = 0)). reflexivity. }
            { intros sv r n1 n2 _ _ H1 ->. instantiate (1 := fun _ _ n => n <= one (method_eqb w CanSurvive)). cbn. lia. } }
          { intros y3 r n1 n2 _ _ H1 H2. cbn beta in H1, H2.
            instantiate (1 := fun _ _ n => one (method_eqb w Evaluate) <= n <= one (method_eqb w Evaluate) + one (method_eqb w CanSurvive)).
            subst n1. cbn beta. unfold one in *. lia. } }
        { intros y2 r n1 n2 _ _ H1 H2. cbn beta in H1, H2.
          instantiate (1 := fun _ _ n => one (method_eqb w Improve) + one (method_eqb w Evaluate) <= n
             <= one (method_eqb w Improve) + one (method_eqb w Evaluate) + one (method_eqb w CanSurvive)).
          subst n1. cbn beta. unfold one in *. lia. } }
      { intros y1 r n1 n2 _ _ H1 H2. cbn beta in H1, H2.
        instantiate (1 := fun _ _ n => one (method_eqb w Improve) + one (method_eqb w Evaluate) <= n
             <= one (method_eqb w Mutate) + one (method_eqb w Improve) + one (method_eqb w Evaluate) + one (method_eqb w CanSurvive)).
        cbn beta. lia. } }
    { intros u r n1 n2 _ _ -> H2. cbn beta in H2.
      instantiate (1 := fun _ _ n => one (method_eqb w Improve) + one (method_eqb w Evaluate) <= n
             <= one (method_eqb w Mutate) + one (method_eqb w Improve) + one (method_eqb w Evaluate) + one (method_eqb w CanSurvive)).
      cbn beta. lia. } }
  { intros y r n1 n2 _ _ -> H2. cbn beta in H2. destruct w, o; cbn in *; lia. }
Qed.

Lemma calls_breed ms p b : unmarked_selector (parent_selector b) ->
  tallies (breed io fexp mdw ms p b) (breed io fexp mdl ms p b)
    (fun _ n => least_breed w <= n <= most_breed w (length (individuals p))).
Proof.
  intros U. unfold breed.
  eapply tallies_bind with (C1 := fun _ n => n = 0)
    (C2 := fun _ _ n => least_breed w <= n <= most_breed w (length (individuals p))); [apply tallies_unmarked; [apply um_select, U|reflexivity]| |].
  { intros (i, x) _. eapply tallies_bind with (C1 := fun _ n => n = 0); [apply tallies_unmarked; [apply um_parent2, U|reflexivity]| |].
    { intros o _. apply calls_breed_from. }
    { intros o r n1 n2 Ho _ -> H2. cbn beta in H2.
      destruct w; cbn in *; try lia. destruct (Nat.leb_spec (length (individuals p)) 1) as [L|L]; [|destruct o; lia].
      rewrite (parent2_small p b x o L Ho) in H2. lia. } }
  { intros x r n1 n2 _ _ -> H2. exact H2. }
Qed.

Lemma calls_generate ms b size p l : unmarked_selector (parent_selector b) ->
  tallies (generate_new_population io fexp mdw ms (b, size) p l) (generate_new_population io fexp mdl ms (b, size) p l)
    (fun _ n => (size - length l) * least_breed w <= n <= (size - length l) * most_breed w (length (individuals p))).
Proof.
  intros U. unfold generate_new_population. pose proof (calls_breed ms p b U) as B.
  destruct (size - length l) as [|[|k]].
  - apply tallies_ret. cbn. lia.
  - eapply tallies_bind; [exact B| |].
    + intros x _. apply (tallies_ret l (fun _ n => n = 0)). reflexivity.
    + cbn beta. intros x r n1 n2 _ _ H1 ->. lia.
  - eapply tallies_bind; [apply (tallies_repeatM _ _ _ _ (S (S k)) B)| |].
    + intros x _. apply (tallies_ret (l ++ x) (fun _ n => n = 0)). reflexivity.
    + cbn beta. intros x r n1 n2 _ _ (_ & H1) ->. lia.
Qed.

Lemma um_sort_dedup l : unmarked (sort_dedup_and_collect_stats io l).
Proof. unfold sort_dedup_and_collect_stats, par_sort_unstable. cbv zeta. um. Qed.
Lemma um_new l : unmarked (population_new io l).
Proof. unfold population_new. apply unmarked_bind; [apply um_sort_dedup|]. intros (l', st) _. exact Logic.I. Qed.
Lemma um_replace p l : unmarked (population_replace io p l).
Proof. unfold population_replace. cbv zeta. apply unmarked_bind; [apply um_sort_dedup|]. intros (l', st) _. exact Logic.I. Qed.

Lemma calls_initialize ms l :
  tallies (initialize_population io mdw ms l) (initialize_population io mdl ms l) (fun _ n => n = at_start w (length l)).
Proof.
  unfold initialize_population. eapply tallies_bind.
  - apply tallies_mapM with (c := one (method_eqb w Evaluate)). intros x. apply tallies_mark_if. apply Hmdl.
  - intros l' _. apply (tallies_unmarked _ (fun _ n => n = 0)); [apply um_new|reflexivity].
  - cbn beta. intros l' r n1 n2 _ _ -> ->. destruct w; cbn; lia.
Qed.

(** ** Runs *)
Section Run.
Context {P S0 : Type} (alg algw : algorithm I MS P S0) {PS : Type} (f : PS -> population I -> M (bool * PS)).
Context (size e : nat) (Inv : S0 -> Prop).
Hypothesis Hf : forall ps p, unmarked (f ps p).
Hypothesis Hmod : forall s, alg_model algw s = alg_model alg s.
Hypothesis Hrep : forall s, Inv s -> exists b, alg_reproduction_parameters algw s = (b, size) /\
  alg_reproduction_parameters alg s = (b, size) /\ unmarked_selector (parent_selector b).
Hypothesis Hprep : forall s p, Inv s -> tallies (alg_prepare algw s p) (alg_prepare alg s p)
  (fun s' n => Inv s' /\ n = one (method_eqb w PreGeneration)).
Hypothesis Helite : forall s p, Inv s -> tallies (alg_select_elites algw s p []) (alg_select_elites alg s p [])
  (fun l n => length l = Nat.min e (length (individuals p)) /\ n = 0).

Lemma calls_step s p : Inv s ->
  tallies (evolve_step io fexp mdw algw s p) (evolve_step io fexp mdl alg s p)
    (fun r n => Inv (fst r) /\ least_calls w size e [p] <= n <= most_calls w size e [p]).
Proof.
  intros HI. unfold evolve_step.
  eapply tallies_bind; [apply Hprep, HI| |].
  { intros s' Hs'. assert (HI' : Inv s').
    { destruct (Hprep s p HI) as (A & B). destruct (B s' Hs') as (n & Hn). destruct (A n s' Hn) as (_ & HI' & _). exact HI'. }
    eapply tallies_bind; [apply Helite, HI'| |].
    { intros l _. destruct (Hrep s' HI') as (b & E1 & E2 & Ub). rewrite Hmod, E1, E2.
      eapply tallies_bind; [apply calls_generate, Ub| |].
      { intros off _. eapply tallies_bind with (C1 := fun _ n => n = 0) (C2 := fun _ r n => fst r = s' /\ n = 0) (C := fun r n => fst r = s' /\ n = 0); [apply tallies_unmarked; [apply um_replace|reflexivity]| |].
        { intros (p', old) _. apply (tallies_ret (s', p') (fun r n => fst r = s' /\ n = 0)). auto. }
        { intros x r n1 n2 _ _ -> H2. exact H2. } }
      { cbn beta. intros off r n1 n2 _ _ H1 (H2 & ->).
        instantiate (1 := fun l r n => fst r = s' /\ (size - length l) * least_breed w <= n <= (size - length l) * most_breed w (length (individuals p))).
        cbn beta. split; [exact H2|]. lia. } }
    { cbn beta. intros l r n1 n2 _ _ (H1 & ->) (H2 & H3). rewrite H1 in H3.
      instantiate (1 := fun s' r n => fst r = s' /\ bred size e p * least_breed w <= n <= bred size e p * most_breed w (length (individuals p))).
      cbn beta. split; [exact H2|exact H3]. } }
  { cbn beta. intros s' r n1 n2 _ _ (H1 & ->) (H2 & H3). split; [rewrite H2; exact H1|].
    unfold least_calls, most_calls, one. destruct w; cbn in *; lia. }
Qed.

Lemma least_app (ps qs : list (population I)) : least_calls w size e (ps ++ qs) = least_calls w size e ps + least_calls w size e qs.
Proof. induction ps; cbn; lia. Qed.
Lemma most_app (ps qs : list (population I)) : most_calls w size e (ps ++ qs) = most_calls w size e ps + most_calls w size e qs.
Proof. induction ps; cbn; lia. Qed.

Lemma calls_loop fuel : forall s p ps tr, Inv s ->
  tallies (evolve_loop io fexp mdw algw (quiet f) fuel s p ps tr) (evolve_loop io fexp mdl alg (quiet f) fuel s p ps tr)
    (fun r n => exists t, r_trace r = tr ++ t /\ least_calls w size e (removelast t) <= n <= most_calls w size e (removelast t)
       /\ t <> []).
Proof.
  induction fuel as [|fuel IH]; intros s p ps tr HI; cbn [evolve_loop].
  { split; [intros n a []|intros a []]. }
  eapply tallies_bind with (C1 := fun r n => snd r = s /\ n = 0)
    (C2 := fun _ r n => exists t, r_trace r = tr ++ t /\ least_calls w size e (removelast t) <= n <= most_calls w size e (removelast t) /\ t <> []).
  { unfold quiet. eapply tallies_bind with (C1 := fun _ n => n = 0) (C2 := fun _ r n => snd r = s /\ n = 0); [apply tallies_unmarked; [apply Hf|reflexivity]| |].
    - intros (c, ps') _. apply (tallies_ret (c, ps', s) (fun r n => snd r = s /\ n = 0)). auto.
    - intros x r n1 n2 _ _ -> H2. exact H2. }
  { intros ((c, ps'), s1) Hq. unfold quiet in Hq. apply may_bind in Hq. destruct Hq as ((c0, ps0) & _ & Hq).
    cbn in Hq. injection Hq as <- <- <-.
    destruct c0.
    - eapply tallies_bind with (C2 := fun _ r n => exists t, r_trace r = (tr ++ [p]) ++ t /\
        least_calls w size e (removelast t) <= n <= most_calls w size e (removelast t) /\ t <> []); [apply calls_step, HI| |].
      + intros (s', p') Hs. cbn beta iota. apply IH.
        destruct (calls_step s p HI) as (A & B). destruct (B _ Hs) as (n & Hn). destruct (A _ _ Hn) as (_ & HI' & _). exact HI'.
      + cbn beta. intros (s', p') r n1 n2 _ _ (_ & H1) (t & E & H2 & Ht).
        exists (p :: t). rewrite E, <- app_assoc. split; [reflexivity|]. split; [|discriminate].
        destruct t as [|q t]; [congruence|]. change (removelast (p :: q :: t)) with ([p] ++ removelast (q :: t)).
        rewrite least_app, most_app. lia.
    - apply tallies_ret. exists [p]. cbn. split; [reflexivity|]. split; [lia|discriminate]. }
  { cbn beta. intros x r n1 n2 _ _ (_ & ->) H2. exact H2. }
Qed.
End Run.
End Calls.
