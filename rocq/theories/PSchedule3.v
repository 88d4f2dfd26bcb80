(** * PSchedule3: what a seeded [M::rng] does to a parallel loop. *)
From Coq Require Import List Bool Arith NArith Lia.
From Verif Require Import Rnd LRnd F64 MStats MPopulation MSelection MModel MAlgorithms MOneMax MSchedule SpecF SpecS
  PPopulation PSchedule PSchedule2 PNested.
Import ListNotations.

Section Seeded.
Context {G : Type} (next : G -> N -> N * G) (g0 : G).
Context {A : Type} (work : M A).
Context (Hset : settled work).

Lemma exec_det {B} (m : M B) : settled m -> forall g a g1 b g2, executes next m g a g1 -> executes next m g b g2 -> a = b /\ g1 = g2.
Proof.
  induction m as [x|e|n k IH|n k IH]; cbn [settled executes].
  - intros _ g a g1 b g2 [<- <-] [<- <-]; auto.
  - intros _ g a g1 b g2 [].
  - intros H g a g1 b g2 [_ H1] [_ H2]; eapply IH; eauto.
  - intros [].
Qed.

(** The state of a generator seeded with [g0] after [k] calls of [work] *)
Inductive reach : nat -> G -> Prop :=
| reach_O : reach 0 g0
| reach_S k g x g' : reach k g -> executes next work g x g' -> reach (S k) g'.

Lemma reach_det k : forall g g', reach k g -> reach k g' -> g = g'.
Proof.
  induction k as [|k IH]; intros g g' H H'; inversion H as [|k1 g1 x1 g1' R1 E1]; inversion H' as [|k2 g2 x2 g2' R2 E2]; subst; auto.
  rewrite (IH _ _ R1 R2) in E1; destruct (exec_det _ Hset _ _ _ _ _ E1 E2); auto.
Qed.

Definition item k x : Prop := exists g g', reach k g /\ executes next work g x g'.
Lemma item_det k x y : item k x -> item k y -> x = y.
Proof. intros (g & g' & R & E) (h & h' & R' & E'); rewrite (reach_det k _ _ R R') in E; apply (exec_det _ Hset _ _ _ _ _ E E'). Qed.

Definition seeded_inv (jobs : list (list nat)) (w : workers (G := G) A) : Prop :=
  (forall j, In j (w_waiting w) -> In j jobs) /\
  (forall rem g, In (rem, g) (w_running w) -> exists d, In (d ++ rem) jobs /\ reach (length d) g) /\
  (forall i x, nth_error (w_results w) i = Some (Some x) -> exists j k, In j jobs /\ nth_error j k = Some i /\ item k x).

Lemma nth_upd_or {B} (l : list B) i j v y : nth_error (upd l i v) j = Some y -> (j = i /\ y = v) \/ nth_error l j = Some y.
Proof.
  revert i j; induction l as [|h t IH]; intros [|i] [|j]; cbn; try discriminate; auto.
  - intros [= <-]; auto.
  - intros H; destruct (IH i j H) as [[-> ->]|]; auto.
Qed.

Lemma step_seeded jobs w w' : worker_step next (eq g0) false work w w' -> seeded_inv jobs w -> seeded_inv jobs w'.
Proof.
  intros H (A1 & A2 & A3).
  destruct H as [g pool before job after running results Hp|g pool before job after running results Hf Hp
                |pool waiting before i0 job g x g' after results Hx|pool waiting before g after results];
    [discriminate|..]; cbn [w_waiting w_running w_results] in *.
  - split; [|split; auto]; cbn [w_waiting w_running w_results].
    + intros j Hj; apply A1; rewrite in_app_iff in *; cbn; tauto.
    + intros rem h [E|Hin]; [injection E as <- <-|auto].
      exists []; split; [apply A1; rewrite in_app_iff; cbn; auto|]; rewrite <- Hf; constructor.
  - destruct (A2 (i0 :: job) g) as (d & Hd & Hr); [rewrite in_app_iff; cbn; auto|].
    split; [auto|split]; cbn [w_waiting w_running w_results].
    + intros rem h Hin; rewrite in_app_iff in Hin; cbn in Hin; destruct Hin as [Hin|[E|Hin]]; [apply A2; rewrite in_app_iff; auto| |apply A2; rewrite in_app_iff; cbn; auto].
      injection E as <- <-; exists (d ++ [i0]); split; [rewrite <- app_assoc; exact Hd|].
      rewrite app_length; cbn; replace (length d + 1) with (S (length d)) by lia; econstructor; eauto.
    + intros i y Hy; apply nth_upd_or in Hy as [[-> E]|Hy]; [|auto]; injection E as ->.
      exists (d ++ i0 :: job), (length d); split; auto; split; [rewrite nth_error_app2, Nat.sub_diag by lia; reflexivity|]; exists g, g'; auto.
  - split; [auto|split; auto]; cbn [w_waiting w_running w_results].
    intros rem h Hin; apply A2; rewrite in_app_iff in *; cbn; tauto.
Qed.
Lemma steps_seeded jobs w w' : worker_steps next (eq g0) false work w w' -> seeded_inv jobs w -> seeded_inv jobs w'.
Proof. induction 1; auto; intros Hs; apply IHworker_steps; eapply step_seeded; eauto. Qed.

Lemma start_seeded n jobs pool : seeded_inv jobs (loop_start A n jobs pool).
Proof.
  split; [auto|]; split; cbn; [tauto|]; intros i x H; apply nth_error_In, repeat_spec in H; discriminate.
Qed.

Lemma concat_unique (jobs : list (list nat)) : NoDup (concat jobs) -> forall j j' k k' i, In j jobs -> In j' jobs ->
  nth_error j k = Some i -> nth_error j' k' = Some i -> k = k'.
Proof.
  induction jobs as [|h t IH]; cbn [concat]; intros Hn j j' k k' i; [intros []|].
  assert (Hh : NoDup h) by (eapply NoDup_app_l; eauto).
  assert (Ht : NoDup (concat t)) by (clear -Hn; induction h as [|a h IH]; cbn in *; auto; inversion Hn; auto).
  assert (Hd : forall i, In i h -> ~ In i (concat t)).
  { clear -Hn; induction h as [|a h IH]; cbn in *; [tauto|]; inversion Hn as [|? ? Hni Hn']; subst.
    intros i [<-|Hi]; [intros Hc; apply Hni; rewrite in_app_iff; auto|apply IH; auto]. }
  intros [<-|Hj] [<-|Hj'] E E'.
  - apply (proj1 (NoDup_nth_error h) Hh k k'); [apply nth_error_Some; congruence|congruence].
  - exfalso; apply (Hd i); [eapply nth_error_In; eauto|apply in_concat; exists j'; split; auto; eapply nth_error_In; eauto].
  - exfalso; apply (Hd i); [eapply nth_error_In; eauto|apply in_concat; exists j; split; auto; eapply nth_error_In; eauto].
  - exact (IH Ht j j' k k' i Hj Hj' E E').
Qed.

Lemma seeded_item n jobs pool pool' out : parallel next (eq g0) false work n jobs pool pool' out ->
  length out = n /\ forall j k i, In j jobs -> nth_error j k = Some i -> exists x, nth_error out i = Some x /\ item k x.
Proof.
  intros [Hj H].
  destruct (steps_covered next (eq g0) false work n _ _ H (start_covered n jobs pool Hj)) as (Hl & _ & Hc).
  destruct (steps_seeded jobs _ _ H (start_seeded n jobs pool)) as (_ & _ & Hr).
  cbn [loop_end w_results w_waiting w_running todo] in *; rewrite map_length in Hl; split; auto.
  intros j k i Hin Hk; destruct Hj as [Hj _].
  assert (Hi : i < n).
  { assert (Hs : In i (seq 0 n)) by (rewrite <- Hj; apply in_concat; exists j; split; auto; eapply nth_error_In; eauto).
    apply in_seq in Hs; lia. }
  destruct (nth_error out i) as [x|] eqn:Ex; [|apply nth_error_None in Ex; lia].
  exists x; split; auto; destruct (Hr i x) as (j' & k' & Hj' & Hk' & Hit).
  - rewrite nth_error_map, Ex; reflexivity.
  - assert (Hn : NoDup (concat jobs)) by (rewrite Hj; apply seq_NoDup).
    rewrite (concat_unique jobs Hn j j' k k' i Hin Hj' Hk Hk'); auto.
Qed.

Lemma jobs_repeat n jobs pool pool' out : parallel next (eq g0) false work n jobs pool pool' out ->
  forall j j' k i i', In j jobs -> In j' jobs -> nth_error j k = Some i -> nth_error j' k = Some i' -> nth_error out i = nth_error out i'.
Proof.
  intros H j j' k i i' Hj Hj' Hk Hk'; destruct (seeded_item _ _ _ _ _ H) as [_ Hs].
  destruct (Hs j k i Hj Hk) as (x & -> & Hx); destruct (Hs j' k i' Hj' Hk') as (y & -> & Hy); f_equal; eapply item_det; eauto.
Qed.

Lemma split_index n jobs i : split_into n jobs -> i < n -> exists j k, In j jobs /\ nth_error j k = Some i.
Proof.
  intros [E _] Hi; assert (Hin : In i (concat jobs)) by (rewrite E; apply in_seq; lia).
  apply in_concat in Hin as (j & Hj & Hi'); destruct (In_nth_error _ _ Hi') as [k Hk]; eauto.
Qed.

Lemma list_ext {B} (l r : list B) : (forall i, nth_error l i = nth_error r i) -> l = r.
Proof.
  revert r; induction l as [|h t IH]; intros [|h' t'] H; auto; [specialize (H 0); discriminate|specialize (H 0); discriminate|].
  pose proof (H 0) as E; cbn in E; injection E as ->; f_equal; apply IH; intros i; apply (H (S i)).
Qed.

Lemma only_split_matters n jobs pool1 pool1' out1 pool2 pool2' out2 :
  parallel next (eq g0) false work n jobs pool1 pool1' out1 -> parallel next (eq g0) false work n jobs pool2 pool2' out2 -> out1 = out2.
Proof.
  intros H1 H2; destruct (seeded_item _ _ _ _ _ H1) as [L1 S1]; destruct (seeded_item _ _ _ _ _ H2) as [L2 S2].
  apply list_ext; intros i; destruct (Nat.lt_ge_cases i n) as [Hi|Hi].
  - destruct (split_index n jobs i (proj1 H1) Hi) as (j & k & Hj & Hk).
    destruct (S1 j k i Hj Hk) as (x & -> & Hx); destruct (S2 j k i Hj Hk) as (y & -> & Hy); f_equal; eapply item_det; eauto.
  - rewrite !(proj2 (nth_error_None _ _)) by lia; auto.
Qed.

Lemma few_distinct n jobs pool pool' out : parallel next (eq g0) false work n jobs pool pool' out ->
  forall l, NoDup l -> incl l out -> length l <= list_max (map (@length nat) jobs).
Proof.
  intros H l Hn Hl; destruct (seeded_item _ _ _ _ _ H) as [L S].
  assert (K : forall x, In x l -> exists k, k < list_max (map (@length nat) jobs) /\ item k x).
  { intros x Hx; destruct (In_nth_error _ _ (Hl x Hx)) as [i Hi].
    assert (Hin : i < n) by (rewrite <- L; apply nth_error_Some; congruence).
    destruct (split_index n jobs i (proj1 H) Hin) as (j & k & Hj & Hk); destruct (S j k i Hj Hk) as (y & Hy & Hit).
    rewrite Hi in Hy; injection Hy as ->; exists k; split; auto.
    assert (k < length j) by (apply nth_error_Some; congruence).
    assert (Hm : Forall (fun m => m <= list_max (map (@length nat) jobs)) (map (@length nat) jobs)) by (apply list_max_le; auto).
    rewrite Forall_forall in Hm; specialize (Hm (length j) (in_map _ _ _ Hj)); lia. }
  assert (Hks : exists ks, length ks = length l /\ NoDup ks /\ (forall k, In k ks -> k < list_max (map (@length nat) jobs)) /\
            forall k, In k ks -> exists x, In x l /\ item k x).
  { clear Hl; induction l as [|x l IH]; [exists []; repeat split; auto; cbn; [constructor|tauto|tauto]|].
    inversion Hn as [|? ? Hx Hn']; subst; destruct IH as (ks & E & N & B & C); auto.
    { intros y Hy; apply K; cbn; auto. }
    destruct (K x (or_introl eq_refl)) as (k & Hk & Hit).
    exists (k :: ks); split; [cbn; auto|]; split; [constructor; auto|split].
    - intros Hin; destruct (C k Hin) as (y & Hy & Hity); rewrite (item_det k x y Hit Hity) in Hx; contradiction.
    - intros k' [<-|Hk']; auto.
    - intros k' [<-|Hk']; [exists x; split; cbn; auto|]; destruct (C k' Hk') as (y & Hy & Hity); exists y; cbn; auto. }
  destruct Hks as (ks & <- & N & B & _).
  rewrite <- (seq_length (list_max (map (@length nat) jobs)) 0); apply NoDup_incl_length; auto.
  intros k Hk; apply in_seq; specialize (B k Hk); lia.
Qed.

Lemma singletons n jobs pool pool' out : parallel next (eq g0) false work n jobs pool pool' out ->
  (forall j, In j jobs -> length j = 1) -> forall x y, In x out -> In y out -> x = y.
Proof.
  intros H H1 x y Hx Hy; destruct (seeded_item _ _ _ _ _ H) as [L _].
  destruct (In_nth_error _ _ Hx) as [i Hi]; destruct (In_nth_error _ _ Hy) as [i' Hi'].
  assert (Hn : i < n) by (rewrite <- L; apply nth_error_Some; congruence).
  assert (Hn' : i' < n) by (rewrite <- L; apply nth_error_Some; congruence).
  destruct (split_index n jobs i (proj1 H) Hn) as (j & k & Hj & Hk); destruct (split_index n jobs i' (proj1 H) Hn') as (j' & k' & Hj' & Hk').
  assert (k < length j) by (apply nth_error_Some; congruence); assert (k' < length j') by (apply nth_error_Some; congruence).
  rewrite (H1 j Hj) in *; rewrite (H1 j' Hj') in *; assert (k = 0) by lia; assert (k' = 0) by lia; subst k k'.
  pose proof (jobs_repeat _ _ _ _ _ H j j' 0 i i' Hj Hj' Hk Hk') as E; congruence.
Qed.
End Seeded.

(** The population that such a loop gives *)
Lemma collapse {G A MS} (next : G -> N -> N * G) (g0 : G) (io : individual_ops A) (mdl : model A MS) (ms : MS) (work : M A) n jobs pool pool' out p :
  settled work -> parallel next (eq g0) false work n jobs pool pool' out -> (forall j, In j jobs -> length j = 1) ->
  (forall x, exists y, m_evaluate mdl ms x = Ret y) -> (forall x, ieq io x x = true) ->
  may (initialize_population io mdl ms out) p -> length (individuals p) = 1.
Proof.
  intros Hset H H1 He Hr Hp; pose proof (singletons next g0 work Hset _ _ _ _ _ H H1) as Hs; clear H H1.
  unfold initialize_population in Hp; apply (proj1 (may_bind _ _ _)) in Hp as (ev & Hev & Hp).
  assert (Sev : forall x y, In x ev -> In y ev -> x = y).
  { assert (K : forall l r, may (mapM (m_evaluate mdl ms) l) r -> forall u, In u r -> exists x, In x l /\ m_evaluate mdl ms x = Ret u).
    { induction l as [|h t IH]; intros r H u Hu; cbn [mapM] in H.
      - cbn in H; subst r; destruct Hu.
      - apply (proj1 (may_bind _ _ _)) in H as (b & Hb & H); apply (proj1 (may_bind _ _ _)) in H as (bs & Hbs & H).
        cbn in H; subst r; destruct (He h) as [y Hy]; rewrite Hy in Hb; cbn in Hb; subst b.
        destruct Hu as [->|Hu]; [exists h; cbn; auto|]; destruct (IH bs Hbs u Hu) as (x & Hx & E); exists x; cbn; auto. }
    intros x y Hx Hy; destruct (K _ _ Hev x Hx) as (a & Ha & Ea); destruct (K _ _ Hev y Hy) as (b & Hb & Eb).
    rewrite (Hs a b Ha Hb) in Ea; congruence. }
  assert (Hne : filter (is_valid io) ev <> []).
  { intros E; rewrite E in Hp; eapply must_fail_no_may; [apply (new_empty io)|exact Hp]. }
  pose proof (must_may _ _ _ (new_must io _ Hne) Hp) as ((A1 & (A2 & _) & A3 & _) & _).
  destruct (individuals p) as [|a [|b t]] eqn:E; [congruence|reflexivity|exfalso].
  assert (Ea : In a ev) by (apply (proj1 (filter_In (is_valid io) a ev)), A2; cbn; auto).
  assert (Eb : In b ev) by (apply (proj1 (filter_In (is_valid io) b ev)), A2; cbn; auto).
  specialize (A3 0 a b eq_refl eq_refl); rewrite (Sev a b Ea Eb), Hr in A3; discriminate.
Qed.

(** ** Witnesses *)
(** Executing a settled program with a generator *)
Fixpoint drive {G A} (next : G -> N -> N * G) (m : M A) (g : G) : option (A * G) :=
  match m with
  | Ret a => Some (a, g)
  | Fail _ => None
  | Draw n k => if (n =? 0)%N then None else drive next (k (fst (next g n))) (snd (next g n))
  | Pick _ _ => None
  end.
Lemma drive_executes {G A} (next : G -> N -> N * G) (m : M A) g a g' : drive next m g = Some (a, g') -> executes next m g a g'.
Proof.
  revert g; induction m as [x|e|n k IH|n k IH]; intros g; cbn [drive executes]; try discriminate.
  - intros [= -> ->]; auto.
  - destruct (N.eqb_spec n 0); [discriminate|]; intros H; split; [lia|auto].
Qed.

Lemma counter_in_range : in_range counter_next.
Proof. intros g n Hn; cbn; apply N.mod_lt; lia. Qed.

