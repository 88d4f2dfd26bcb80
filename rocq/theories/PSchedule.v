(** * PSchedule: every schedule of the workers, with every generator, does what the
    sequential model may do; and the other way round. *)
From Coq Require Import List Bool Arith NArith Lia.
From Verif Require Import Rnd LRnd F64 MStats MPopulation MSelection MModel MAlgorithms MSchedule SpecS.
Import ListNotations.

Section Gen.
Context {G : Type} (next : G -> N -> N * G) (fresh : G -> Prop).
Context (Hnext : in_range next).

Lemma executes_may {A} (m : M A) g a g' : executes next m g a g' -> may m a.
Proof.
  revert g; induction m as [b|e|n k IH|n k IH]; intros g; cbn [executes may].
  - intros [-> _]; reflexivity.
  - auto.
  - intros [Hn H]; eexists; split; [apply Hnext; exact Hn|eapply IH; exact H].
  - intros (i & Hi & H); exists i; split; auto; eapply IH; exact H.
Qed.

Lemma fails_may {A} (m : M A) g e : fails next m g e -> may_fail m e.
Proof.
  revert g; induction m as [b|e'|n k IH|n k IH]; intros g; cbn [fails may_fail]; auto.
  - intros [Hn H]; eexists; split; [apply Hnext; exact Hn|eapply IH; exact H].
  - intros (i & Hi & H); exists i; split; auto; eapply IH; exact H.
Qed.

Lemma must_executes {A} (m : M A) P g : must m P -> exists a g', executes next m g a g' /\ P a.
Proof.
  revert g; induction m as [b|e'|n k IH|n k IH]; intros g; cbn [executes must].
  - intros H; exists b, g; auto.
  - intros [].
  - intros [Hn H]; destruct (IH (fst (next g n)) (snd (next g n)) (H _ (Hnext g n Hn))) as (a & g' & E & HP); eauto.
  - intros [Hn H]; destruct (IH 0%N g (H 0%N Hn)) as (a & g' & E & HP); eauto 7.
Qed.

(** ** One parallel loop *)
Context {A : Type} (pooled : bool) (work : M A).

Lemma upd_length {B} (l : list B) i v : length (upd l i v) = length l.
Proof. revert i; induction l as [|h t IH]; intros [|i]; cbn; auto. Qed.

Definition sound_results (n : nat) (results : list (option A)) : Prop :=
  length results = n /\ forall x, In (Some x) results -> may work x.

Lemma upd_sound n results i x : sound_results n results -> may work x -> sound_results n (upd results i (Some x)).
Proof.
  intros [Hl H] Hx; split; [rewrite upd_length; auto|].
  intros y Hy; assert (Hor : y = x \/ In (Some y) results); [|destruct Hor as [->|]; auto].
  clear Hl H; revert i Hy; induction results as [|h t IH]; intros [|i]; cbn; auto.
  - intros [E|Hy]; [injection E as ->; auto|auto].
  - intros [E|Hy]; [auto|]. destruct (IH i Hy) as [E|Hin]; auto.
Qed.

Lemma step_sound n w w' : worker_step next fresh pooled work w w' ->
  sound_results n (w_results w) -> sound_results n (w_results w').
Proof.
  intros H; destruct H; cbn [w_results]; auto.
  intros Hs; apply upd_sound; auto; eapply executes_may; eauto.
Qed.
Lemma steps_sound n w w' : worker_steps next fresh pooled work w w' ->
  sound_results n (w_results w) -> sound_results n (w_results w').
Proof. induction 1; auto; intros Hs; apply IHworker_steps; eapply step_sound; eauto. Qed.

Lemma may_repeatM_iff n (r : list A) : may (repeatM n work) r <-> length r = n /\ Forall (may work) r.
Proof.
  split; [apply may_repeatM|]; intros [<- H]; induction H as [|x r Hx Hr IH]; cbn [length repeatM]; [reflexivity|].
  apply (proj2 (may_bind _ _ _)); exists x; split; auto; apply (proj2 (may_bind _ _ _)); exists r; split; [exact IH|reflexivity].
Qed.

Lemma start_sound n : sound_results n (repeat None n).
Proof. split; [apply repeat_length|]; intros x Hx; apply repeat_spec in Hx; discriminate. Qed.

Lemma parallel_may n jobs pool pool' r : parallel next fresh pooled work n jobs pool pool' r -> may (repeatM n work) r.
Proof.
  intros [_ H]; apply may_repeatM_iff.
  destruct (steps_sound n _ _ H (start_sound n)) as [Hl Hr]; cbn [loop_end w_results] in *; rewrite map_length in Hl.
  split; auto; apply Forall_forall; intros x Hx; apply Hr, in_map; auto.
Qed.

Lemma repeatM_fail n e : 0 < n -> may_fail work e -> may_fail (repeatM n work) e.
Proof. destruct n; [lia|]; intros _ H; cbn [repeatM]; apply (proj2 (may_fail_bind _ _ _)); left; auto. Qed.

Lemma parallel_fails_may n pool e : 0 < n -> parallel_fails next fresh pooled work n pool e -> may_fail (repeatM n work) e.
Proof.
  intros Hn (jobs & w & b & i & j & g & a & _ & _ & _ & H); apply repeatM_fail; auto; eapply fails_may; eauto.
Qed.

(** Progress: no worker waits for another, and every loop ends. *)
Definition left_to_do (w : workers (G := G) A) : nat :=
  list_sum (map (fun j => length j + 2) (w_waiting w)) + list_sum (map (fun r => length (fst r) + 1) (w_running w)).

Lemma sum_cons x l : list_sum (x :: l) = x + list_sum l.
Proof. reflexivity. Qed.

Lemma step_decreases w w' : worker_step next fresh pooled work w w' -> left_to_do w' < left_to_do w.
Proof.
  intros H; destruct H; unfold left_to_do; cbn [w_waiting w_running map];
    rewrite ?map_app, ?list_sum_app; cbn [map]; rewrite ?sum_cons; cbn [fst length]; lia.
Qed.

Lemma step_exists w : must work (fun _ => True) -> (exists g, fresh g) ->
  w_waiting w <> [] \/ w_running w <> [] -> exists w', worker_step next fresh pooled work w w'.
Proof.
  intros Hw (g0 & Hg0) H; destruct w as [pool waiting running results]; cbn [w_waiting w_running] in H.
  destruct running as [|[[|i job] g] after].
  - destruct waiting as [|job after]; [destruct H; congruence|].
    destruct pooled eqn:E; [destruct pool as [|g pool]|].
    + eexists; apply (step_new next fresh true work g0 [] [] job after); auto.
    + eexists; apply (step_pull next fresh true work g pool [] job after); auto.
    + eexists; apply (step_new next fresh false work g0 pool [] job after); auto; discriminate.
  - eexists; apply (step_end next fresh pooled work pool waiting [] g after).
  - destruct (must_executes work _ g Hw) as (x & g' & Hx & _).
    eexists; apply (step_item next fresh pooled work pool waiting [] i job g x g' after); auto.
Qed.

(** Every index is either still to do or has its result. *)
Definition todo (w : workers (G := G) A) : list nat := concat (w_waiting w) ++ concat (map fst (w_running w)).
Definition covered (n : nat) (w : workers (G := G) A) : Prop :=
  length (w_results w) = n /\ (forall i, In i (todo w) -> i < n) /\
  forall i, i < n -> In i (todo w) \/ exists x, nth_error (w_results w) i = Some (Some x).

Lemma nth_upd {B} (l : list B) i j v : i < length l -> nth_error (upd l i v) j = if j =? i then Some v else nth_error l j.
Proof.
  revert i j; induction l as [|h t IH]; cbn; intros i j Hi; [lia|].
  destruct i as [|i]; destruct j as [|j]; cbn; auto; apply IH; lia.
Qed.

Lemma todo_in w i : In i (todo w) <-> (exists j, In j (w_waiting w) /\ In i j) \/ (exists j g, In (j, g) (w_running w) /\ In i j).
Proof.
  unfold todo; rewrite in_app_iff, !in_concat; split.
  - intros [(j & A1 & B1)|(j & A1 & B1)]; [left; eauto|right]. apply in_map_iff in A1 as ([j' g] & E & Hin); cbn in E; subst; eauto.
  - intros [(j & A1 & B1)|(j & g & A1 & B1)]; [left; eauto|right; exists j; split; auto; apply in_map_iff; exists (j, g); auto].
Qed.

Lemma step_covered n w w' : worker_step next fresh pooled work w w' -> covered n w -> covered n w'.
Proof.
  intros H (Hl & Ht & Hc).
  assert (Same : w_results w' = w_results w -> (forall i, In i (todo w') <-> In i (todo w)) -> covered n w').
  { intros E Hi; split; [rewrite E; auto|]; split; [intros i Hx; apply Ht, Hi; auto|].
    intros i Hx; rewrite E; destruct (Hc i Hx) as [C|C]; [left; apply Hi; auto|right; auto]. }
  destruct H as [g pool before job after running results Hp|g pool before job after running results Hf Hp
                |pool waiting before i0 job g x g' after results Hx|pool waiting before g after results].
  - apply Same; [reflexivity|]; intros i; unfold todo; cbn [w_waiting w_running map fst concat].
    rewrite !concat_app; cbn [concat]; rewrite !in_app_iff; tauto.
  - apply Same; [reflexivity|]; intros i; unfold todo; cbn [w_waiting w_running map fst concat].
    rewrite !concat_app; cbn [concat]; rewrite !in_app_iff; tauto.
  - cbn [w_results] in *; assert (Hi0 : i0 < n).
    { apply Ht; unfold todo; cbn [w_waiting w_running]; rewrite map_app, concat_app; cbn; rewrite !in_app_iff; cbn; auto. }
    assert (Hin : forall i, In i (todo (mkWorkers pool waiting (before ++ (i0 :: job, g) :: after) results)) <->
              i = i0 \/ In i (todo (mkWorkers pool waiting (before ++ (job, g') :: after) (upd results i0 (Some x))))).
    { intros i; unfold todo; cbn [w_waiting w_running]; rewrite !map_app, !concat_app; cbn; rewrite !in_app_iff; cbn; rewrite !in_app_iff.
      intuition. }
    split; [cbn [w_results]; rewrite upd_length; auto|]; split.
    + intros i Hi; apply Ht, Hin; auto.
    + intros i Hi; cbn [w_results]; rewrite nth_upd by lia.
      destruct (Nat.eqb_spec i i0) as [->|Hne]; [right; eauto|].
      destruct (Hc i Hi) as [C|C]; [left|right; auto]. apply Hin in C as [|]; [congruence|auto].
  - apply Same; [reflexivity|]; intros i; unfold todo; cbn [w_waiting w_running].
    rewrite !map_app, !concat_app; cbn; rewrite !in_app_iff; tauto.
Qed.
Lemma steps_covered n w w' : worker_steps next fresh pooled work w w' -> covered n w -> covered n w'.
Proof. induction 1; auto; intros Hs; apply IHworker_steps; eapply step_covered; eauto. Qed.

Lemma start_covered n jobs pool : split_into n jobs -> covered n (loop_start A n jobs pool).
Proof.
  intros [E _]; split; [apply repeat_length|]; unfold todo; cbn [loop_start w_waiting w_running map concat].
  rewrite app_nil_r, E; split; intros i; rewrite in_seq; [lia|left; lia].
Qed.

Lemma all_some n (l : list (option A)) : length l = n -> (forall i, i < n -> exists x, nth_error l i = Some (Some x)) -> exists r, l = map Some r.
Proof.
  revert n; induction l as [|h t IH]; intros n Hl H; [exists []; auto|].
  destruct (IH (length t) eq_refl) as [r ->].
  { intros i Hi; apply (H (S i)); cbn in Hl; lia. }
  destruct (H 0) as [x Hx]; [cbn in Hl; lia|]; cbn in Hx; injection Hx as ->; exists (x :: r); auto.
Qed.

(** A loop that cannot go on has delivered all its results. *)
Lemma stuck_is_end n jobs pool w : must work (fun _ => True) -> (exists g, fresh g) -> split_into n jobs ->
  worker_steps next fresh pooled work (loop_start A n jobs pool) w -> (forall w', ~ worker_step next fresh pooled work w w') ->
  exists pool' r, w = loop_end pool' r /\ length r = n.
Proof.
  intros Hw Hg Hj Hs Hstuck.
  destruct (steps_covered n _ _ Hs (start_covered n jobs pool Hj)) as (Hl & Ht & Hc).
  assert (E : w_waiting w = [] /\ w_running w = []).
  { destruct (w_waiting w) eqn:E1; [destruct (w_running w) eqn:E2; auto|];
      exfalso; destruct (step_exists w Hw Hg) as [w' Hw']; try (rewrite ?E1, ?E2; auto; (left + right); discriminate); eapply Hstuck; eauto. }
  destruct E as [E1 E2]; destruct w as [pool' waiting running results]; cbn [w_waiting w_running w_results] in *; subst.
  destruct (all_some (length results) results eq_refl) as [r ->].
  { intros i Hi; destruct (Hc i Hi) as [[]|C]; auto. }
  exists pool', r; split; [reflexivity|]; rewrite map_length; auto.
Qed.

(** Whatever the workers do first, the loop can be finished. *)
Lemma can_finish w : must work (fun _ => True) -> (exists g, fresh g) ->
  exists w', worker_steps next fresh pooled work w w' /\ w_waiting w' = [] /\ w_running w' = [].
Proof.
  intros Hw Hg; remember (left_to_do w) as k eqn:Ek; assert (Hk : left_to_do w <= k) by lia; clear Ek; revert w Hk.
  induction k as [|k IH]; intros w Hk.
  - destruct w as [pool [|] [|] results]; cbn in Hk; try (exfalso; unfold left_to_do in Hk; cbn in Hk; lia).
    eexists; split; [constructor|auto].
  - destruct (w_waiting w) eqn:E1; [destruct (w_running w) eqn:E2; [exists w; split; [constructor|auto]|]|];
    (destruct (step_exists w Hw Hg) as [w1 H1]; [rewrite ?E1, ?E2; (left; discriminate) + (right; discriminate)|];
     pose proof (step_decreases _ _ H1); destruct (IH w1 ltac:(lia)) as (w2 & H2 & Hend); exists w2; split; auto; econstructor; eauto).
Qed.
End Gen.
