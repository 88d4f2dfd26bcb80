(** * PSchedule4: witnesses that a seeded [M::rng] does not make runs reproducible. *)
From Coq Require Import List Bool Arith NArith Lia.
From Verif Require Import Rnd LRnd F64 MStats MPopulation MSelection MModel MAlgorithms MOneMax MSchedule SpecF SpecS
  PPopulation PSchedule PSchedule2 PSchedule3 PNested POneMax2.
Import ListNotations.


Lemma bit_job (b : bool) (c : N) : (c mod 2 = if b then 1 else 0)%N -> executes counter_next (onemax_new_random 1) c (bit b) (c + 1)%N.
Proof. intros H; apply drive_executes; cbn; rewrite H; destruct b; reflexivity. Qed.

Lemma fill_one_job : parallel counter_next (eq 0%N) false (onemax_new_random 1) 2 [[0; 1]] [] [] [bit false; bit true].
Proof.
  split; [split; [reflexivity|intros [|[]]; discriminate]|].
  eapply steps_more; [apply (step_new _ _ false _ 0%N [] [] [0; 1] [] [] [None; None]); auto; discriminate|].
  eapply steps_more; [apply (step_item _ _ false _ [] [] [] 0 [1] 0%N (bit false) 1%N []); apply (bit_job false 0); reflexivity|].
  eapply steps_more; [apply (step_item _ _ false _ [] [] [] 1 [] 1%N (bit true) 2%N []); apply (bit_job true 1); reflexivity|].
  eapply steps_more; [apply (step_end _ _ false _ [] [] [] 2%N [])|]; constructor.
Qed.

Lemma fill_two_jobs : parallel counter_next (eq 0%N) false (onemax_new_random 1) 2 [[0]; [1]] [] [] [bit false; bit false].
Proof.
  split; [split; [reflexivity|intros [|[|[]]]; discriminate]|].
  eapply steps_more; [apply (step_new _ _ false _ 0%N [] [] [0] [[1]] [] [None; None]); auto; discriminate|].
  eapply steps_more; [apply (step_new _ _ false _ 0%N [] [] [1] [] [([0], 0%N)] [None; None]); auto; discriminate|].
  eapply steps_more; [apply (step_item _ _ false _ [] [] [] 1 [] 0%N (bit false) 1%N [([0], 0%N)]); apply (bit_job false 0); reflexivity|].
  eapply steps_more; [apply (step_item _ _ false _ [] [] [([], 1%N)] 0 [] 0%N (bit false) 1%N []); apply (bit_job false 0); reflexivity|].
  eapply steps_more; [apply (step_end _ _ false _ [] [] [] 1%N [([], 1%N)])|].
  eapply steps_more; [apply (step_end _ _ false _ [] [] [] 1%N [])|]; constructor.
Qed.


Lemma may_by_run {A} (m : M A) (check : A -> bool) :
  match run_strict m [] with Some a => check a | None => false end = true -> exists a, may m a /\ check a = true.
Proof. destruct (run_strict m []) as [a|] eqn:E; [|discriminate]; intros H; exists a; split; auto; eapply run_strict_may; eauto. Qed.

Lemma executes_by_drive {G A} (next : G -> N -> N * G) (m : M A) g (check : A * G -> bool) :
  match drive next m g with Some a => check a | None => false end = true -> exists a g', executes next m g a g' /\ check (a, g') = true.
Proof. destruct (drive next m g) as [[a g']|] eqn:E; [|discriminate]; intros H; exists a, g'; split; auto; apply drive_executes; auto. Qed.

Lemma seeded_run (fexp : f64 -> f64) (init : list onemax) (b : bool) jobs :
  parallel counter_next (eq 0%N) false (onemax_new_random 1) 2 jobs [] [] init ->
  match run_strict (p <- initialize_population onemax_ops onemax_model tt init ;; x <- take_fittest p ;; Ret (p, x)) [] with
  | Some (p, x) => genome_eqb (genome x) [b] | None => false end = true ->
  exists x r, runs counter_next (eq 0%N) onemax_ops fexp onemax_model (ga_algorithm onemax_ops fexp onemax_model) (quiet stop) 2
    (ga_from tt) (onemax_new_random 1) seed_params tt x r /\ genome x = [b].
Proof.
  intros Hp Hi.
  destruct (may_by_run (ga_configure (ga_from (I := onemax) tt) seed_params) (fun s => 2 =? ga_size s)) as (s & Hs & _); [vm_compute; reflexivity|].
  destruct (may_by_run (p <- initialize_population onemax_ops onemax_model tt init ;; x <- take_fittest p ;; Ret (p, x))
              (fun '(p, x) => genome_eqb (genome x) [b])) as ([p x] & H & Hx); [exact Hi|].
  apply (proj1 (may_bind _ _ _)) in H as (p' & H1 & H); apply (proj1 (may_bind _ _ _)) in H as (x' & H2 & H); cbn in H; injection H as -> ->.
  exists x, (mkRun p s tt ([] ++ [p])); split; [|apply genome_eqb_eq; exact Hx].
  exists init; split; [apply (extends_some _ _ _ [] 2 jobs [] init); [lia|exact Hp]|]; split; [|exact H2].
  exists s, p, [0%N; 0%N]; split; [exact Hs|split; [exact H1|split; [reflexivity|split; [repeat constructor|]]]].
  apply loops_stop; reflexivity.
Qed.

Lemma seed_not_reproducible (fexp : f64 -> f64) :
  exists x x' r r',
    runs counter_next (eq 0%N) onemax_ops fexp onemax_model (ga_algorithm onemax_ops fexp onemax_model) (quiet stop) 2
      (ga_from tt) (onemax_new_random 1) seed_params tt x r /\
    runs counter_next (eq 0%N) onemax_ops fexp onemax_model (ga_algorithm onemax_ops fexp onemax_model) (quiet stop) 2
      (ga_from tt) (onemax_new_random 1) seed_params tt x' r' /\
    genome x = [true] /\ genome x' = [false].
Proof.
  destruct (seeded_run fexp _ true _ fill_one_job) as (x & r & H & E); [vm_compute; reflexivity|].
  destruct (seeded_run fexp _ false _ fill_two_jobs) as (x' & r' & H' & E'); [vm_compute; reflexivity|].
  exists x, x', r, r'; auto.
Qed.

(** ** The pool: the same jobs, another order *)

Lemma breed_job (c : N) (b : bool) :
  match drive counter_next seed_breed c with Some (x, c') => genome_eqb (genome x) [b] && (c' =? c + 3)%N | None => false end = true ->
  exists x, executes counter_next seed_breed c x (c + 3)%N /\ genome x = [b].
Proof.
  intros H; destruct (executes_by_drive counter_next seed_breed c (fun '(x, c') => genome_eqb (genome x) [b] && (c' =? c + 3)%N)) as (x & c' & Hx & E).
  - destruct (drive counter_next seed_breed c) as [[x c']|]; auto.
  - apply andb_prop in E as [E1 E2]; apply N.eqb_eq in E2; subst c'; exists x; split; auto; apply genome_eqb_eq; auto.
Qed.

Lemma pool_together x y : executes counter_next seed_breed 0%N x 3%N -> executes counter_next seed_breed 0%N y 3%N ->
  parallel counter_next (eq 0%N) true seed_breed 2 [[0]; [1]] [0; 0]%N [3; 3]%N [x; y].
Proof.
  intros Hx Hy; split; [split; [reflexivity|intros [|[|[]]]; discriminate]|].
  eapply steps_more; [apply (step_pull _ _ true _ 0%N [0%N] [] [0] [[1]] [] [None; None]); auto|].
  eapply steps_more; [apply (step_pull _ _ true _ 0%N [] [] [1] [] [([0], 0%N)] [None; None]); auto|].
  eapply steps_more; [apply (step_item _ _ true _ [] [] [] 1 [] 0%N y 3%N [([0], 0%N)]); exact Hy|].
  eapply steps_more; [apply (step_item _ _ true _ [] [] [([], 3%N)] 0 [] 0%N x 3%N []); exact Hx|].
  eapply steps_more; [apply (step_end _ _ true _ [] [] [] 3%N [([], 3%N)])|].
  eapply steps_more; [apply (step_end _ _ true _ [3%N] [] [] 3%N [])|]; constructor.
Qed.

Lemma pool_one_by_one x y : executes counter_next seed_breed 0%N x 3%N -> executes counter_next seed_breed 3%N y 6%N ->
  parallel counter_next (eq 0%N) true seed_breed 2 [[0]; [1]] [0; 0]%N [6; 0]%N [x; y].
Proof.
  intros Hx Hy; split; [split; [reflexivity|intros [|[|[]]]; discriminate]|].
  eapply steps_more; [apply (step_pull _ _ true _ 0%N [0%N] [] [0] [[1]] [] [None; None]); auto|].
  eapply steps_more; [apply (step_item _ _ true _ [0%N] [[1]] [] 0 [] 0%N x 3%N []); exact Hx|].
  eapply steps_more; [apply (step_end _ _ true _ [0%N] [[1]] [] 3%N [])|].
  eapply steps_more; [apply (step_pull _ _ true _ 3%N [0%N] [] [1] [] []); auto|].
  eapply steps_more; [apply (step_item _ _ true _ [0%N] [] [] 1 [] 3%N y 6%N []); exact Hy|].
  eapply steps_more; [apply (step_end _ _ true _ [0%N] [] [] 6%N [])|]; constructor.
Qed.

Lemma pool_not_reproducible : exists pool1 pool2 out1 out2,
  parallel counter_next (eq 0%N) true seed_breed 2 [[0]; [1]] [0; 0]%N pool1 out1 /\
  parallel counter_next (eq 0%N) true seed_breed 2 [[0]; [1]] [0; 0]%N pool2 out2 /\
  map genome out1 = [[false]; [false]] /\ map genome out2 = [[false]; [true]].
Proof.
  destruct (breed_job 0 false) as (x & Hx & Ex); [vm_compute; reflexivity|].
  destruct (breed_job 3 true) as (y & Hy & Ey); [vm_compute; reflexivity|].
  exists [3; 3]%N, [6; 0]%N, [x; x], [x; y]; split; [apply pool_together; auto|split; [apply pool_one_by_one; auto|]].
  cbn; rewrite Ex, Ey; auto.
Qed.

(** ** Small facts for the statements *)
Lemma loop_finishes {G A} (next : G -> N -> N * G) (fresh : G -> Prop) (pooled : bool) (work : M A) n jobs pool w :
  in_range next -> (exists g, fresh g) -> must work (fun _ => True) -> split_into n jobs ->
  worker_steps next fresh pooled work (loop_start A n jobs pool) w ->
  exists pool' out, worker_steps next fresh pooled work w (loop_end pool' out) /\ length out = n.
Proof.
  intros Hn Hf Hw Hj Hs; destruct (can_finish next fresh Hn pooled work w Hw Hf) as (w' & Hs' & E1 & E2).
  assert (Hall : worker_steps next fresh pooled work (loop_start A n jobs pool) w').
  { clear -Hs Hs'; induction Hs; auto; econstructor; eauto. }
  destruct (steps_covered next fresh pooled work n _ _ Hall (start_covered n jobs pool Hj)) as (Hl & _ & Hc).
  destruct w' as [pool' waiting running results]; cbn [w_waiting w_running w_results] in *; subst.
  destruct (all_some (length results) results eq_refl) as [r ->].
  { intros i Hi; destruct (Hc i Hi) as [[]|C]; auto. }
  exists pool', r; split; [exact Hs'|]; rewrite map_length; auto.
Qed.

Lemma no_endless_loop {G A} (next : G -> N -> N * G) (fresh : G -> Prop) (pooled : bool) (work : M A) (f : nat -> workers A) :
  ~ (forall k, worker_step next fresh pooled work (f k) (f (S k))).
Proof.
  intros H; assert (K : forall k, left_to_do (f k) + k <= left_to_do (f 0)).
  { induction k as [|k IH]; [lia|]; pose proof (step_decreases next fresh pooled work _ _ (H k)); lia. }
  specialize (K (S (left_to_do (f 0)))); lia.
Qed.

Lemma new_random_settled n : settled (onemax_new_random n).
Proof.
  unfold onemax_new_random; assert (K : forall (f : list bool -> M onemax), (forall l, settled (f l)) -> settled (bind (repeatM n gen_bool) f)).
  { induction n as [|n IH]; intros f Hf; cbn [repeatM bind]; [apply Hf|].
    unfold gen_bool at 1; cbn [bind settled]; intros i; cbn [bind].
    specialize (IH (fun bs => f (negb (i =? 0)%N :: bs)) (fun l => Hf _)).
    revert IH; generalize (repeatM n gen_bool); intros m; induction m as [a|e|k h IHm|k h IHm]; cbn; auto. }
  apply K; intros l; exact I.
Qed.

Lemma c101_example : exists x, In x [bit false; bit false] /\ in_range counter_next /\ settled (onemax_new_random 1) /\
  parallel counter_next (eq 0%N) false (onemax_new_random 1) 2 [[0]; [1]] [] [] [bit false; bit false] /\
  (forall j, In j [[0]; [1]] -> length j = 1).
Proof.
  exists (bit false); split; [cbn; auto|]; split; [apply counter_in_range|]; split; [apply new_random_settled|]; split; [apply fill_two_jobs|].
  intros j [<-|[<-|[]]]; reflexivity.
Qed.

Lemma c100_example : in_range counter_next /\ exists out, parallel counter_next (eq 0%N) true seed_breed 2 [[0]; [1]] [0; 0]%N [6; 0]%N out /\
  map genome out = [[false]; [true]].
Proof.
  split; [apply counter_in_range|].
  destruct (breed_job 0 false) as (x & Hx & Ex); [vm_compute; reflexivity|].
  destruct (breed_job 3 true) as (y & Hy & Ey); [vm_compute; reflexivity|].
  exists [x; y]; split; [apply pool_one_by_one; auto|]; cbn; rewrite Ex, Ey; auto.
Qed.
