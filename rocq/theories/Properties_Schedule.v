(** * Properties_Schedule: worker threads and generators (C100, C101). *)
From Coq Require Import List Bool Arith NArith ZArith.
From Verif Require Import Rnd F64 MStats MPopulation MSelection MModel MAlgorithms MOneMax MSchedule SpecF SpecA SpecS
  PSchedule PSchedule2 PSchedule3 PSchedule4 PSchedule5 PSchedule6.
Import ListNotations.

(** C100: whatever the workers and the generators do, a loop gives what the
    sequential model may give, and it ends. *)
Theorem C100_loop_covered :
  forall (G : Type) (next : G -> N -> N * G) (fresh : G -> Prop), in_range next ->
  forall (A : Type) (pooled : bool) (work : M A) (n : nat),
  (forall jobs pool pool' out, parallel next fresh pooled work n jobs pool pool' out -> may (repeatM n work) out) /\
  (forall pool e, 0 < n -> parallel_fails next fresh pooled work n pool e -> may_fail (repeatM n work) e).
Proof. exact @c100_loop. Qed.
Print Assumptions C100_loop_covered.
Theorem C100_loop_finishes :
  forall (G A : Type) (next : G -> N -> N * G) (fresh : G -> Prop) (pooled : bool) (work : M A) (n : nat) (jobs : list (list nat))
    (pool : list G) (w : workers A),
  in_range next -> (exists g, fresh g) -> must work (fun _ => True) -> split_into n jobs ->
  worker_steps next fresh pooled work (loop_start A n jobs pool) w ->
  exists pool' out, worker_steps next fresh pooled work w (loop_end pool' out) /\ length out = n.
Proof. exact @loop_finishes. Qed.
Print Assumptions C100_loop_finishes.
Theorem C100_no_endless_loop :
  forall (G A : Type) (next : G -> N -> N * G) (fresh : G -> Prop) (pooled : bool) (work : M A) (f : nat -> workers A),
  ~ (forall k, worker_step next fresh pooled work (f k) (f (S k))).
Proof. exact @no_endless_loop. Qed.
Print Assumptions C100_no_endless_loop.

(** The same for whole runs: what the model guarantees holds on any number of
    threads, for every schedule and every generator. *)
Theorem C100_run_guarantee :
  forall (G : Type) (next : G -> N -> N * G) (fresh : G -> Prop), in_range next ->
  forall (I : Type) (io : individual_ops I) (fexp : f64 -> f64) (MS : Type) (mdl : model I MS) (P S0 : Type) (alg : algorithm I MS P S0)
    (PS : Type) (progress : PS -> S0 -> population I -> M (bool * PS * S0))
    (fuel : nat) (Q : I * run_result I S0 PS -> Prop) (threads : nat) (s : S0) (new_random : M I) (q : P) (ps : PS),
  must (evolution_run io fexp mdl alg progress fuel s new_random q ps) Q ->
  (forall x r, runs next fresh io fexp mdl alg progress threads s new_random q ps x r -> Q (x, r)) /\
  (forall e, ~ runs_fail next fresh io fexp mdl alg progress threads s new_random q ps e).
Proof. exact @runs_guarantee. Qed.
Print Assumptions C100_run_guarantee.
Theorem C100_individual_guarantee :
  forall (G : Type) (next : G -> N -> N * G) (fresh : G -> Prop), in_range next ->
  forall (I : Type) (io : individual_ops I) (fexp : f64 -> f64) (MS : Type) (mdl : model I MS) (P S0 : Type) (alg : algorithm I MS P S0)
    (PS : Type) (progress : PS -> S0 -> population I -> M (bool * PS * S0))
    (fuel : nat) (Q : I * run_result I S0 PS -> Prop) (threads : nat) (s : S0) (seed : I) (q : P) (ps : PS),
  must (evolve_individual io fexp mdl alg progress fuel s seed q ps) Q ->
  (forall x r, runs_from next fresh io fexp mdl alg progress threads s seed q ps x r -> Q (x, r)) /\
  (forall e, ~ runs_from_fail next fresh io fexp mdl alg progress threads s seed q ps e).
Proof. exact @runs_from_guarantee. Qed.
Print Assumptions C100_individual_guarantee.
(** A result or a panic on threads is one of the model's. *)
Theorem C100_run_covered :
  forall (G : Type) (next : G -> N -> N * G) (fresh : G -> Prop), in_range next ->
  forall (I : Type) (io : individual_ops I) (fexp : f64 -> f64) (MS : Type) (mdl : model I MS) (P S0 : Type) (alg : algorithm I MS P S0)
    (PS : Type) (progress : PS -> S0 -> population I -> M (bool * PS * S0)) (threads : nat) (s : S0) (new_random : M I) (q : P) (ps : PS),
  (forall x r, runs next fresh io fexp mdl alg progress threads s new_random q ps x r ->
     exists fuel, may (evolution_run io fexp mdl alg progress fuel s new_random q ps) (x, r)) /\
  (runs_fail next fresh io fexp mdl alg progress threads s new_random q ps Panic ->
     exists fuel, may_fail (evolution_run io fexp mdl alg progress fuel s new_random q ps) Panic).
Proof. exact @c100_run. Qed.
Print Assumptions C100_run_covered.
Theorem C100_individual_covered :
  forall (G : Type) (next : G -> N -> N * G) (fresh : G -> Prop), in_range next ->
  forall (I : Type) (io : individual_ops I) (fexp : f64 -> f64) (MS : Type) (mdl : model I MS) (P S0 : Type) (alg : algorithm I MS P S0)
    (PS : Type) (progress : PS -> S0 -> population I -> M (bool * PS * S0)) (threads : nat) (s : S0) (seed : I) (q : P) (ps : PS),
  (forall x r, runs_from next fresh io fexp mdl alg progress threads s seed q ps x r ->
     exists fuel, may (evolve_individual io fexp mdl alg progress fuel s seed q ps) (x, r)) /\
  (runs_from_fail next fresh io fexp mdl alg progress threads s seed q ps Panic ->
     exists fuel, may_fail (evolve_individual io fexp mdl alg progress fuel s seed q ps) Panic).
Proof. exact @c100_run_from. Qed.
Print Assumptions C100_individual_covered.
(** And every result and panic of the model is that of some generator, on one
    thread. *)
Theorem C100_run_realised :
  forall (I : Type) (io : individual_ops I) (fexp : f64 -> f64) (MS : Type) (mdl : model I MS) (P S0 : Type) (alg : algorithm I MS P S0)
    (PS : Type) (progress : PS -> S0 -> population I -> M (bool * PS * S0)) (fuel : nat) (s : S0) (new_random : M I) (q : P) (ps : PS),
  in_range tape_next /\
  (forall x r, may (evolution_run io fexp mdl alg progress fuel s new_random q ps) (x, r) ->
     runs tape_next (fun _ => True) io fexp mdl alg progress 1 s new_random q ps x r) /\
  (may_fail (evolution_run io fexp mdl alg progress fuel s new_random q ps) Panic ->
     runs_fail tape_next (fun _ => True) io fexp mdl alg progress 1 s new_random q ps Panic).
Proof. exact @c100_realised. Qed.
Print Assumptions C100_run_realised.
Theorem C100_individual_realised :
  forall (I : Type) (io : individual_ops I) (fexp : f64 -> f64) (MS : Type) (mdl : model I MS) (P S0 : Type) (alg : algorithm I MS P S0)
    (PS : Type) (progress : PS -> S0 -> population I -> M (bool * PS * S0)) (fuel : nat) (s : S0) (seed : I) (q : P) (ps : PS),
  in_range tape_next /\
  (forall x r, may (evolve_individual io fexp mdl alg progress fuel s seed q ps) (x, r) ->
     runs_from tape_next (fun _ => True) io fexp mdl alg progress 1 s seed q ps x r) /\
  (may_fail (evolve_individual io fexp mdl alg progress fuel s seed q ps) Panic ->
     runs_from_fail tape_next (fun _ => True) io fexp mdl alg progress 1 s seed q ps Panic).
Proof. exact @c100_realised_from. Qed.
Print Assumptions C100_individual_realised.
(** An instance: OneMax on threads *)
Theorem C100_onemax_on_threads :
  forall (G : Type) (next : G -> N -> N * G) (fresh : G -> Prop), in_range next ->
  forall (PS : Type) (fexp : f64 -> f64) (n threads k : nat) (f : PS -> population onemax -> M (bool * PS))
    (s : ga_state onemax unit) (q : ga_params) (ps : PS),
  1 <= n -> fits_usize n ->
  ga_accepted q -> 2 <= ga_population_size q -> fits_usize (ga_population_size q) -> robust_strategy (ga_selection_strategy q) ->
  (forall ps p, must (f ps p) (fun _ => True)) -> (forall ps' p, generation p = k -> must (f ps' p) (fun o => fst o = false)) ->
  forall e, ~ runs_fail next fresh onemax_ops fexp onemax_model (ga_algorithm onemax_ops fexp onemax_model) (quiet f) threads s
    (onemax_new_random n) q ps e.
Proof. exact @onemax_on_threads. Qed.
Print Assumptions C100_onemax_on_threads.
Example C100_example :
  in_range counter_next /\ exists out, parallel counter_next (eq 0%N) true seed_breed 2 [[0]; [1]] [0; 0]%N [6; 0]%N out /\
    map genome out = [[false]; [true]].
Proof. exact c100_example. Qed.

(** C101: a seeded [M::rng].  The jobs of an initial population all draw the same
    numbers. *)
Theorem C101_jobs_repeat :
  forall (G : Type) (next : G -> N -> N * G) (g0 : G) (A : Type) (work : M A), settled work ->
  forall (n : nat) (jobs : list (list nat)) (pool pool' : list G) (out : list A),
  parallel next (eq g0) false work n jobs pool pool' out ->
  forall j j' k i i', In j jobs -> In j' jobs -> nth_error j k = Some i -> nth_error j' k = Some i' ->
  nth_error out i = nth_error out i'.
Proof. exact @jobs_repeat. Qed.
Print Assumptions C101_jobs_repeat.
Theorem C101_few_distinct :
  forall (G : Type) (next : G -> N -> N * G) (g0 : G) (A : Type) (work : M A), settled work ->
  forall (n : nat) (jobs : list (list nat)) (pool pool' : list G) (out : list A),
  parallel next (eq g0) false work n jobs pool pool' out ->
  forall l, NoDup l -> incl l out -> length l <= list_max (map (@length nat) jobs).
Proof. exact @few_distinct. Qed.
Print Assumptions C101_few_distinct.
Theorem C101_only_the_split_matters :
  forall (G : Type) (next : G -> N -> N * G) (g0 : G) (A : Type) (work : M A), settled work ->
  forall (n : nat) (jobs : list (list nat)) (pool1 pool1' : list G) (out1 : list A) (pool2 pool2' : list G) (out2 : list A),
  parallel next (eq g0) false work n jobs pool1 pool1' out1 -> parallel next (eq g0) false work n jobs pool2 pool2' out2 -> out1 = out2.
Proof. exact @only_split_matters. Qed.
Print Assumptions C101_only_the_split_matters.
Theorem C101_population_of_one :
  forall (G A MS : Type) (next : G -> N -> N * G) (g0 : G) (io : individual_ops A) (mdl : model A MS) (ms : MS) (work : M A)
    (n : nat) (jobs : list (list nat)) (pool pool' : list G) (out : list A) (p : population A),
  settled work -> parallel next (eq g0) false work n jobs pool pool' out -> (forall j, In j jobs -> length j = 1) ->
  (forall x, exists y, m_evaluate mdl ms x = Ret y) -> (forall x, ieq io x x = true) ->
  may (initialize_population io mdl ms out) p -> length (individuals p) = 1.
Proof. exact @collapse. Qed.
Print Assumptions C101_population_of_one.
Theorem C101_reproducible_refuted :
  forall (fexp : f64 -> f64),
  exists x x' r r',
    runs counter_next (eq 0%N) onemax_ops fexp onemax_model (ga_algorithm onemax_ops fexp onemax_model) (quiet stop) 2
      (ga_from tt) (onemax_new_random 1) seed_params tt x r /\
    runs counter_next (eq 0%N) onemax_ops fexp onemax_model (ga_algorithm onemax_ops fexp onemax_model) (quiet stop) 2
      (ga_from tt) (onemax_new_random 1) seed_params tt x' r' /\
    genome x = [true] /\ genome x' = [false].
Proof. exact seed_not_reproducible. Qed.
Print Assumptions C101_reproducible_refuted.
Theorem C101_pool_order_refuted :
  exists pool1 pool2 out1 out2,
  parallel counter_next (eq 0%N) true seed_breed 2 [[0]; [1]] [0; 0]%N pool1 out1 /\
  parallel counter_next (eq 0%N) true seed_breed 2 [[0]; [1]] [0; 0]%N pool2 out2 /\
  map genome out1 = [[false]; [false]] /\ map genome out2 = [[false]; [true]].
Proof. exact pool_not_reproducible. Qed.
Print Assumptions C101_pool_order_refuted.
Example C101_example :
  exists x, In x [bit false; bit false] /\ in_range counter_next /\ settled (onemax_new_random 1) /\
  parallel counter_next (eq 0%N) false (onemax_new_random 1) 2 [[0]; [1]] [] [] [bit false; bit false] /\
  (forall j, In j [[0]; [1]] -> length j = 1).
Proof. exact c101_example. Qed.
