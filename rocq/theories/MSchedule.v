(** * MSchedule: the parallel loops with their worker threads, and generators with
    a state.  The other model files run the calls of a parallel loop one after the
    other with ideal draws; here rayon's jobs interleave, and each job takes its
    numbers from the generator it holds. *)
From Coq Require Import List Bool Arith NArith.
From Verif Require Import Rnd F64 MStats MPopulation MSelection MModel MAlgorithms.
Import ListNotations.

Section Schedule.
(** A type of generators, and what a generator answers when a value below [n] is
    asked for: any deterministic state machine.  ([M::Rng] together with rand's
    sampling.) *)
Context {G : Type} (next : G -> N -> N * G).
(** The generators that [M::rng()] may return: all the ones with fresh entropy, or
    a single one when the user seeds it. *)
Context (fresh : G -> Prop).

(** [m], started with the generator in state [g], returns [a] and leaves the
    generator in state [g'].  Choices that the language leaves open stay open. *)
Fixpoint executes {A} (m : M A) (g : G) (a : A) (g' : G) : Prop :=
  match m with
  | Ret b => b = a /\ g = g'
  | Fail _ => False
  | Draw n k => (0 < n)%N /\ executes (k (fst (next g n))) (snd (next g n)) a g'
  | Pick n k => exists i, (i < n)%N /\ executes (k i) g a g'
  end.

(** [m], started with the generator in state [g], fails with [e]. *)
Fixpoint fails {A} (m : M A) (g : G) (e : err) : Prop :=
  match m with
  | Ret _ => False
  | Fail e' => e' = e
  | Draw n k => (0 < n)%N /\ fails (k (fst (next g n))) (snd (next g n)) e
  | Pick n k => exists i, (i < n)%N /\ fails (k i) g e
  end.

Section Loop.
(** The state of a parallel [map_init] loop: the generators in the object pool, the
    jobs (the indices they are to compute) not yet started, the running jobs with
    the generators they hold, and the results so far. *)
Record workers (A : Type) := mkWorkers {
  w_pool : list G;
  w_waiting : list (list nat);
  w_running : list (list nat * G);
  w_results : list (option A)
}.
Arguments mkWorkers {A} _ _ _ _.

(** One step of some worker.  [pooled]: the generators come from the pool and go
    back to it (src/algorithms.rs:226-229, object-pool 0.5.4 [pull]: the last one
    attached, or a new one when the pool is empty); otherwise every job makes its
    own (src/model.rs:243-247 and 280-286). *)
Inductive worker_step {A} (pooled : bool) (work : M A) : workers A -> workers A -> Prop :=
| step_pull g pool before job after running results :
    pooled = true ->
    worker_step pooled work (mkWorkers (g :: pool) (before ++ job :: after) running results)
                            (mkWorkers pool (before ++ after) ((job, g) :: running) results)
| step_new g pool before job after running results :
    fresh g -> (pooled = true -> pool = []) ->
    worker_step pooled work (mkWorkers pool (before ++ job :: after) running results)
                            (mkWorkers pool (before ++ after) ((job, g) :: running) results)
| step_item pool waiting before i job g x g' after results :
    executes work g x g' ->
    worker_step pooled work (mkWorkers pool waiting (before ++ (i :: job, g) :: after) results)
                            (mkWorkers pool waiting (before ++ (job, g') :: after) (upd results i (Some x)))
| step_end pool waiting before g after results :
    worker_step pooled work (mkWorkers pool waiting (before ++ ([], g) :: after) results)
                            (mkWorkers (if pooled then g :: pool else pool) waiting (before ++ after) results).

(** Any number of steps *)
Inductive worker_steps {A} (pooled : bool) (work : M A) : workers A -> workers A -> Prop :=
| steps_none w : worker_steps pooled work w w
| steps_more w w' w'' : worker_step pooled work w w' -> worker_steps pooled work w' w'' -> worker_steps pooled work w w''.

(** The jobs of a loop of [n] items: consecutive pieces of [0..n). *)
Definition split_into (n : nat) (jobs : list (list nat)) : Prop :=
  concat jobs = seq 0 n /\ ~ In [] jobs.

(** The start of a loop, and its end with the results in order *)
Definition loop_start (A : Type) (n : nat) (jobs : list (list nat)) (pool : list G) : workers A :=
  mkWorkers pool jobs [] (repeat None n).
Definition loop_end {A} (pool : list G) (results : list A) : workers A := mkWorkers pool [] [] (map Some results).

(** A parallel [map_init] of [n] calls of [work], split into [jobs] *)
Definition parallel {A} (pooled : bool) (work : M A) (n : nat) (jobs : list (list nat)) (pool pool' : list G) (results : list A) : Prop :=
  split_into n jobs /\ worker_steps pooled work (loop_start A n jobs pool) (loop_end pool' results).

(** Some call of it fails. *)
Definition parallel_fails {A} (pooled : bool) (work : M A) (n : nat) (pool : list G) (e : err) : Prop :=
  exists jobs w before i job g after,
    split_into n jobs /\ worker_steps pooled work (loop_start A n jobs pool) w /\
    w_running _ w = before ++ (i :: job, g) :: after /\ fails work g e.

End Loop.

Section Run.
Context {I : Type} (io : individual_ops I) (fexp : f64 -> f64).
Context {MS : Type} (mdl : model I MS).
Context {P S0 : Type} (alg : algorithm I MS P S0).
Context {PS : Type} (progress : PS -> S0 -> population I -> M (bool * PS * S0)).

(** src/model.rs:233-248 extend_population *)
Inductive extends (new_random : M I) (l : list I) (size : nat) : list I -> Prop :=
| extends_none : size = 0 -> extends new_random l size l
| extends_some jobs pool' news : 0 < size -> parallel false new_random size jobs [] pool' news ->
    extends new_random l size (l ++ news).

(** src/model.rs:264-287 extend_population_with *)
Inductive extends_with (ms : MS) (l : list I) (size : nat) (seed : I) : list I -> Prop :=
| with_none : size = 0 -> extends_with ms l size seed l
| with_one : size = 1 -> extends_with ms l size seed (l ++ [seed])
| with_more jobs pool' news : 1 < size -> parallel false (m_mutate mdl ms seed) (size - 1) jobs [] pool' news ->
    extends_with ms l size seed ((l ++ [seed]) ++ news).

(** The pool gives out a generator (object-pool 0.5.4 [pull]). *)
Definition pulls (pool : list G) (g : G) (rest : list G) : Prop :=
  pool = g :: rest \/ (pool = [] /\ fresh g /\ rest = []).

(** src/algorithms.rs:211-232 generate_new_population *)
Inductive generates (ms : MS) (params : breeding I * nat) (p : population I) (offspring : list I) (pool : list G) : list G -> list I -> Prop :=
| gen_none : snd params - length offspring = 0 -> generates ms params p offspring pool pool offspring
| gen_one g rest x g' : snd params - length offspring = 1 -> pulls pool g rest ->
    executes (breed io fexp mdl ms p (fst params)) g x g' ->
    generates ms params p offspring pool (g' :: rest) offspring
| gen_more jobs pool' news : 1 < snd params - length offspring ->
    parallel true (breed io fexp mdl ms p (fst params)) (snd params - length offspring) jobs pool pool' news ->
    generates ms params p offspring pool pool' (offspring ++ news).

(** src/evolution.rs:156-179 one iteration: only generate_new_population uses the
    pool; what the other methods do is as in the sequential model. *)
Definition steps_to (s : S0) (p : population I) (pool : list G) (s' : S0) (p' : population I) (pool' : list G) : Prop :=
  exists elites offspring old,
    may (alg_prepare alg s p) s' /\ may (alg_select_elites alg s' p []) elites /\
    generates (alg_model alg s') (alg_reproduction_parameters alg s') p elites pool pool' offspring /\
    may (population_replace io p offspring) (p', old).

(** src/evolution.rs:155-180 the loop *)
Inductive loops : S0 -> population I -> PS -> list (population I) -> list G -> run_result I S0 PS -> Prop :=
| loops_stop s p ps trace pool ps' s' :
    may (progress ps s p) (false, ps', s') -> loops s p ps trace pool (mkRun p s' ps' (trace ++ [p]))
| loops_on s p ps trace pool ps' s1 s2 p2 pool2 r :
    may (progress ps s p) (true, ps', s1) -> steps_to s1 p pool s2 p2 pool2 ->
    loops s2 p2 ps' (trace ++ [p]) pool2 r -> loops s p ps trace pool r.

(** src/evolution.rs:132-183 evolve_population on [threads] threads *)
Definition evolves (threads : nat) (s : S0) (init : list I) (q : P) (ps : PS) (r : run_result I S0 PS) : Prop :=
  exists s1 p pool, may (alg_configure alg s q) s1 /\ may (initialize_population io mdl (alg_model alg s1) init) p /\
    length pool = threads /\ Forall fresh pool /\ loops s1 p ps [] pool r.

(** src/evolution.rs:48-62 run *)
Definition runs (threads : nat) (s : S0) (new_random : M I) (q : P) (ps : PS) (x : I) (r : run_result I S0 PS) : Prop :=
  exists init, extends new_random [] (alg_initial_population_size alg q) init /\
    evolves threads s init q ps r /\ may (take_fittest (r_population r)) x.

(** src/evolution.rs:88-105 evolve_individual *)
Definition runs_from (threads : nat) (s : S0) (seed : I) (q : P) (ps : PS) (x : I) (r : run_result I S0 PS) : Prop :=
  exists init, extends_with (alg_model alg s) [] (alg_initial_population_size alg q) seed init /\
    evolves threads s init q ps r /\ may (take_fittest (r_population r)) x.

(** ** Failing executions: a panic in a job reaches the caller of the loop. *)
Definition generates_fail (ms : MS) (params : breeding I * nat) (p : population I) (offspring : list I) (pool : list G) (e : err) : Prop :=
  (snd params - length offspring = 1 /\ exists g rest, pulls pool g rest /\ fails (breed io fexp mdl ms p (fst params)) g e) \/
  (1 < snd params - length offspring /\
   parallel_fails true (breed io fexp mdl ms p (fst params)) (snd params - length offspring) pool e).

Definition steps_fail (s : S0) (p : population I) (pool : list G) (e : err) : Prop :=
  may_fail (alg_prepare alg s p) e \/
  exists s', may (alg_prepare alg s p) s' /\
    (may_fail (alg_select_elites alg s' p []) e \/
     exists elites, may (alg_select_elites alg s' p []) elites /\
       (generates_fail (alg_model alg s') (alg_reproduction_parameters alg s') p elites pool e \/
        exists pool' offspring,
          generates (alg_model alg s') (alg_reproduction_parameters alg s') p elites pool pool' offspring /\
          may_fail (population_replace io p offspring) e)).

Inductive loops_fail (e : err) : S0 -> population I -> PS -> list G -> Prop :=
| fail_progress s p ps pool : may_fail (progress ps s p) e -> loops_fail e s p ps pool
| fail_step s p ps pool ps' s1 : may (progress ps s p) (true, ps', s1) -> steps_fail s1 p pool e -> loops_fail e s p ps pool
| fail_later s p ps pool ps' s1 s2 p2 pool2 : may (progress ps s p) (true, ps', s1) -> steps_to s1 p pool s2 p2 pool2 ->
    loops_fail e s2 p2 ps' pool2 -> loops_fail e s p ps pool.

Definition evolves_fail (threads : nat) (s : S0) (init : list I) (q : P) (ps : PS) (e : err) : Prop :=
  may_fail (alg_configure alg s q) e \/
  exists s1, may (alg_configure alg s q) s1 /\
    (may_fail (initialize_population io mdl (alg_model alg s1) init) e \/
     exists p pool, may (initialize_population io mdl (alg_model alg s1) init) p /\
       length pool = threads /\ Forall fresh pool /\ loops_fail e s1 p ps pool).

Definition runs_fail (threads : nat) (s : S0) (new_random : M I) (q : P) (ps : PS) (e : err) : Prop :=
  (0 < alg_initial_population_size alg q /\ parallel_fails false new_random (alg_initial_population_size alg q) [] e) \/
  exists init, extends new_random [] (alg_initial_population_size alg q) init /\
    (evolves_fail threads s init q ps e \/
     exists r, evolves threads s init q ps r /\ may_fail (take_fittest (r_population r)) e).

Definition runs_from_fail (threads : nat) (s : S0) (seed : I) (q : P) (ps : PS) (e : err) : Prop :=
  (1 < alg_initial_population_size alg q /\
   parallel_fails false (m_mutate mdl (alg_model alg s) seed) (alg_initial_population_size alg q - 1) [] e) \/
  exists init, extends_with (alg_model alg s) [] (alg_initial_population_size alg q) seed init /\
    (evolves_fail threads s init q ps e \/
     exists r, evolves threads s init q ps r /\ may_fail (take_fittest (r_population r)) e).

End Run.
End Schedule.
Arguments mkWorkers {G A} _ _ _ _.
Arguments w_pool {G A} _.
Arguments w_waiting {G A} _.
Arguments w_running {G A} _.
Arguments w_results {G A} _.
