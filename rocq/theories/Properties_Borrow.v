(** * Properties_Borrow: re-entering a run (C104). *)
From Coq Require Import List Bool Arith NArith.
From Verif Require Import Rnd F64 MStats MPopulation MSelection MModel MAlgorithms MUnwind MBorrow SpecF SpecA SpecW SpecV ExF ExM ExR PBorrow PBorrow2.
Import ListNotations.

(** C104: whatever user code and closure do, and whether they panic or not, no
    borrow is left behind: this holds at any depth of runs within runs, ... *)
Theorem C104_no_borrow_left :
  forall (I MS P S0 PS : Type) (io : individual_ops I) (fexp : f64 -> f64) (mdl : model I MS) (alg : algorithm I MS P S0)
    (configure : S0 -> P -> M (S0 * option err)) (prepare_next : S0 -> population I -> M (S0 * option err))
    (user : place -> code S0 unit) (progress : PS -> population I -> code S0 (bool * PS)),
  (forall pl, balanced (user pl)) -> (forall ps p, balanced (progress ps p)) ->
  forall (fuel : nat) (init : list I) (nr : M I) (seed : I) (q : P) (ps : PS),
  balanced (cell_evolve io fexp mdl alg configure prepare_next user progress fuel init q ps) /\
  balanced (cell_run io fexp mdl alg configure prepare_next user progress fuel nr q ps) /\
  balanced (cell_individual io fexp mdl alg configure prepare_next user progress fuel seed q ps).
Proof. exact @all_balanced. Qed.
Print Assumptions C104_no_borrow_left.
(** (user code composed of such pieces is of this kind, also when it catches panics,
    and after a caught panic goes on with the state that was left) ... *)
Theorem C104_user_code :
  forall (S0 A B : Type) (a : A) (m : code S0 A) (k : A -> code S0 B) (m0 : M A),
  balanced (S0 := S0) (give a) /\ balanced (S0 := S0) (A := A) panics /\ balanced (S0 := S0) (pure m0) /\
  (balanced m -> (forall x, balanced (k x)) -> balanced (next m k)) /\ (balanced m -> balanced (catching m)) /\
  (forall c c1 r, may (catching m c) (c1, r) <-> exists r', r = inl r' /\ may (m c) (c1, r')).
Proof. exact @user_code. Qed.
Print Assumptions C104_user_code.
(** ... closures may start runs, also runs whose closures start runs, without
    meeting a borrow: everything happens as in the model without borrows. *)
Theorem C104_closure_may_run :
  forall (I MS P S0 PS : Type) (io : individual_ops I) (fexp : f64 -> f64) (mdl : model I MS) (alg : algorithm I MS P S0)
    (configure : S0 -> P -> M (S0 * option err)) (prepare_next : S0 -> population I -> M (S0 * option err))
    (progress : PS -> population I -> code S0 (bool * PS)),
  (forall ps p, balanced (progress ps p)) ->
  (forall s q, completes (configure s q) (alg_configure alg s q)) -> (forall s p, completes (prepare_next s p) (alg_prepare alg s p)) ->
  forall (fuel : nat) (s : S0) (init : list I) (nr : M I) (seed : I) (q : P) (ps : PS),
  same_execution (observe as_run (cell_evolve io fexp mdl alg configure prepare_next no_reentry progress fuel init q ps) s)
                 (evolve_population io fexp mdl alg (as_closure progress) fuel s init q ps) /\
  same_execution (observe as_run_with (cell_run io fexp mdl alg configure prepare_next no_reentry progress fuel nr q ps) s)
                 (evolution_run io fexp mdl alg (as_closure progress) fuel s nr q ps) /\
  same_execution (observe as_run_with (cell_individual io fexp mdl alg configure prepare_next no_reentry progress fuel seed q ps) s)
                 (evolve_individual io fexp mdl alg (as_closure progress) fuel s seed q ps).
Proof. exact @all_agree. Qed.
Print Assumptions C104_closure_may_run.
(** Model and individual methods are called under a borrow, the closure is not:
    what the former would do on a free cell and the latter on a borrowed one does
    not matter. *)
Theorem C104_who_runs_under_a_borrow :
  forall (I MS P S0 PS : Type) (io : individual_ops I) (fexp : f64 -> f64) (mdl : model I MS) (alg : algorithm I MS P S0)
    (configure : S0 -> P -> M (S0 * option err)) (prepare_next : S0 -> population I -> M (S0 * option err))
    (user user' : place -> code S0 unit) (progress progress' : PS -> population I -> code S0 (bool * PS)),
  (forall pl, balanced (user pl)) -> (forall ps p, balanced (progress ps p)) ->
  (forall pl c, flag c <> Free -> same_execution (user pl c) (user' pl c)) ->
  (forall ps p c, flag c = Free -> same_execution (progress ps p c) (progress' ps p c)) ->
  forall (fuel : nat) (init : list I) (nr : M I) (seed : I) (q : P) (ps : PS) (c : cell S0),
  same_execution (cell_evolve io fexp mdl alg configure prepare_next user progress fuel init q ps c)
                 (cell_evolve io fexp mdl alg configure prepare_next user' progress' fuel init q ps c) /\
  same_execution (cell_run io fexp mdl alg configure prepare_next user progress fuel nr q ps c)
                 (cell_run io fexp mdl alg configure prepare_next user' progress' fuel nr q ps c) /\
  same_execution (cell_individual io fexp mdl alg configure prepare_next user progress fuel seed q ps c)
                 (cell_individual io fexp mdl alg configure prepare_next user' progress' fuel seed q ps c).
Proof. exact @all_same. Qed.
Print Assumptions C104_who_runs_under_a_borrow.
(** A run started under a borrow always panics: evolve_population at once and
    leaving everything as it was; run and evolve_individual at the latest when the
    initial individuals are there. *)
Theorem C104_under_a_borrow :
  forall (I : Type) (io : individual_ops I) (fexp : f64 -> f64) (MS : Type) (mdl : model I MS) (P S0 : Type) (alg : algorithm I MS P S0)
    (configure : S0 -> P -> M (S0 * option err)) (prepare_next : S0 -> population I -> M (S0 * option err)) (PS : Type)
    (user : place -> code S0 unit) (progress : PS -> population I -> code S0 (bool * PS))
    (fuel : nat) (init : list I) (q : P) (ps : PS) (c : cell S0),
  flag c <> Free -> cell_evolve io fexp mdl alg configure prepare_next user progress fuel init q ps c = Ret (c, inr Panic).
Proof. exact @evolve_busy. Qed.
Print Assumptions C104_under_a_borrow.
Theorem C104_runs_under_a_borrow :
  forall (I : Type) (io : individual_ops I) (fexp : f64 -> f64) (MS : Type) (mdl : model I MS) (P S0 : Type) (alg : algorithm I MS P S0)
    (configure : S0 -> P -> M (S0 * option err)) (prepare_next : S0 -> population I -> M (S0 * option err)) (PS : Type)
    (user : place -> code S0 unit) (progress : PS -> population I -> code S0 (bool * PS))
    (fuel : nat) (nr : M I) (seed : I) (q : P) (ps : PS) (c : cell S0),
  (forall pl, balanced (user pl)) -> flag c <> Free -> forall c1 r,
  may (cell_run io fexp mdl alg configure prepare_next user progress fuel nr q ps c) (c1, r) \/
  may (cell_individual io fexp mdl alg configure prepare_next user progress fuel seed q ps c) (c1, r) -> exists e, r = inr e.
Proof. exact @run_busy. Qed.
Print Assumptions C104_runs_under_a_borrow.
(** Within configure and pre_generation, which run under a mutable borrow, they
    panic at once, too. *)
Theorem C104_runs_under_a_writer :
  forall (I : Type) (io : individual_ops I) (fexp : f64 -> f64) (MS : Type) (mdl : model I MS) (P S0 : Type) (alg : algorithm I MS P S0)
    (configure : S0 -> P -> M (S0 * option err)) (prepare_next : S0 -> population I -> M (S0 * option err)) (PS : Type)
    (progress : PS -> population I -> code S0 (bool * PS)) (user : place -> code S0 unit)
    (fuel : nat) (nr : M I) (seed : I) (q : P) (ps : PS) (c : cell S0),
  flag c = Writing ->
  cell_run io fexp mdl alg configure prepare_next user progress fuel nr q ps c = Ret (c, inr Panic) /\
  cell_individual io fexp mdl alg configure prepare_next user progress fuel seed q ps c = Ret (c, inr Panic).
Proof. exact @runs_writer. Qed.
Print Assumptions C104_runs_under_a_writer.
(** So a model method that starts a run on the same value acts as one that
    panics, ... *)
Theorem C104_reentry_panics :
  forall (I MS P S0 PS PS' : Type) (io : individual_ops I) (fexp : f64 -> f64) (mdl : model I MS) (alg : algorithm I MS P S0)
    (configure : S0 -> P -> M (S0 * option err)) (prepare_next : S0 -> population I -> M (S0 * option err))
    (user user0 : place -> code S0 unit) (progress : PS -> population I -> code S0 (bool * PS))
    (progress0 : PS' -> population I -> code S0 (bool * PS')) (pl0 : place) (fuel0 : nat) (init0 : list I) (q0 : P) (ps0 : PS'),
  (forall pl, balanced (user pl)) -> (forall ps p, balanced (progress ps p)) ->
  (forall pl, balanced (user0 pl)) -> (forall ps p, balanced (progress0 ps p)) ->
  forall (fuel : nat) (init : list I) (q : P) (ps : PS) (c : cell S0),
  same_execution
    (cell_evolve io fexp mdl alg configure prepare_next
      (at_place pl0 (ignoring (cell_evolve io fexp mdl alg configure prepare_next user0 progress0 fuel0 init0 q0 ps0)) user) progress fuel init q ps c)
    (cell_evolve io fexp mdl alg configure prepare_next (at_place pl0 panics user) progress fuel init q ps c).
Proof. exact @reentry_panics. Qed.
Print Assumptions C104_reentry_panics.
(** ... from evaluate: no run returns; from pre_generation: only runs stopped at
    generation 0 do. *)
Theorem C104_reentry_stops :
  forall (I MS P S0 PS PS' : Type) (io : individual_ops I) (fexp : f64 -> f64) (mdl : model I MS) (alg : algorithm I MS P S0)
    (configure : S0 -> P -> M (S0 * option err)) (prepare_next : S0 -> population I -> M (S0 * option err))
    (user user0 : place -> code S0 unit) (progress : PS -> population I -> code S0 (bool * PS))
    (progress0 : PS' -> population I -> code S0 (bool * PS')) (fuel0 : nat) (init0 : list I) (nr0 : M I) (seed0 : I) (q0 : P) (ps0 : PS'),
  (forall pl, balanced (user0 pl)) -> forall attempt : code S0 unit,
  attempt = ignoring (cell_evolve io fexp mdl alg configure prepare_next user0 progress0 fuel0 init0 q0 ps0) \/
  attempt = ignoring (cell_run io fexp mdl alg configure prepare_next user0 progress0 fuel0 nr0 q0 ps0) \/
  attempt = ignoring (cell_individual io fexp mdl alg configure prepare_next user0 progress0 fuel0 seed0 q0 ps0) ->
  forall (fuel : nat) (init : list I) (q : P) (ps : PS) (c c1 : cell S0) (r : population I * PS * list (population I) + err),
  (may (cell_evolve io fexp mdl alg configure prepare_next (at_place In_evaluate attempt user) progress fuel init q ps c) (c1, r) -> exists e, r = inr e) /\
  (may (cell_evolve io fexp mdl alg configure prepare_next (at_place In_prepare attempt user) progress fuel init q ps c) (c1, r) ->
   (exists e, r = inr e) \/ exists p ps', r = inl (p, ps', [p])).
Proof. exact @reentry_stops. Qed.
Print Assumptions C104_reentry_stops.
(** After any run, also one that panicked, the next run is the model's run from the
    state left. *)
Theorem C104_still_usable :
  forall (I MS P S0 PS PS' : Type) (io : individual_ops I) (fexp : f64 -> f64) (mdl : model I MS) (alg : algorithm I MS P S0)
    (configure : S0 -> P -> M (S0 * option err)) (prepare_next : S0 -> population I -> M (S0 * option err))
    (user : place -> code S0 unit) (progress : PS -> population I -> code S0 (bool * PS)) (progress' : PS' -> population I -> code S0 (bool * PS')),
  (forall pl, balanced (user pl)) -> (forall ps p, balanced (progress ps p)) -> (forall ps p, balanced (progress' ps p)) ->
  (forall s q, completes (configure s q) (alg_configure alg s q)) -> (forall s p, completes (prepare_next s p) (alg_prepare alg s p)) ->
  forall (s : S0) (fuel : nat) (init : list I) (q : P) (ps : PS) (c1 : cell S0) (r : population I * PS * list (population I) + err)
    (fuel' : nat) (nr : M I) (q' : P) (ps' : PS'),
  may (cell_evolve io fexp mdl alg configure prepare_next user progress fuel init q ps (mkCell Free s)) (c1, r) ->
  same_execution (o <- cell_run io fexp mdl alg configure prepare_next no_reentry progress' fuel' nr q' ps' c1 ;; outcome as_run_with o)
                 (evolution_run io fexp mdl alg (as_closure progress') fuel' (value c1) nr q' ps').
Proof. exact @still_usable. Qed.
Print Assumptions C104_still_usable.
(** A rejected configuration leaves in the cell what configure left (see C103). *)
Theorem C104_rejected_left :
  forall (I : Type) (io : individual_ops I) (fexp : f64 -> f64) (MS : Type) (mdl : model I MS) (P S0 : Type) (alg : algorithm I MS P S0)
    (configure : S0 -> P -> M (S0 * option err)) (prepare_next : S0 -> population I -> M (S0 * option err)) (PS : Type)
    (progress : PS -> population I -> code S0 (bool * PS))
    (fuel : nat) (init : list I) (q : P) (ps : PS) (s s1 : S0) (e : err),
  may (configure s q) (s1, Some e) ->
  may (cell_evolve io fexp mdl alg configure prepare_next no_reentry progress fuel init q ps (mkCell Free s)) (mkCell Free s1, inr e).
Proof. exact @rejected_left. Qed.
Print Assumptions C104_rejected_left.
(** The configure methods statement by statement are ones [completes] allows, and
    so is any method that leaves the old state when it panics. *)
Theorem C104_methods :
  forall (I MS : Type) (io : individual_ops I) (fexp : f64 -> f64) (mdl : model I MS),
  (forall (s : ga_state I MS) q, completes (unwinding (ga_configure_steps q) s) (ga_configure s q)) /\
  (forall (s : aga_state I MS) q, completes (unwinding (aga_configure_steps q) s) (aga_configure s q)) /\
  (forall S0 (m : M S0) s, completes (or_unchanged m s) m).
Proof. exact @methods_complete. Qed.
Print Assumptions C104_methods.
Example C104_example :
  (forall ps p, balanced (ex_deeper ps p)) /\
  (forall s q, completes (ex_conf s q) (alg_configure (ga_algorithm ex_io ex_exp ex_model) s q)) /\
  (forall s p, completes (ex_prep s p) (alg_prepare (ga_algorithm ex_io ex_exp ex_model) s p)) /\
  (exists c1 r, may (ex_cell no_reentry ex_deeper 1 [4; 5] (ex_ga 2) tt (mkCell Free (ga_from tt))) (c1, inl r) /\ flag c1 = Free) /\
  (exists c1, may (ex_cell (at_place In_prepare (ignoring (ex_cell no_reentry ex_stop 2 [1; 2] (ex_ga 2) tt)) no_reentry) ex_stop 2 [4; 5] (ex_ga 2) tt
     (mkCell Free (ga_from tt))) (c1, inr Panic) /\ flag c1 = Free).
Proof. exact c104_example. Qed.
