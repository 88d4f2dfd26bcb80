(** * MBorrow: the RefCell in [Evolution] and its borrows.  The other model files
    pass the algorithm's state from call to call; here it lives in the cell, the
    guards of [borrow] and [borrow_mut] are taken and dropped, user code may start
    runs on the same [Evolution] value from within a run, and panics may be caught. *)
From Coq Require Import List Bool Arith NArith.
From Verif Require Import Rnd F64 MStats MPopulation MSelection MModel MAlgorithms MUnwind.
Import ListNotations.

(** [std::cell::RefCell]: not borrowed, borrowed by [n + 1] readers, or by a writer *)
Inductive borrows := Free | Reading (n : nat) | Writing.
Record cell (S0 : Type) := mkCell { flag : borrows; value : S0 }.
Arguments mkCell {S0} _ _.
Arguments flag {S0} _.
Arguments value {S0} _.

(** Code that has access to the cell: it ends, leaving the cell, with a result or a
    panic. *)
Definition code (S0 A : Type) : Type := cell S0 -> M (cell S0 * (A + err)).

Section Code.
Context {S0 : Type}.

Definition give {A} (a : A) : code S0 A := fun c => Ret (c, inl a).
Definition panics {A} : code S0 A := fun c => Ret (c, inr Panic).
(** one piece of code and then another, unless the first one panics *)
Definition next {A B} (m : code S0 A) (k : A -> code S0 B) : code S0 B := fun c =>
  '(c1, r) <- m c ;;
  match r with inl a => k a c1 | inr e => Ret (c1, inr e) end.
(** code that does not use the cell *)
Definition pure {A} (m : M A) : code S0 A := fun c => r <- catch m ;; Ret (c, r).
(** a [&mut self] method of the algorithm: the new state, and the panic, if any *)
Definition update (m : S0 -> M (S0 * option err)) : code S0 unit := fun c =>
  '(s, o) <- m (value c) ;;
  Ret (mkCell (flag c) s, match o with None => inl tt | Some e => inr e end).
(** [std::panic::catch_unwind] *)
Definition catching {A} (m : code S0 A) : code S0 (A + err) := fun c =>
  '(c1, r) <- m c ;; Ret (c1, inl r).

(** [RefCell::borrow] for one statement: a panic when there is a writer; the guard
    is dropped at the end of the statement, also when that is a panic. *)
Definition reader_gone (b : borrows) : borrows :=
  match b with Reading (S n) => Reading n | _ => Free end.
Definition reading {A} (body : S0 -> code S0 A) : code S0 A := fun c =>
  match flag c with
  | Writing => Ret (c, inr Panic)
  | b =>
      '(c1, r) <- body (value c) (mkCell (match b with Reading n => Reading (S n) | _ => Reading 0 end) (value c)) ;;
      Ret (mkCell (reader_gone (flag c1)) (value c1), r)
  end.
(** [RefCell::borrow_mut] for one statement: a panic unless the cell is free *)
Definition writing {A} (body : code S0 A) : code S0 A := fun c =>
  match flag c with
  | Free => '(c1, r) <- body (mkCell Writing (value c)) ;; Ret (mkCell Free (value c1), r)
  | _ => Ret (c, inr Panic)
  end.
End Code.

(** The calls of src/evolution.rs under a borrow, within which user code runs *)
Inductive place := In_new_random | In_mutate | In_configure | In_evaluate | In_prepare | In_elites | In_breed | In_replace.

Section Run.
Context {I : Type} (io : individual_ops I) (fexp : f64 -> f64).
Context {MS : Type} (mdl : model I MS).
Context {P S0 : Type} (alg : algorithm I MS P S0).
(** configure and prepare_for_next_population with the state they leave when they panic *)
Context (configure : S0 -> P -> M (S0 * option err)) (prepare_next : S0 -> population I -> M (S0 * option err)).
(** What user code does with the [Evolution] value within these calls, at the start
    of the call.  (What it does otherwise is in [mdl] and [alg].) *)
Context (user : place -> code S0 unit).
Context {PS : Type} (progress : PS -> population I -> code S0 (bool * PS)).

(** src/evolution.rs:156-179 one iteration of the loop *)
Definition cell_step (p : population I) : code S0 (population I) :=
  next (writing (next (user In_prepare) (fun _ => update (fun s => prepare_next s p)))) (fun _ =>
  next (reading (fun s => next (user In_elites) (fun _ => pure (alg_select_elites alg s p [])))) (fun elites =>
  next (reading (fun s => next (user In_breed) (fun _ =>
          pure (generate_new_population io fexp mdl (alg_model alg s) (alg_reproduction_parameters alg s) p elites)))) (fun offspring =>
  reading (fun _ => next (user In_replace) (fun _ => pure ('(p', _) <- population_replace io p offspring ;; Ret p')))))).

(** src/evolution.rs:155-180 the loop; no guard is alive when the closure is called *)
Fixpoint cell_loop (fuel : nat) (p : population I) (ps : PS) (trace : list (population I)) : code S0 (population I * PS * list (population I)) :=
  match fuel with
  | O => pure (Fail NoFuel)
  | S f =>
      next (progress ps p) (fun '(continue, ps') =>
      if (continue : bool) then next (cell_step p) (fun p' => cell_loop f p' ps' (trace ++ [p]))
      else give (p, ps', trace ++ [p]))
  end.

(** src/evolution.rs:132-183 evolve_population *)
Definition cell_evolve (fuel : nat) (init : list I) (q : P) (ps : PS) : code S0 (population I * PS * list (population I)) :=
  next (writing (next (user In_configure) (fun _ => update (fun s => configure s q)))) (fun _ =>
  next (reading (fun s => next (user In_evaluate) (fun _ => pure (initialize_population io mdl (alg_model alg s) init)))) (fun p =>
  cell_loop fuel p ps [])).

(** src/evolution.rs:48-62 run *)
Definition cell_run (fuel : nat) (new_random : M I) (q : P) (ps : PS) : code S0 (I * (population I * PS * list (population I))) :=
  next (reading (fun _ => next (user In_new_random) (fun _ =>
          pure (extend_population new_random [] (alg_initial_population_size alg q))))) (fun init =>
  next (cell_evolve fuel init q ps) (fun r =>
  next (pure (take_fittest (fst (fst r)))) (fun x => give (x, r)))).

(** src/evolution.rs:88-105 evolve_individual *)
Definition cell_individual (fuel : nat) (seed : I) (q : P) (ps : PS) : code S0 (I * (population I * PS * list (population I))) :=
  next (reading (fun s => next (user In_mutate) (fun _ =>
          pure (extend_population_with mdl (alg_model alg s) [] (alg_initial_population_size alg q) seed)))) (fun init =>
  next (cell_evolve fuel init q ps) (fun r =>
  next (pure (take_fittest (fst (fst r)))) (fun x => give (x, r)))).
End Run.
