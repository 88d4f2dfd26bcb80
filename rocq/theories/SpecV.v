(** * SpecV: the vocabulary of the statements about borrows (C104). *)
From Coq Require Import List Bool Arith NArith.
From Verif Require Import Rnd F64 MStats MPopulation MSelection MModel MAlgorithms MUnwind MBorrow SpecW.
Import ListNotations.

(** Code that drops its guards: it leaves as many borrows as it found.  (User code
    cannot keep one: the field is private and no method returns a guard.) *)
Definition balanced {S0 A} (m : code S0 A) : Prop :=
  forall c c1 r, may (m c) (c1, r) -> flag c1 = flag c.

(** What [code] does when no borrow is active, as the sequential model has it: a
    result with the new state, or a panic *)
Definition outcome {S0 A B} (make : A -> S0 -> B) (o : cell S0 * (A + err)) : M B :=
  match o with
  | (c, inl a) => Ret (make a (value c))
  | (_, inr e) => Fail e
  end.
Definition observe {S0 A B} (make : A -> S0 -> B) (m : code S0 A) (s : S0) : M B :=
  o <- m (mkCell Free s) ;; outcome make o.

(** The closure of the sequential model that [progress] is *)
Definition as_closure {I S0 PS} (progress : PS -> population I -> code S0 (bool * PS)) (ps : PS) (s : S0) (p : population I) : M (bool * PS * S0) :=
  observe (fun a s1 => (a, s1)) (progress ps p) s.

(** A run's result *)
Definition as_run {I S0 PS} (a : population I * PS * list (population I)) (s : S0) : run_result I S0 PS :=
  let '(p, ps, trace) := a in mkRun p s ps trace.
Definition as_run_with {I S0 PS} (a : I * (population I * PS * list (population I))) (s : S0) : I * run_result I S0 PS :=
  (fst a, as_run (snd a) s).

(** A method with the state it leaves when it panics, and the model's method *)
Definition completes {S0} (m : M (S0 * option err)) (m' : M S0) : Prop :=
  same_execution ('(s, o) <- m ;; match o with None => Ret s | Some e => Fail e end) m'.

(** User code that leaves the [Evolution] value alone *)
Definition no_reentry {S0} (pl : place) : code S0 unit := give tt.

(** User code that, within the calls at [pl0], does [m] with the [Evolution] value *)
Definition place_eqb (a b : place) : bool :=
  match a, b with
  | In_new_random, In_new_random | In_mutate, In_mutate | In_configure, In_configure | In_evaluate, In_evaluate
  | In_prepare, In_prepare | In_elites, In_elites | In_breed, In_breed | In_replace, In_replace => true
  | _, _ => false
  end.
Definition at_place {S0} (pl0 : place) (m : code S0 unit) (user : place -> code S0 unit) (pl : place) : code S0 unit :=
  if place_eqb pl pl0 then m else user pl.

(** ... and ignores its result *)
Definition ignoring {S0 A} (m : code S0 A) : code S0 unit := next m (fun _ => give tt).

(** The state a method leaves when it panics is the old one. *)
Definition or_unchanged {S0} (m : M S0) (s : S0) : M (S0 * option err) :=
  r <- catch m ;; Ret (match r with inl s1 => (s1, None) | inr e => (s, Some e) end).
