(** * Rnd: executions with randomness, unspecified choices, panics and divergence.

    Every modelled Rust function that can draw random numbers, panic, loop for
    ever or depend on something the language leaves unspecified (the order
    produced by an unstable sort among ties, the iteration order of a HashSet,
    the bracketing of a parallel sum) is a value of type [M A].  A value of
    [M A] is a finite tree whose branches are the choices.

    - [Draw n k]: one uniform draw from [0..n) by the random number generator
      (crate rand 0.8.5, modelled as ideal: every value of the interval is
      equally likely and draws are independent).
    - [Pick n k]: an unspecified choice among [n] alternatives, resolved by an
      adversary; no probability is attached to it.
    - [Fail Panic]: the Rust code panics here.
    - [Fail NoFuel]: the fuel given to a loop ran out (used to model loops that
      may not terminate). *)
From Coq Require Import List Bool Arith NArith.
Import ListNotations.

Inductive err := Panic | NoFuel.

Inductive M (A : Type) : Type :=
| Ret (a : A)
| Fail (e : err)
| Draw (n : N) (k : N -> M A)
| Pick (n : N) (k : N -> M A).
Arguments Ret {A} _.
Arguments Fail {A} _.
Arguments Draw {A} _ _.
Arguments Pick {A} _ _.

Fixpoint bind {A B} (m : M A) (f : A -> M B) : M B :=
  match m with
  | Ret a => f a
  | Fail e => Fail e
  | Draw n k => Draw n (fun i => bind (k i) f)
  | Pick n k => Pick n (fun i => bind (k i) f)
  end.

Declare Scope rnd_scope.
Delimit Scope rnd_scope with rnd.
Open Scope rnd_scope.
Notation "x <- m ;; f" := (bind m (fun x => f))
  (at level 61, m at next level, right associativity) : rnd_scope.
Notation "' p <- m ;; f" := (bind m (fun x => match x with p => f end))
  (at level 61, p pattern, m at next level, right associativity) : rnd_scope.

(** ** What an execution can do *)

(** [may m v]: some resolution of the draws and choices makes [m] return [v]. *)
Fixpoint may {A} (m : M A) (v : A) : Prop :=
  match m with
  | Ret a => a = v
  | Fail _ => False
  | Draw n k | Pick n k => exists i, (i < n)%N /\ may (k i) v
  end.

(** [may_fail m e]: some resolution makes [m] fail with [e]. *)
Fixpoint may_fail {A} (m : M A) (e : err) : Prop :=
  match m with
  | Ret _ => False
  | Fail e' => e' = e
  | Draw n k | Pick n k => exists i, (i < n)%N /\ may_fail (k i) e
  end.

(** [must m P]: every resolution returns normally with a value satisfying [P]
    (total correctness: no panic, no divergence), and every draw and choice has
    at least one alternative, so the statement is never vacuous. *)
Fixpoint must {A} (m : M A) (P : A -> Prop) : Prop :=
  match m with
  | Ret a => P a
  | Fail _ => False
  | Draw n k | Pick n k => (0 < n)%N /\ forall i, (i < n)%N -> must (k i) P
  end.

(** [must_fail m e]: every resolution fails with [e] (and there is one). *)
Fixpoint must_fail {A} (m : M A) (e : err) : Prop :=
  match m with
  | Ret _ => False
  | Fail e' => e' = e
  | Draw n k | Pick n k => (0 < n)%N /\ forall i, (i < n)%N -> must_fail (k i) e
  end.

(** Executing a tree against a tape of answers (reduced modulo the bound); used
    only for concrete examples. *)
Fixpoint run {A} (m : M A) (tape : list N) : option A :=
  match m with
  | Ret a => Some a
  | Fail _ => None
  | Draw n k | Pick n k =>
      match tape with
      | [] => run (k 0%N) []
      | t :: ts => run (k (t mod n)%N) ts
      end
  end.

(** ** Library functions of rand, core and std used by the code *)

(** rand 0.8.5 [Rng::gen_range(lo..hi)] on usize: panics on an empty range. *)
Definition gen_range (lo hi : nat) : M nat :=
  if lo <? hi then Draw (N.of_nat (hi - lo)) (fun r => Ret (lo + N.to_nat r)) else Fail Panic.

(** rand 0.8.5 [Rng::gen_range(lo..=hi)] on usize: panics on an empty range. *)
Definition gen_range_incl (lo hi : nat) : M nat :=
  if lo <=? hi then Draw (N.of_nat (S hi - lo)) (fun r => Ret (lo + N.to_nat r)) else Fail Panic.

(** Slice indexing [l[i]]: panics out of bounds. *)
Definition idx {A} (l : list A) (i : nat) : M A :=
  match nth_error l i with Some a => Ret a | None => Fail Panic end.

(** [Option::unwrap]. *)
Definition unwrap {A} (o : option A) : M A :=
  match o with Some a => Ret a | None => Fail Panic end.

(** [assert!(b)]. *)
Definition massert (b : bool) : M unit := if b then Ret tt else Fail Panic.

(** Slicing [&l[a..b]]: panics if a > b or b > len. *)
Definition slice {A} (l : list A) (a b : nat) : M (list A) :=
  if (a <=? b) && (b <=? length l) then Ret (firstn (b - a) (skipn a l)) else Fail Panic.

(** [l[a..b].copy_from_slice(src)]: panics if the range is invalid or the
    lengths differ. *)
Definition copy_range {A} (l : list A) (a b : nat) (src : list A) : M (list A) :=
  if (a <=? b) && (b <=? length l) && (length src =? b - a)
  then Ret (firstn a l ++ src ++ skipn b l) else Fail Panic.

(** Pure list update (used by [set]). *)
Fixpoint upd {A} (l : list A) (i : nat) (v : A) : list A :=
  match l, i with
  | [], _ => []
  | _ :: t, O => v :: t
  | h :: t, S i' => h :: upd t i' v
  end.

(** Assignment [l[i] = v]: panics out of bounds. *)
Definition set {A} (l : list A) (i : nat) (v : A) : M (list A) :=
  if i <? length l then Ret (upd l i v) else Fail Panic.

(** [slice::swap(i, j)]: panics out of bounds. *)
Definition swap {A} (l : list A) (i j : nat) : M (list A) :=
  a <- idx l i ;; b <- idx l j ;; Ret (upd (upd l i b) j a).

(** [Vec::swap_remove(i)]: removes element [i], putting the last one in its
    place; panics out of bounds. *)
Definition swap_remove {A} (l : list A) (i : nat) : M (A * list A) :=
  x <- idx l i ;;
  lst <- unwrap (nth_error l (length l - 1)) ;;
  Ret (x, removelast (upd l i lst)).

(** rand 0.8.5 [SliceRandom::choose]: [None] on an empty slice. *)
Definition choose {A} (l : list A) : M (option A) :=
  match l with
  | [] => Ret None
  | _ => i <- gen_range 0 (length l) ;; a <- idx l i ;; Ret (Some a)
  end.

(** All permutations of a list: the orders in which a HashSet may be iterated,
    or which a sort with an inconsistent comparison may produce. *)
Fixpoint inserts {A} (x : A) (l : list A) : list (list A) :=
  match l with
  | [] => [[x]]
  | h :: t => (x :: l) :: map (cons h) (inserts x t)
  end.
Fixpoint perms {A} (l : list A) : list (list A) :=
  match l with
  | [] => [[]]
  | h :: t => flat_map (inserts h) (perms t)
  end.

(** An unspecified choice among the elements of a list. *)
Definition pick_from {A} (l : list A) : M A :=
  Pick (N.of_nat (length l)) (fun i => match nth_error l (N.to_nat i) with Some a => Ret a | None => Fail Panic end).

(** Sequential execution of the same action for each element of a list,
    collecting the results in order. *)
Fixpoint mapM {A B} (f : A -> M B) (l : list A) : M (list B) :=
  match l with
  | [] => Ret []
  | h :: t => b <- f h ;; bs <- mapM f t ;; Ret (b :: bs)
  end.

(** [n] independent executions of an action, collecting the results. *)
Fixpoint repeatM {B} (n : nat) (m : M B) : M (list B) :=
  match n with
  | O => Ret []
  | S n' => b <- m ;; bs <- repeatM n' m ;; Ret (b :: bs)
  end.
