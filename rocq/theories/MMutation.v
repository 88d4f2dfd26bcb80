(** * MMutation: model of src/operators/mutation.rs. *)
From Coq Require Import List Bool Arith NArith.
From Verif Require Import Rnd MOperators.
Import ListNotations.

Section Mutation.
Context {G : Type}.

(** src/operators/mutation.rs:91-99 swap_mutation *)
Definition swap_mutation (genome : list G) : M (list G) :=
  let n := length genome in
  if n <? 2 then Ret genome
  else '(p1, p2) <- random_pair n ;; swap genome p1 p2.

(** rand 0.8.5 [SliceRandom::shuffle]: for i in (1..len).rev() swap i with
    [gen_index(i + 1)].  [shuffle_loop i l] handles positions i, i-1, ..., 1. *)
Fixpoint shuffle_loop (i : nat) (l : list G) : M (list G) :=
  match i with
  | O => Ret l
  | S i' => j <- gen_range 0 (i + 1) ;; l' <- swap l i j ;; shuffle_loop i' l'
  end.
Definition shuffle (l : list G) : M (list G) := shuffle_loop (length l - 1) l.

(** src/operators/mutation.rs:127-135 scramble_mutation *)
Definition scramble_mutation (genome : list G) : M (list G) :=
  let n := length genome in
  if n <? 2 then Ret genome
  else
    '(a, b) <- bounded_random_range n 2 n ;;
    seg <- slice genome a b ;;
    seg' <- shuffle seg ;;
    copy_range genome a b seg'.

(** src/operators/mutation.rs:164-172 inversion_mutation *)
Definition inversion_mutation (genome : list G) : M (list G) :=
  let n := length genome in
  if n <? 2 then Ret genome
  else
    '(a, b) <- bounded_random_range n 2 n ;;
    seg <- slice genome a b ;;
    copy_range genome a b (rev seg).

(** [slice::rotate_right(k)]: panics when k > len; the last [k] elements come
    first. *)
Definition rotate_right (l : list G) (k : nat) : M (list G) :=
  if k <=? length l then Ret (skipn (length l - k) l ++ firstn (length l - k) l) else Fail Panic.

(** src/operators/mutation.rs:201-212 insertion_mutation ([p1..=p2] is
    [p1..p2+1]) *)
Definition insertion_mutation (genome : list G) : M (list G) :=
  let n := length genome in
  if n <? 2 then Ret genome
  else
    '(q1, q2) <- random_pair n ;;
    let '(p1, p2) := if q2 <? q1 then (q2, q1) else (q1, q2) in
    seg <- slice genome p1 (p2 + 1) ;;
    seg' <- rotate_right seg 1 ;;
    copy_range genome p1 (p2 + 1) seg'.

(** src/operators/mutation.rs:241-249 duplicate_mutation *)
Definition duplicate_mutation (genome : list G) : M (list G) :=
  let n := length genome in
  if n <? 2 then Ret genome
  else
    '(p1, p2) <- random_pair n ;;
    g <- idx genome p1 ;;
    set genome p2 g.

(** src/operators/mutation.rs:14-41 MutationStrategy *)
Inductive mutation_strategy := Swap | Scramble | Inversion | Insertion | Duplicate.

(** src/operators/mutation.rs:54-62 MutationStrategy::mutate *)
Definition mutate (s : mutation_strategy) (genome : list G) : M (list G) :=
  match s with
  | Swap => swap_mutation genome
  | Scramble => scramble_mutation genome
  | Inversion => inversion_mutation genome
  | Insertion => insertion_mutation genome
  | Duplicate => duplicate_mutation genome
  end.

End Mutation.
