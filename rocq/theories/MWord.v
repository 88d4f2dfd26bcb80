(** * MWord: the places where the width of usize and the overflow checks of the
    build show.  The other model files use natural numbers and the panics of a
    build with overflow checks (the dev profile); Cargo.toml sets no profile, so a
    release build has none and wraps around. *)
From Coq Require Import List Arith NArith ZArith.
From Verif Require Import Rnd F64 MStats MPopulation MSelection.
Import ListNotations.

(** The overflow checks of a build *)
Inductive overflow := Checked | Wrapping.

(** The value of an unsigned addition or multiplication whose exact result is [v],
    for usize of [w] bits *)
Definition usize_up (o : overflow) (w : nat) (v : nat) : M nat :=
  if (N.of_nat v <? 2 ^ N.of_nat w)%N then Ret v
  else match o with Checked => Fail Panic | Wrapping => Ret (N.to_nat (N.of_nat v mod 2 ^ N.of_nat w)) end.

(** The value of [a - b] *)
Definition usize_sub (o : overflow) (w : nat) (a b : nat) : M N :=
  if b <=? a then Ret (N.of_nat (a - b))
  else match o with Checked => Fail Panic | Wrapping => Ret (2 ^ N.of_nat w - N.of_nat (b - a))%N end.

(** src/operators.rs:102-112 bounded_random_range.  With rand 0.8.5,
    [gen_range(0..=hi)] draws below [hi + 1]; for [hi] the largest usize that is
    the whole type.  Sizes that a wrapped subtraction produces are kept binary. *)
Definition bounded_random_range_word (o : overflow) (w : nat) (n min_len max_len : nat) : M (N * N) :=
  length <- gen_range_incl min_len max_len ;;
  hi <- usize_sub o w n length ;;
  start <- Draw (hi + 1) (fun r => Ret r) ;;
  let sum := (start + N.of_nat length)%N in
  stop <- (if (sum <? 2 ^ N.of_nat w)%N then Ret sum
           else match o with Checked => Fail Panic | Wrapping => Ret (sum mod 2 ^ N.of_nat w)%N end) ;;
  Ret (start, stop).

(** src/lib.rs:63-65 interpolate_usize on 64 bits, with [max - min] in the two kinds
    of builds *)
Definition interpolate_usize_word (o : overflow) (mn mx : nat) (ratio : f64) : M nat :=
  d <- usize_sub o 64 mx mn ;;
  Ret (f_to_usize (fadd (f_of_nat mn) (fmul (f_of_Z (Z.of_N d)) ratio))).

Section Word.
Context {I : Type} (o : overflow) (w : nat).

(** src/operators/selection.rs:353-360: RankSelection loop *)
Fixpoint rank_loop_word (target cumulative index : nat) (l : list I) : M (option (nat * I)) :=
  match l with
  | [] => Ret None
  | h :: t =>
      rank <- usize_up o w (index + 1) ;;
      cumulative' <- usize_up o w (cumulative + rank) ;;
      if target <=? cumulative' then Ret (Some (index, h)) else rank_loop_word target cumulative' (S index) t
  end.

(** src/operators/selection.rs:348-361 RankSelection::select *)
Definition rank_select_word (p : population I) : M (nat * I) :=
  let l := individuals p in
  let n := length l in
  n1 <- usize_up o w (n + 1) ;;
  product <- usize_up o w (n * n1) ;;
  let total_ranks := product / 2 in
  target <- gen_range_incl 1 total_ranks ;;
  found <- rank_loop_word target 0 0 l ;;
  match found with
  | Some r => Ret r
  | None => x <- unwrap (hd_error l) ;; Ret (0, x)
  end.

(** src/operators/selection.rs:466-476 LinearSelection::select: both subtractions
    may wrap; the index is kept binary. *)
Definition linear_select_word (bias : f64) (p : population I) : M (nat * I) :=
  let n := length (individuals p) in
  u <- gen_f64 ;;
  d <- usize_sub o w n (linear_offset n bias u) ;;
  i <- (if (1 <=? d)%N then Ret (d - 1)%N
        else match o with Checked => Fail Panic | Wrapping => Ret (2 ^ N.of_nat w - 1)%N end) ;;
  if (i <? N.of_nat n)%N then x <- idx (individuals p) (N.to_nat i) ;; Ret (N.to_nat i, x) else Fail Panic.

End Word.
