(** * Properties_Build: overflow checks and the width of usize (C97). *)
From Coq Require Import List Arith NArith.
From Verif Require Import Rnd F64 MOperators MStats MPopulation MSelection MWord SpecW ExF PWord.
Import ListNotations.

(** C97: with n (n + 1) below 2^w, rank selection on usize of w bits is the
    selection of C32, in every build; ... *)
Theorem C97_rank_small_population :
  forall (I : Type) (io : individual_ops I) (fexp : f64 -> f64) (o : overflow) (w : nat) (p : population I),
  (N.of_nat (length (individuals p)) * (N.of_nat (length (individuals p)) + 1) < 2 ^ N.of_nat w)%N ->
  same_execution (rank_select_word o w p) (select io fexp Rank p).
Proof. exact @rank_small. Qed.
Print Assumptions C97_rank_small_population.

(** ... from there on it panics with overflow checks, ... *)
Theorem C97_rank_large_population_checked :
  forall (I : Type) (w : nat) (p : population I),
  (2 ^ N.of_nat w <= N.of_nat (length (individuals p)) * (N.of_nat (length (individuals p)) + 1))%N ->
  must_fail (rank_select_word Checked w p) Panic.
Proof. exact @rank_checked. Qed.
Print Assumptions C97_rank_large_population_checked.

(** ... and without them it never selects the fittest individual: only those whose
    cumulative rank is reached by the wrapped total. *)
Theorem C97_rank_large_population_wrapping :
  forall (I : Type) (w : nat) (p : population I),
  let n := length (individuals p) in
  let total := N.to_nat ((N.of_nat n * (N.of_nat n + 1)) mod 2 ^ N.of_nat w / 2) in
  2 <= w -> (2 * N.of_nat n <= 2 ^ N.of_nat w)%N -> (2 ^ N.of_nat w <= N.of_nat n * (N.of_nat n + 1))%N ->
  (total = 0 -> must_fail (rank_select_word Wrapping w p) Panic) /\
  (total <> 0 -> must (rank_select_word Wrapping w p) (fun _ => True)) /\
  (forall i x, may (rank_select_word Wrapping w p) (i, x) <->
     nth_error (individuals p) i = Some x /\ i * (i + 1) / 2 < total) /\
  (forall i x, may (rank_select_word Wrapping w p) (i, x) -> i < n - 1).
Proof. exact @rank_wrapping. Qed.
Print Assumptions C97_rank_large_population_wrapping.

(** For 2^h individuals on 2h bits (65536 on 32 bits) these are about the 2^(h/2)
    least fit ones. *)
Theorem C97_rank_half_word :
  forall (I : Type) (h : nat) (p : population I), 1 <= h -> N.of_nat (length (individuals p)) = (2 ^ N.of_nat h)%N ->
  must (rank_select_word Wrapping (2 * h) p) (fun _ => True) /\
  forall i x, may (rank_select_word Wrapping (2 * h) p) (i, x) <->
    nth_error (individuals p) i = Some x /\ i * (i + 1) < length (individuals p).
Proof. exact @rank_half_word. Qed.
Print Assumptions C97_rank_half_word.
Example C97_example :
  N.of_nat (length (individuals c97_population)) = (2 ^ N.of_nat 8)%N /\
  (forall i x, may (rank_select_word Wrapping 16 c97_population) (i, x) -> i <= 15) /\
  must_fail (rank_select_word Checked 16 c97_population) Panic /\
  run (select ex_io ex_exp Rank c97_population) [32895%N] = Some (255, 255).
Proof. exact c97_example. Qed.

(** Linear selection behaves the same in every build: a wrapped index is out of
    bounds, so that too large an offset panics anyway. *)
Theorem C97_linear_same_in_every_build :
  forall (I : Type) (io : individual_ops I) (fexp : f64 -> f64) (o : overflow) (b : f64) (p : population I),
  (N.of_nat (length (individuals p)) < 2 ^ 64)%N ->
  same_execution (linear_select_word o 64 b p) (select io fexp (Linear b) p).
Proof. exact @linear_same. Qed.
Print Assumptions C97_linear_same_in_every_build.
Example C97_linear_example : (N.of_nat (length (individuals c97_population)) < 2 ^ 64)%N.
Proof. vm_compute; reflexivity. Qed.

(** bounded_random_range with overflow checks is the function of C03; ... *)
Theorem C97_range_checked :
  forall (w n min_len max_len : nat), (N.of_nat n < 2 ^ N.of_nat w)%N ->
  same_execution (r <- bounded_random_range_word Checked w n min_len max_len ;; Ret (N.to_nat (fst r), N.to_nat (snd r)))
    (bounded_random_range n min_len max_len).
Proof. exact range_checked. Qed.
Print Assumptions C97_range_checked.

(** ... without them it never panics: when max_len exceeds n it also returns
    ranges that end beyond n or before their start. *)
Theorem C97_range_wrapping :
  forall (w n min_len max_len : nat),
  (N.of_nat n < 2 ^ N.of_nat w)%N -> (N.of_nat max_len < 2 ^ N.of_nat w)%N -> min_len <= max_len ->
  must (bounded_random_range_word Wrapping w n min_len max_len) (fun r =>
    (exists len, min_len <= len <= max_len /\ len <= n /\ (fst r + N.of_nat len = snd r)%N /\ (snd r <= N.of_nat n)%N) \/
    (n < max_len /\ ((snd r < fst r)%N \/ (N.of_nat n < snd r)%N))) /\
  (forall len, min_len <= len <= max_len ->
    may (bounded_random_range_word Wrapping w n min_len max_len) (0%N, N.of_nat len)).
Proof. exact range_wrapping. Qed.
Print Assumptions C97_range_wrapping.
Example C97_range_example : (N.of_nat 10 < 2 ^ N.of_nat 64)%N /\ (N.of_nat 12 < 2 ^ N.of_nat 64)%N /\ 3 <= 12 /\
  run (bounded_random_range_word Wrapping 64 10 3 12) [9; 0]%N = Some (0, 12)%N.
Proof. repeat split; vm_compute; try reflexivity; repeat constructor. Qed.
