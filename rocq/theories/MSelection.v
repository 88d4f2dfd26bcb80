(** * MSelection: model of src/operators/selection.rs. *)
From Coq Require Import List Bool Arith NArith ZArith.
From Verif Require Import Rnd F64 MStats MPopulation.
Import ListNotations.

(** src/operators/selection.rs:16-42 SelectionStrategy *)
Inductive selection_strategy :=
| StTournament (size : nat)
| StRouletteWheel
| StBoltzmann (temperature cooling_rate : f64)
| StRank
| StLinear (bias : f64)
| StElitist (ratio : f64).

Section Selection.
Context {I : Type} (io : individual_ops I).
(** [f64::exp] of the platform's libm: not specified further. *)
Context (fexp : f64 -> f64).

(** A [Box<dyn SelectionMechanism>]: one of the six mechanisms of the crate, or
    a user-defined one given by its state and its two methods. *)
Inductive selector : Type :=
| Tournament (size : nat)                                            (* selection.rs:140-142 *)
| RouletteWheel (total_fitness : f64)                                (* selection.rs:195-197 *)
| Boltzmann (temperature cooling_rate total_scaled_fitness : f64)    (* selection.rs:241-245 *)
| Rank                                                               (* selection.rs:328 *)
| Elitist (ratio : f64)                                              (* selection.rs:377-379 *)
| Linear (bias : f64)                                                (* selection.rs:434-436 *)
| Custom (S0 : Type) (s : S0) (prep : S0 -> population I -> M S0)
    (sel : S0 -> population I -> M (nat * I)).

(** src/operators/selection.rs:149-152 TournamentSelection::new *)
Definition tournament_new (size : nat) : M selector :=
  _ <- massert (negb (size =? 0)) ;; Ret (Tournament size).
(** src/operators/selection.rs:163-166 set_size *)
Definition set_size (t size : nat) : M nat := _ <- massert (negb (size =? 0)) ;; Ret size.
(** src/operators/selection.rs:201-203 and derive(Default) at 194 *)
Definition roulette_new : selector := RouletteWheel f0.
(** src/operators/selection.rs:252-259 BoltzmannSelection::new *)
Definition boltzmann_new (temperature cooling_rate : f64) : M selector :=
  _ <- massert (negb (feq cooling_rate f0)) ;; Ret (Boltzmann temperature cooling_rate f0).
(** src/operators/selection.rs:280-283 set_cooling_rate *)
Definition set_cooling_rate (c cooling_rate : f64) : M f64 :=
  _ <- massert (negb (feq cooling_rate f0)) ;; Ret cooling_rate.
(** [(0.0..1.0).contains(&x)] *)
Definition in_unit_halfopen (x : f64) : bool := fle f0 x && flt x f1.
(** src/operators/selection.rs:387-390 ElitistSelection::new *)
Definition elitist_new (ratio : f64) : M selector :=
  _ <- massert (in_unit_halfopen ratio) ;; Ret (Elitist ratio).
(** src/operators/selection.rs:402-405 set_ratio *)
Definition set_ratio (r ratio : f64) : M f64 := _ <- massert (in_unit_halfopen ratio) ;; Ret ratio.
(** src/operators/selection.rs:440-442 LinearSelection::new *)
Definition linear_new (bias : f64) : selector := Linear bias.

(** src/operators/selection.rs:46-57 create_selector *)
Definition create_selector (s : selection_strategy) : M selector :=
  match s with
  | StTournament size => tournament_new size
  | StRouletteWheel => Ret roulette_new
  | StRank => Ret Rank
  | StLinear bias => Ret (linear_new bias)
  | StElitist ratio => elitist_new ratio
  | StBoltzmann t c => boltzmann_new t c
  end.

(** A sequential [Iterator::sum::<f64>()] (accumulates from the left from 0.0) *)
Definition seq_sum (l : list f64) : f64 := fold_left fadd l f0.

(** rayon [ParallelIterator::sum::<f64>()]: the work is split at unspecified
    points; each piece is summed sequentially and the partial sums are added.
    [fuel] bounds the number of nested splits ([length l] is enough to reach
    every bracketing). *)
Fixpoint par_sum (fuel : nat) (l : list f64) : M f64 :=
  match fuel with
  | O => Ret (seq_sum l)
  | S f =>
      Pick (N.of_nat (S (length l))) (fun i =>
        if (i =? 0)%N then Ret (seq_sum l)
        else a <- par_sum f (firstn (N.to_nat i) l) ;;
             b <- par_sum f (skipn (N.to_nat i) l) ;;
             Ret (fadd a b))
  end.

(** src/operators/selection.rs:287-289 scaled_fitness *)
Definition scaled_fitness (temperature : f64) (i : I) : f64 := fexp (fdiv (fitness io i) temperature).

(** The [prepare] methods: src/operators/selection.rs:175, 212-214, 298-304,
    343-345, 414-416, 461-463 *)
Definition prepare (s : selector) (p : population I) : M selector :=
  match s with
  | Tournament size => Ret (Tournament size)
  | RouletteWheel _ =>
      t <- par_sum (length (individuals p)) (map (fitness io) (individuals p)) ;; Ret (RouletteWheel t)
  | Boltzmann temperature c _ =>
      let temperature' := fmul temperature c in
      t <- par_sum (length (individuals p)) (map (scaled_fitness temperature') (individuals p)) ;;
      Ret (Boltzmann temperature' c t)
  | Rank => Ret Rank
  | Elitist r => Ret (Elitist r)
  | Linear b => Ret (Linear b)
  | Custom S0 s0 prep sel => s1 <- prep s0 p ;; Ret (Custom S0 s1 prep sel)
  end.

(** src/operators/selection.rs:178-184 TournamentSelection::select: the largest
    of [size] independent draws; [unwrap] panics when there is none.
    [Uniform::new(0, len)] panics when len = 0 (as gen_range does), here even
    when no sample is taken. *)
Definition tournament_select (size : nat) (p : population I) : M (nat * I) :=
  let n := length (individuals p) in
  _ <- massert (negb (n =? 0)) ;;
  draws <- repeatM size (gen_range 0 n) ;;
  i <- unwrap (match draws with [] => None | d :: ds => Some (fold_left Nat.max ds d) end) ;;
  x <- idx (individuals p) i ;;
  Ret (i, x).

(** src/operators/selection.rs:219-226 and 309-316: the first individual whose
    cumulative weight reaches the target, else the last one.  [index] is the
    position of the head of [l]. *)
Fixpoint wheel (weight : I -> f64) (target cumulative : f64) (index : nat) (l : list I) : option (nat * I) :=
  match l with
  | [] => None
  | h :: t =>
      let cumulative' := fadd cumulative (weight h) in
      if fge cumulative' target then Some (index, h)
      else wheel weight target cumulative' (S index) t
  end.

(** [(population.len() - 1, population.last().unwrap())] *)
Definition last_entry (l : list I) : M (nat * I) :=
  _ <- massert (negb (length l =? 0)) ;;
  x <- unwrap (last (map Some l) None) ;;
  Ret (length l - 1, x).

(** src/operators/selection.rs:217-227 and 307-317 with the draw already made *)
Definition wheel_select (weight : I -> f64) (total u : f64) (l : list I) : M (nat * I) :=
  match wheel weight (fmul u total) f0 0 l with
  | Some r => Ret r
  | None => last_entry l
  end.

(** src/operators/selection.rs:353-360: RankSelection loop *)
Fixpoint rank_loop (target cumulative index : nat) (l : list I) : option (nat * I) :=
  match l with
  | [] => None
  | h :: t =>
      let cumulative' := cumulative + (index + 1) in
      if target <=? cumulative' then Some (index, h) else rank_loop target cumulative' (S index) t
  end.

(** src/operators/selection.rs:348-361 RankSelection::select.  [n * (n + 1)]
    is computed without overflow here; see MWord.rank_select_word for usize of
    a given width. *)
Definition rank_select (p : population I) : M (nat * I) :=
  let l := individuals p in
  let n := length l in
  let total_ranks := n * (n + 1) / 2 in
  target <- gen_range_incl 1 total_ranks ;;
  match rank_loop target 0 0 l with
  | Some r => Ret r
  | None => x <- unwrap (hd_error l) ;; Ret (0, x)
  end.

(** src/operators/selection.rs:420 selection_bound *)
Definition elitist_bound (n : nat) (ratio : f64) : nat :=
  f_to_usize (f_floor (fmul (f_of_nat n) ratio)).

(** src/operators/selection.rs:419-423 ElitistSelection::select *)
Definition elitist_select (ratio : f64) (p : population I) : M (nat * I) :=
  let n := length (individuals p) in
  i <- gen_range (elitist_bound n ratio) n ;;
  x <- idx (individuals p) i ;;
  Ret (i, x).

(** src/operators/selection.rs:468-473 the amount subtracted from the length *)
Definition linear_offset (n : nat) (bias u : f64) : nat :=
  f_to_usize
    (fdiv (fdiv (fmul (f_of_nat n)
                   (fsub bias (fsqrt (fsub (fmul bias bias) (fmul (fmul f4 (fsub bias f1)) u)))))
             f2)
       (fsub bias f1)).

(** src/operators/selection.rs:466-476 LinearSelection::select.  The subtraction
    [len - offset - 1] underflows when offset >= len: a panic with overflow
    checks; without them the wrapped index is out of bounds, also a panic. *)
Definition linear_select (bias : f64) (p : population I) : M (nat * I) :=
  let n := length (individuals p) in
  u <- gen_f64 ;;
  let off := linear_offset n bias u in
  _ <- massert (off <? n) ;;
  let i := n - off - 1 in
  x <- idx (individuals p) i ;;
  Ret (i, x).

(** The [select] methods *)
Definition select (s : selector) (p : population I) : M (nat * I) :=
  match s with
  | Tournament size => tournament_select size p
  | RouletteWheel total => u <- gen_f64 ;; wheel_select (fitness io) total u (individuals p)
  | Boltzmann t _ total => u <- gen_f64 ;; wheel_select (scaled_fitness t) total u (individuals p)
  | Rank => rank_select p
  | Elitist r => elitist_select r p
  | Linear b => linear_select b p
  | Custom S0 s0 _ sel => sel s0 p
  end.

(** src/operators/selection.rs:112-130 select_distinct (default method) *)
Fixpoint select_distinct (s : selector) (p : population I) (max_tries : nat) (excluded : I) : M (option (nat * I)) :=
  match max_tries with
  | O => Ret None
  | S t =>
      '(i, c) <- select s p ;;
      if negb (ieq io c excluded) then Ret (Some (i, c))
      else select_distinct s p t excluded
  end.

End Selection.
Arguments selector : clear implicits.
