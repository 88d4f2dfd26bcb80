(** * MPopulation: model of src/individual.rs, src/population.rs and of
    [compare_fitness] (src/operators.rs:14-20). *)
From Coq Require Import List Bool Arith NArith.
From Verif Require Import Rnd F64 MStats.
Import ListNotations.

(** src/individual.rs:10-33 trait Individual: a type with a fitness, a validity
    test and an equality ([PartialEq], not assumed reflexive). *)
Record individual_ops (I : Type) := {
  fitness : I -> f64;
  is_valid : I -> bool;
  ieq : I -> I -> bool
}.
Arguments fitness {I} _ _.
Arguments is_valid {I} _ _.
Arguments ieq {I} _ _ _.

(** src/individual.rs:29-32 default implementation of is_valid *)
Definition default_is_valid {I} (fit : I -> f64) (i : I) : bool := f_is_finite (fit i).

(** [Option::unwrap_or(Ordering::Equal)] *)
Definition or_equal (o : option comparison) : comparison := match o with Some c => c | None => Eq end.

Section Population.
Context {I : Type} (io : individual_ops I).

(** src/operators.rs:14-20 compare_fitness *)
Definition compare_fitness (a b : I) : comparison := or_equal (fcmp (fitness io a) (fitness io b)).

(** src/individual.rs:72-132 IndividualWrapper: a newtype with an ordering by
    fitness.  [From] and [take] (also [Deref]) *)
Record wrapper := mkWrapper { w_i : I }.
Definition wrapper_from (i : I) : wrapper := mkWrapper i.
Definition wrapper_take (w : wrapper) : I := w_i w.
(** src/individual.rs:104-109 PartialEq *)
Definition wrapper_eq (a b : wrapper) : bool := feq (fitness io (w_i a)) (fitness io (w_i b)).
(** src/individual.rs:113-118 PartialOrd *)
Definition wrapper_partial_cmp (a b : wrapper) : option comparison :=
  fcmp (fitness io (w_i a)) (fitness io (w_i b)).
(** src/individual.rs:120-125 Ord *)
Definition wrapper_cmp (a b : wrapper) : comparison := or_equal (wrapper_partial_cmp a b).

(** src/population.rs:10-15 struct Population *)
Record population := mkPopulation {
  individuals : list I;
  generation : nat;
  stagnation : nat;
  pop_stats : populated f64
}.

Definition not_gt (c : comparison) : bool := match c with Gt => false | _ => true end.

Fixpoint sortedb (l : list I) : bool :=
  match l with
  | a :: ((b :: _) as t) => not_gt (compare_fitness a b) && sortedb t
  | _ => true
  end.

(** rayon [par_sort_unstable_by(compare_fitness)]: any permutation of the vector
    that is sorted by the comparison (ties in any order).  When some fitness is
    NaN the comparison is not a total order and the resulting order is
    unspecified: any permutation. *)
Definition sort_results (l : list I) : list (list I) :=
  if forallb (fun i => negb (f_is_nan (fitness io i))) l
  then filter sortedb (perms l) else perms l.
Definition par_sort_unstable (l : list I) : M (list I) := pick_from (sort_results l).

(** [Vec::dedup]: drops an element equal to the last one kept *)
Fixpoint dedup_from (last_kept : I) (l : list I) : list I :=
  match l with
  | [] => []
  | h :: t => if ieq io h last_kept then dedup_from last_kept t else h :: dedup_from h t
  end.
Definition dedup (l : list I) : list I :=
  match l with [] => [] | h :: t => h :: dedup_from h t end.

(** src/population.rs:129-139 sort_dedup_and_collect_stats *)
Definition sort_dedup_and_collect_stats (l : list I) : M (list I * populated f64) :=
  sorted <- par_sort_unstable l ;;
  let ded := dedup sorted in
  st <- unwrap (populated_try_from (from_iter f64ops (map (fitness io) ded))) ;;
  Ret (ded, st).

(** src/population.rs:30-38 Population::new *)
Definition population_new (l : list I) : M population :=
  '(l', st) <- sort_dedup_and_collect_stats l ;;
  Ret (mkPopulation l' 0 0 st).

(** src/population.rs:58-68 Population::replace; returns the new population and
    the final content of the [new_population] argument. *)
Definition population_replace (p : population) (new_population : list I) : M (population * list I) :=
  let previous_best := ps_max (pop_stats p) in
  '(l', st) <- sort_dedup_and_collect_stats new_population ;;
  Ret (mkPopulation l' (generation p + 1)
         (if fgt (ps_max st) previous_best then 0 else stagnation p + 1) st,
       individuals p).

(** What a caller that catches the panic of [replace] is left with
    (src/population.rs:59-61): the vectors are already swapped, the rest of the
    population is not updated.  [inr] is the state left behind by the panic. *)
Definition population_replace_catch (p : population) (new_population : list I)
    : M ((population * list I) + (population * list I)) :=
  let swapped := mkPopulation new_population (generation p) (stagnation p) (pop_stats p) in
  sorted <- par_sort_unstable new_population ;;
  let ded := dedup sorted in
  match populated_try_from (from_iter f64ops (map (fitness io) ded)) with
  | Some st =>
      Ret (inl (mkPopulation ded (generation p + 1)
                  (if fgt (ps_max st) (ps_max (pop_stats p)) then 0 else stagnation p + 1) st,
                individuals p))
  | None => Ret (inr (mkPopulation ded (generation swapped) (stagnation swapped) (pop_stats swapped),
                      individuals p))
  end.

(** src/population.rs:91-93 fittest *)
Definition fittest (p : population) : M I := idx (individuals p) (ps_arg_max (pop_stats p)).

(** src/population.rs:97-99 take_fittest *)
Definition take_fittest (p : population) : M I :=
  '(x, _) <- swap_remove (individuals p) (ps_arg_max (pop_stats p)) ;; Ret x.

(** src/population.rs:111-121 TryFrom<Vec>; [inr] is [Err] *)
Definition population_try_from (l : list I) : M (population + list I) :=
  match l with
  | [] => Ret (inr l)
  | _ => p <- population_new l ;; Ret (inl p)
  end.

(** src/population.rs:123-127 From<Population> for Vec *)
Definition population_into (p : population) : list I := individuals p.

End Population.
Arguments population : clear implicits.
Arguments wrapper : clear implicits.
