(** * SpecF: the vocabulary of the theorem statements about fitness, selection,
    populations and runs. *)
From Coq Require Import List Bool Arith NArith ZArith Reals Permutation.
From Flocq Require Import Core BinarySingleNaN.
From Verif Require Import Rnd F64 MStats MPopulation MSelection.
Import ListNotations.

(** A length that fits in usize. *)
Definition fits_usize (n : nat) : Prop := (Z.of_nat n <= usize_max)%Z.

(** ** Statistics *)

(** The sum of a list of real numbers. *)
Fixpoint sumR (l : list R) : R := match l with [] => 0%R | x :: t => (x + sumR t)%R end.

(** ** Selection *)

(** The running f64 sum of the weights of the first [k] elements. *)
Definition running_sum {A} (weight : A -> f64) (l : list A) (k : nat) : f64 :=
  fold_left fadd (map weight (firstn k l)) f0.

(** [i] is the first position whose running sum reaches the target, or the last
    position when none does. *)
Definition wheel_picks {A} (weight : A -> f64) (l : list A) (target : f64) (i : nat) : Prop :=
  i < length l /\
  (forall j, j < i -> fge (running_sum weight l (S j)) target = false) /\
  (fge (running_sum weight l (S i)) target = true \/ S i = length l).

(** The factor [bias - sqrt (bias^2 - 4 (bias - 1) u)] of linear ranking, as
    computed in f64. *)
Definition linear_radicand (bias u : f64) : f64 := fsub (fmul bias bias) (fmul (fmul f4 (fsub bias f1)) u).
Definition linear_factor (bias u : f64) : f64 := fsub bias (fsqrt (linear_radicand bias u)).

(** The largest draw from [0, 1). *)
Definition largest_draw : f64 := f_unit (2 ^ 53 - 1).

(** A bias in (1, 4] whose factor for the largest draw exists and leaves two
    units of rounding error below [2 (bias - 1)]. *)
Definition linear_margin (bias : f64) : Prop :=
  is_finite bias = true /\ (1 < B2R bias <= 4)%R /\ (0 <= B2R (linear_radicand bias largest_draw))%R /\
  (B2R (linear_factor bias largest_draw) <= 2 * B2R (fsub bias f1) * (1 - bpow radix2 (-52)))%R.

(** [v] is a floating-point sum of [l] for some way of splitting it into pieces
    (rayon leaves the splitting unspecified). *)
Inductive split_sum : list f64 -> f64 -> Prop :=
| ss_seq l : split_sum l (fold_left fadd l f0)
| ss_split l1 l2 a b : split_sum l1 a -> split_sum l2 b -> split_sum (l1 ++ l2) (fadd a b).

(** A sequence of [prepare] calls. *)
Fixpoint prepares {A} (io : individual_ops A) (fexp : f64 -> f64) (s : selector A) (ps : list (population A)) : M (selector A) :=
  match ps with
  | [] => Ret s
  | p :: t => s' <- prepare io fexp s p ;; prepares io fexp s' t
  end.

(** [k] multiplications by [c]. *)
Fixpoint cooled (k : nat) (t c : f64) : f64 := match k with O => t | S k' => fmul (cooled k' t c) c end.

(** ** Populations *)

(** No fitness is NaN. *)
Definition no_nan {A} (io : individual_ops A) (l : list A) : Prop :=
  forall x, In x l -> f_is_nan (fitness io x) = false.

(** Ascending fitness. *)
Definition sorted_by_fitness {A} (io : individual_ops A) (l : list A) : Prop :=
  forall i j x y, i < j -> nth_error l i = Some x -> nth_error l j = Some y -> fle (fitness io x) (fitness io y) = true.

(** The statistics of a list of individuals. *)
Definition stats_of {A} (io : individual_ops A) (l : list A) : populated f64 :=
  mkPopulated (from_iter f64ops (map (fitness io) l)).

(** A population as the API promises it. *)
Definition well_formed {A} (io : individual_ops A) (p : population A) : Prop :=
  individuals p <> [] /\ no_nan io (individuals p) /\ sorted_by_fitness io (individuals p) /\
  pop_stats p = stats_of io (individuals p).

(** [r] keeps, up to [ieq], exactly the individuals of [l]. *)
Definition same_individuals {A} (io : individual_ops A) (l r : list A) : Prop :=
  (forall x, In x r -> In x l) /\
  (forall x, In x l -> In x r \/ exists y, In y r /\ ieq io x y = true).

(** No individual equals its predecessor. *)
Definition no_adjacent_equal {A} (io : individual_ops A) (l : list A) : Prop :=
  forall i x y, nth_error l i = Some x -> nth_error l (S i) = Some y -> ieq io y x = false.

(** A sequence of [replace] calls, keeping every intermediate population. *)
Fixpoint replaces {A} (io : individual_ops A) (p : population A) (vs : list (list A)) : M (list (population A)) :=
  match vs with
  | [] => Ret [p]
  | v :: t => '(p', _) <- population_replace io p v ;; tr <- replaces io p' t ;; Ret (p :: tr)
  end.

(** Step [k] of a trace improved on step [k - 1]. *)
Definition improved {A} (tr : list (population A)) (k : nat) : Prop :=
  exists p q, nth_error tr (k - 1) = Some p /\ nth_error tr k = Some q /\
    fgt (ps_max (pop_stats q)) (ps_max (pop_stats p)) = true.

(** [p] is what [new l], or [replace] with [l], produced. *)
Definition built_from {A} (io : individual_ops A) (l : list A) (p : population A) : Prop :=
  may (population_new io l) p \/ exists q, may (population_replace io q l) (p, individuals q).

(** The selection mechanism [s] never panics on [p] and answers with members of [p]. *)
Definition selects_members {A} (io : individual_ops A) (fexp : f64 -> f64) (s : selector A) (p : population A) : Prop :=
  must (select io fexp s p) (fun r => In (snd r) (individuals p)).
