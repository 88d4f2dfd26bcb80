(** * SpecX: the vocabulary of the statements about stagnation in runs (C110). *)
From Coq Require Import List Bool Arith NArith ZArith Reals.
From Flocq Require Import Core BinarySingleNaN.
From Verif Require Import Rnd F64 MStats MPopulation MSelection MModel MAlgorithms.
Import ListNotations.

(** The best of [q] is at least as fit as everyone in [p]. *)
Definition as_fit_as {I} (io : individual_ops I) (q p : population I) : Prop :=
  exists y, In y (individuals q) /\ forall x, In x (individuals p) -> fle (fitness io x) (fitness io y) = true.

(** Somebody in [q] is fitter than everyone in [p]. *)
Definition fitter_than {I} (io : individual_ops I) (q p : population I) : Prop :=
  exists y, In y (individuals q) /\ forall x, In x (individuals p) -> flt (fitness io x) (fitness io y) = true.

(** Among the populations [tr], number [j] is the first whose best is as fit as
    the best of number [k], and its best is no fitter than that. *)
Definition first_to_reach {I} (io : individual_ops I) (tr : list (population I)) (j k : nat) : Prop :=
  exists q p, nth_error tr j = Some q /\ nth_error tr k = Some p /\ as_fit_as io q p /\ as_fit_as io p q /\
    forall i o, i < j -> nth_error tr i = Some o -> fitter_than io p o.

(** A progress closure that does not panic, and answers false at the latest when
    the best fitness has not improved for [n] generations. *)
Definition impatient {I PS} (n : nat) (f : PS -> population I -> M (bool * PS)) : Prop :=
  (forall ps p, must (f ps p) (fun _ => True)) /\
  (forall ps p, n <= stagnation p -> must (f ps p) (fun o => fst o = false)).

(** The plain closure of that kind, in Rust [|p| p.stagnation() < n] *)
Definition patience {I} (n : nat) (ps : unit) (p : population I) : M (bool * unit) := Ret (stagnation p <? n, ps).

(** The valid individuals have no other fitness than those listed. *)
Definition fitness_among {I} (io : individual_ops I) (levels : list f64) : Prop :=
  forall x, is_valid io x = true -> In (fitness io x) levels.

(** Two individuals, no elite, tournaments of one *)
Definition no_elite : ga_params := mkGaParams 2 f0 (f_lit 8 10) (f_lit 1 10) (StTournament 1).

(** The numbers 1, 2 and 3 are valid. *)
Definition small_io : individual_ops nat :=
  {| fitness := f_of_nat; is_valid := fun x => (1 <=? x) && (x <=? 3); ieq := Nat.eqb |}.
