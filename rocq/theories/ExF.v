(** * ExF: the concrete individuals and populations of the examples. *)
From Coq Require Import List Bool Arith NArith ZArith.
From Verif Require Import Rnd F64 MStats MPopulation.
Import ListNotations.

(** Numbers as individuals: the number is the fitness, 0 is invalid. *)
Definition ex_io : individual_ops nat :=
  {| fitness := f_of_nat; is_valid := fun x => negb (x =? 0); ieq := Nat.eqb |}.

(** Pairs (fitness, name): equal fitness does not mean equal. *)
Definition ex_io2 : individual_ops (nat * nat) :=
  {| fitness := fun x => f_of_nat (fst x); is_valid := fun _ => true;
     ieq := fun x y => (fst x =? fst y) && (snd x =? snd y) |}.

(** Floats as individuals: any fitness, NaN and infinities included. *)
Definition ex_iof : individual_ops f64 :=
  {| fitness := fun x => x; is_valid := f_is_finite; ieq := feq |}.

(** The population of a sorted list *)
Definition ex_popn {I} (io : individual_ops I) (l : list I) : population I :=
  mkPopulation l 0 0 (mkPopulated (from_iter f64ops (map (fitness io) l))).

(** A stand-in for [f64::exp] that overflows above 709 *)
Definition ex_exp (x : f64) : f64 := if flt (f_of_Z 709) x then f_inf else f1.

(** Pairs (fitness, name) compared by name alone *)
Definition ex_io3 : individual_ops (nat * nat) :=
  {| fitness := fun x => f_of_nat (fst x); is_valid := fun _ => true; ieq := fun x y => snd x =? snd y |}.
