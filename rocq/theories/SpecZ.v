(** * SpecZ: the vocabulary of the statements about zeros and sums (C102). *)
From Coq Require Import List.
From Flocq Require Import BinarySingleNaN.
From Verif Require Import F64 MSelection.
Import ListNotations.

(** The same number (or both NaN); 0.0 and -0.0 are the same number. *)
Definition same_number (a b : f64) : Prop :=
  a = b \/ exists s s', a = B754_zero s /\ b = B754_zero s'.

(** A sum of the numbers of a list in their order, bracketed in any way, with any
    number of zeros of either sign put in anywhere.  std and rayon start sums and
    partial sums from 0.0 or -0.0, depending on their version. *)
Inductive sum_with_zeros : list f64 -> f64 -> Prop :=
| sz_zero s : sum_with_zeros [] (B754_zero s)
| sz_one x : sum_with_zeros [x] x
| sz_add l1 l2 a b : sum_with_zeros l1 a -> sum_with_zeros l2 b -> sum_with_zeros (l1 ++ l2) (fadd a b).

(** Two mechanisms that differ in the sign of a zero total at most *)
Definition same_wheel {I} (s s' : selector I) : Prop :=
  match s, s' with
  | RouletteWheel t, RouletteWheel t' => same_number t t'
  | Boltzmann a c t, Boltzmann a' c' t' => a = a' /\ c = c' /\ same_number t t'
  | _, _ => s = s'
  end.
