(** * SpecSame: the vocabulary of the statements about equal, negated and reordered samples (C126). *)
From Coq Require Import List Bool.
From Flocq Require Import Core BinarySingleNaN.
From Verif Require Import F64.
Import ListNotations.

(** Rust's unary minus on f64 *)
Definition fneg (x : f64) : f64 := Bopp x.

(** Equal in Rust ([==]; zeros of either sign are equal), or both NaN *)
Definition same_number (x y : f64) : Prop := feq x y = true \/ (is_nan x = true /\ is_nan y = true).

Definition same_shown (x y : option f64) : Prop :=
  match x, y with Some a, Some b => same_number a b | None, None => True | _, _ => False end.
