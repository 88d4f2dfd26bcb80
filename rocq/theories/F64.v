(** * F64: IEEE-754 binary64 as used by the Rust type f64.

    The definitions are Flocq's executable binary floats (one NaN; Rust leaves
    NaN payloads unspecified), round to nearest, ties to even. *)
From Coq Require Import ZArith NArith Reals Bool.
From Flocq Require Import Core BinarySingleNaN.
From Verif Require Import Rnd.

Definition prec : Z := 53%Z.
Definition emax : Z := 1024%Z.
#[global] Instance Hprec : Prec_gt_0 prec := eq_refl.
#[global] Instance Hprec_emax : Prec_lt_emax prec emax := eq_refl.

Definition f64 := binary_float prec emax.

(** Rust operators [+ - * /], [sqrt] *)
Definition fadd (x y : f64) : f64 := Bplus mode_NE x y.
Definition fsub (x y : f64) : f64 := Bminus mode_NE x y.
Definition fmul (x y : f64) : f64 := Bmult mode_NE x y.
Definition fdiv (x y : f64) : f64 := Bdiv mode_NE x y.
Definition fsqrt (x : f64) : f64 := Bsqrt mode_NE x.

(** Rust comparisons: all false when an operand is NaN *)
Definition flt (x y : f64) : bool := Bltb x y.
Definition fle (x y : f64) : bool := Bleb x y.
Definition fgt (x y : f64) : bool := Bltb y x.
Definition fge (x y : f64) : bool := Bleb y x.
Definition feq (x y : f64) : bool := Beqb x y.
(** [f64::partial_cmp] *)
Definition fcmp (x y : f64) : option comparison := Bcompare x y.
(** [f64::is_finite] *)
Definition f_is_finite (x : f64) : bool := is_finite x.
Definition f_is_nan (x : f64) : bool := is_nan x.

(** Integer literal / [usize as f64]: nearest, ties to even *)
Definition f_of_Z (z : Z) : f64 := binary_normalize prec emax Hprec Hprec_emax mode_NE z 0 false.
Definition f_of_nat (n : nat) : f64 := f_of_Z (Z.of_nat n).
Definition f0 : f64 := B754_zero false.
Definition f1 : f64 := f_of_Z 1.
Definition f2 : f64 := f_of_Z 2.
Definition f4 : f64 := f_of_Z 4.
Definition f_nan : f64 := B754_nan.
Definition f_inf : f64 := B754_infinity false.

(** A decimal literal p/q: correctly rounded, as division of exact integers is *)
Definition f_lit (p q : Z) : f64 := fdiv (f_of_Z p) (f_of_Z q).

(** The largest usize on a 64-bit target *)
Definition usize_max : Z := (2 ^ 64 - 1)%Z.

(** [f64 as usize]: truncation, saturating; NaN becomes 0 *)
Definition f_to_usize (x : f64) : nat :=
  match x with
  | B754_nan => 0
  | B754_zero _ => 0
  | B754_infinity true => 0
  | B754_infinity false => Z.to_nat usize_max
  | B754_finite _ _ _ _ => Z.to_nat (Z.min (Btrunc x) usize_max)
  end.

(** [f64::floor] *)
Definition f_floor (x : f64) : f64 := Bnearbyint mode_DN x.

(** [f64::clamp(lo, hi)] (lo <= hi): NaN stays NaN *)
Definition f_clamp (x lo hi : f64) : f64 :=
  let x := if flt x lo then lo else x in
  if fgt x hi then hi else x.

(** rand 0.8.5 [rng.gen::<f64>()]: i * 2^-53 for a uniform 53-bit i *)
Definition f_unit (i : N) : f64 :=
  binary_normalize prec emax Hprec Hprec_emax mode_NE (Z.of_N i) (-53) false.
Definition gen_f64 : M f64 := Draw (2 ^ 53)%N (fun i => Ret (f_unit i)).

(** The real number denoted by a float (0 for infinities and NaN) *)
Definition f2R (x : f64) : R := B2R x.
