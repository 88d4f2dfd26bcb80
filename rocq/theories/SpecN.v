(** * SpecN: the vocabulary of the statements about displayed statistics (C112). *)
From Coq Require Import List Bool Arith ZArith String Ascii Decimal DecimalString.
From Flocq Require Import Core BinarySingleNaN.
From Verif Require Import F64 MStats.
Import ListNotations.
Open Scope string_scope.

(** [fields c text]: the pieces of [text] between the characters [c], as
    [text.split(c)] gives them in Rust *)
Fixpoint fields (c : ascii) (text : string) : list string :=
  match text with
  | EmptyString => [""]
  | String a rest =>
      if Ascii.eqb a c then "" :: fields c rest
      else match fields c rest with
           | [] => [String a ""]
           | field :: others => String a field :: others
           end
  end.

Fixpoint has_char (c : ascii) (text : string) : bool :=
  match text with EmptyString => false | String a rest => Ascii.eqb a c || has_char c rest end.

(** A way of writing f64 values that uses no semicolon: digits, point, sign, NaN, inf *)
Definition plain_show (show : option nat -> f64 -> string) : Prop := forall p x, has_char ";" (show p x) = false.

(** Without precision different values are written differently (std writes enough digits
    to read the value back). *)
Definition exact_show (show : option nat -> f64 -> string) : Prop := forall x y, show None x = show None y -> x = y.

(** ** A concrete [show]: the exact value rounded half to even to [p] decimal places *)
Definition div_half_even (a b : Z) : Z :=
  let q := (a / b)%Z in
  let r := (a - q * b)%Z in
  if (2 * r <? b)%Z then q else if (b <? 2 * r)%Z then (q + 1)%Z else if Z.even q then q else (q + 1)%Z.

Fixpoint pad_left (n : nat) (s : string) : string :=
  match n with O => s | S m => pad_left m (String "0" s) end.

Definition fixed_magnitude (p : nat) (m : positive) (e : Z) : string :=
  let scaled := match e with
    | Zneg k => div_half_even (Zpos m * 10 ^ Z.of_nat p) (2 ^ Zpos k)
    | _ => (Zpos m * 2 ^ e * 10 ^ Z.of_nat p)%Z
    end in
  let digits := NilEmpty.string_of_uint (N.to_uint (Z.to_N scaled)) in
  let digits := pad_left (S p - String.length digits) digits in
  let whole := (String.length digits - p)%nat in
  match p with
  | O => digits
  | _ => substring 0 whole digits ++ "." ++ substring whole p digits
  end.

Definition fixed_show (prec : option nat) (x : f64) : string :=
  let p := match prec with Some p => p | None => 3 end in
  match x with
  | B754_zero s => (if s then "-" else "") ++ fixed_magnitude p 1 (-2000)
  | B754_infinity s => (if s then "-" else "") ++ "inf"
  | B754_nan => "NaN"
  | B754_finite s m e _ => (if s then "-" else "") ++ fixed_magnitude p m e
  end.

(** Another one, which shows sign, significand and exponent and so loses nothing *)
Definition raw_show (prec : option nat) (x : f64) : string :=
  match x with
  | B754_zero s => if s then "-0" else "0"
  | B754_infinity s => if s then "-inf" else "inf"
  | B754_nan => "NaN"
  | B754_finite s m e _ => (if s then "-" else "+") ++ NilEmpty.string_of_uint (Pos.to_uint m) ++ "b" ++
      NilEmpty.string_of_int (Z.to_int e)
  end.
