(** * SpecW: the vocabulary of the statements about builds (C97). *)
From Coq Require Import NArith.
From Verif Require Import Rnd.

(** Two programs that make the same draws and, on each outcome, do the same *)
Fixpoint same_execution {A} (m m' : M A) : Prop :=
  match m, m' with
  | Ret a, Ret b => a = b
  | Fail e, Fail e' => e = e'
  | Draw n k, Draw n' k' => n = n' /\ forall i, (i < n)%N -> same_execution (k i) (k' i)
  | Pick n k, Pick n' k' => n = n' /\ forall i, (i < n)%N -> same_execution (k i) (k' i)
  | _, _ => False
  end.
