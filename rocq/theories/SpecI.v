(** * SpecI: the vocabulary of the statements about independence (C107). *)
From Coq Require Import List Bool Reals.
Import ListNotations.

(** The members of the list have, one by one, the properties listed. *)
Fixpoint each {A} (Ps : list (A -> bool)) (l : list A) : bool :=
  match Ps, l with
  | [], [] => true
  | P :: Ps', x :: l' => P x && each Ps' l'
  | _, _ => false
  end.

Fixpoint product (l : list R) : R := match l with [] => 1%R | x :: t => (x * product t)%R end.
