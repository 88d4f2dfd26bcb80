(** * SpecD: vocabulary of the statements about the steps of tours. *)
From Coq Require Import List Arith.
From Verif Require Import Rnd MMutation Spec.
Import ListNotations.

(** A genome read as a tour has one step from each position to the next, and one
    from the last position back to the first.
    [keeps_but m g g']: all but at most [m] steps of the tour [g] are between
    neighbours of the tour [g'], whatever the direction. *)
Definition keeps_but {A} (m : nat) (g g' : list A) : Prop :=
  exists ks : list nat, length ks <= m /\
    forall k a b, ~ In k ks -> nth_error g k = Some a -> nth_error g ((k + 1) mod length g) = Some b ->
    cyc_adj g' a b.

(** How many steps of a tour one mutation can break (scrambling: any number). *)
Definition steps_broken (s : mutation_strategy) (n : nat) : nat :=
  match s with
  | Swap => 4
  | Inversion => 2
  | Insertion => 3
  | Duplicate => 2
  | Scramble => n
  end.

(** All steps that the tours [p1] and [p2] share, but at most one, are steps of the
    tour [r], whatever the direction. *)
Definition loses_one {A} (p1 p2 r : list A) : Prop :=
  exists x y, forall a b, cyc_adj p1 a b -> cyc_adj p2 a b -> (a, b) <> (x, y) -> (b, a) <> (x, y) -> cyc_adj r a b.
