(** * SpecC: vocabulary of the statements about crossovers of arbitrary parents. *)
From Coq Require Import List.
From Verif Require Import Spec.
Import ListNotations.

(** [pmx_chain seg1 seg2 g r]: starting from gene [g] and replacing, as long as
    possible, a gene of [seg1] by the gene of [seg2] at the place where it first
    occurs in [seg1], one ends at [r]. *)
Inductive pmx_chain {A} (seg1 seg2 : list A) : A -> A -> Prop :=
| chain_stop g : ~ In g seg1 -> pmx_chain seg1 seg2 g g
| chain_step g i h r :
    nth_error seg1 i = Some g -> (forall j, j < i -> nth_error seg1 j <> Some g) ->
    nth_error seg2 i = Some h -> pmx_chain seg1 seg2 h r -> pmx_chain seg1 seg2 g r.

(** [repeated l m]: the list [l], [m] times in a row. *)
Definition repeated {A} (l : list A) (m : nat) : list A := concat (repeat l m).

(** [turned l r]: [r] is [l] read cyclically from some position. *)
Definition turned {A} (l r : list A) : Prop := exists k, k <= length l /\ r = rotated l k.
