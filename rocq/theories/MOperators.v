(** * MOperators: model of src/operators.rs (random ranges, common neighbours,
    common partitions).

    usize is modelled by [nat]; the only places where its bounds could matter
    are stated in the comments.  Gene equality is a boolean function [eqb] and
    the order used by PartialOrd a boolean function [ltb]. *)
From Coq Require Import List Bool Arith NArith.
From Verif Require Import Rnd.
Import ListNotations.

(** src/operators.rs:41-50 random_pair *)
Definition random_pair (n : nat) : M (nat * nat) :=
  _ <- massert (2 <=? n) ;;
  p1 <- gen_range 0 n ;;
  p2 <- gen_range 0 (n - 1) ;;
  Ret (p1, if p1 <=? p2 then p2 + 1 else p2).

(** src/operators.rs:102-112 bounded_random_range.  The subtraction [n - length]
    underflows when [length > n]: that panics with overflow checks (debug
    builds), which is what is modelled here; release builds wrap instead, see
    MWord.bounded_random_range_word.  A [Range] is the pair (start, end). *)
Definition bounded_random_range (n min_len max_len : nat) : M (nat * nat) :=
  length <- gen_range_incl min_len max_len ;;
  _ <- massert (length <=? n) ;;
  start <- gen_range_incl 0 (n - length) ;;
  Ret (start, start + length).

(** src/operators.rs:72-75 random_range *)
Definition random_range (n : nat) : M (nat * nat) :=
  _ <- massert (negb (n =? 0)) ;;
  bounded_random_range n 1 n.

Section Genes.
Context {G : Type} (eqb : G -> G -> bool) (ltb : G -> G -> bool).

(** Membership test on a HashSet or slice, through the gene equality
    ([HashSet::contains], [slice::contains]). *)
Definition mem (x : G) (l : list G) : bool := existsb (fun y => eqb y x) l.

(** src/operators.rs:153 closure [neighbor] *)
Definition neighbor (a b : G) : G * G := if ltb a b then (a, b) else (b, a).

(** [slice::windows(2)] *)
Fixpoint windows2 (l : list G) : list (G * G) :=
  match l with
  | a :: ((b :: _) as t) => (a, b) :: windows2 t
  | _ => []
  end.

(** src/operators.rs:155-163 (and 164-172): the pairs of one genome, closed by
    the pair (last, first); [unwrap] on an empty genome panics. *)
Definition neighbor_pairs (l : list G) : M (list (G * G)) :=
  lst <- unwrap (last (map Some l) None) ;;
  fst0 <- unwrap (hd_error l) ;;
  Ret (map (fun w => neighbor (fst w) (snd w)) (windows2 l) ++ [neighbor lst fst0]).

(** Equality of gene pairs (derived tuple equality). *)
Definition pair_eqb (p q : G * G) : bool := eqb (fst p) (fst q) && eqb (snd p) (snd q).

(** src/operators.rs:136-176 common_neighbors *)
Definition common_neighbors (g1 g2 : list G) : M (list (G * G)) :=
  if (length g1 <? 2) || (length g2 <=? 2) then Ret []
  else
    let '(s, l) := if length g1 <=? length g2 then (g1, g2) else (g2, g1) in
    neighbors1 <- neighbor_pairs s ;;
    neighbors2 <- neighbor_pairs l ;;
    Ret (filter (fun p => existsb (fun q => pair_eqb q p) neighbors2) neighbors1).

(** src/operators.rs:221-229 the closure of [find_map]: first common neighbour
    of [last] that is not visited yet. *)
Fixpoint next_node (cn : list (G * G)) (visited : list G) (lst : G) : option G :=
  match cn with
  | [] => None
  | (a, b) :: t =>
      if eqb a lst && negb (mem b visited) then Some b
      else if eqb b lst && negb (mem a visited) then Some a
      else next_node t visited lst
  end.

(** src/operators.rs:220-233 the [while let] loop growing one partition.  The
    fuel only makes the loop a structural recursion; exhaustion is [NoFuel] and
    is proved impossible for the fuel used below. *)
Fixpoint grow (fuel : nat) (cn : list (G * G)) (visited partition : list G) : M (list G * list G) :=
  match fuel with
  | O => Fail NoFuel
  | S f =>
      match last (map Some partition) None with
      | None => Ret (visited, partition)
      | Some lst =>
          match next_node cn visited lst with
          | None => Ret (visited, partition)
          | Some nx => grow f cn (nx :: visited) (partition ++ [nx])
          end
      end
  end.

(** src/operators.rs:211-236 the [for] loop over genome1 *)
Fixpoint partitions_loop (cn : list (G * G)) (nodes visited : list G) : M (list (list G)) :=
  match nodes with
  | [] => Ret []
  | node :: rest =>
      if mem node visited then partitions_loop cn rest visited
      else
        '(visited', partition) <- grow (S (2 * length cn)) cn (node :: visited) [node] ;;
        ps <- partitions_loop cn rest visited' ;;
        Ret (partition :: ps)
  end.

(** src/operators.rs:203-239 common_partitions *)
Definition common_partitions (g1 g2 : list G) : M (list (list G)) :=
  cn <- common_neighbors g1 g2 ;;
  partitions_loop cn g1 [].

End Genes.
