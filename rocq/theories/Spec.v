(** * Spec: the vocabulary of the theorem statements about genomes. *)
From Coq Require Import List Bool Arith Permutation.
From Verif Require Import Rnd.
Import ListNotations.

(** [b] comes right after [a] when [l] is read cyclically. *)
Definition cyc_next {A} (l : list A) (a b : A) : Prop :=
  exists i, nth_error l i = Some a /\ nth_error l ((i + 1) mod length l) = Some b.

(** [a] and [b] are neighbours on the cycle [l]. *)
Definition cyc_adj {A} (l : list A) (a b : A) : Prop := cyc_next l a b \/ cyc_next l b a.

(** [b] comes right after [a] in [l] (not cyclically). *)
Definition consec {A} (l : list A) (a b : A) : Prop :=
  exists i, nth_error l i = Some a /\ nth_error l (S i) = Some b.

(** The boolean equality of the genes decides equality (Rust's [Eq]). *)
Definition eq_ok {A} (eqb : A -> A -> bool) : Prop := forall a b, eqb a b = true <-> a = b.

(** The order used on the genes is total: of two different genes exactly one is
    smaller (Rust's [PartialOrd] on e.g. integers). *)
Definition lt_total {A} (ltb : A -> A -> bool) : Prop := forall a b, a <> b -> ltb a b = negb (ltb b a).

(** Two genomes hold the same genes, each once: what permutation operators expect. *)
Definition perm_parents {A} (p1 p2 : list A) : Prop := NoDup p1 /\ Permutation p1 p2.

(** [x] is the first element of [l] that is not in [used]. *)
Definition first_not_in {A} (l used : list A) (x : A) : Prop :=
  exists l1 l2, l = l1 ++ x :: l2 /\ ~ In x used /\ forall y, In y l1 -> In y used.

(** ** GPX2 *)

(** How an offspring is assembled from the pieces [ps] with the answers of the
    selector [sel] (state [s], genes placed so far [acc]). *)
Inductive assembled {G S0} (sel : S0 -> option G -> list (list G) -> M (nat * S0)) :
  S0 -> list G -> list (list G) -> list G -> Prop :=
| asm_done s acc : assembled sel s acc [] acc
| asm_step s acc ps i s' p ps' r :
    ps <> [] ->
    may (sel s (last (map Some acc) None) ps) (i, s') ->
    nth_error ps i = Some p -> Permutation ps (p :: ps') ->
    assembled sel s' (acc ++ p) ps' r ->
    assembled sel s acc ps r.


(** ** SCX: the rule for the gene [nxt] placed after [cur] when the genes [used]
    (including [cur]) are already in the offspring *)
Definition scx_rule {A} (p1 p2 used : list A) (cur nxt : A) : Prop :=
  exists n1 n2, cyc_next p1 cur n1 /\ cyc_next p2 cur n2 /\
    ((In n1 used /\ In n2 used /\ first_not_in p1 used nxt) \/
     (In n1 used /\ ~ In n2 used /\ nxt = n2) \/
     (~ In n1 used /\ In n2 used /\ nxt = n1) \/
     (~ In n1 used /\ ~ In n2 used /\
      exists i j, nth_error p2 i = Some n1 /\ nth_error p1 j = Some n2 /\
        nxt = if i <? j then n1 else n2)).

(** ** ERX *)

(** [x] is a neighbour of [g] in one of the parents and is not used yet. *)
Definition erx_free {A} (p1 p2 used : list A) (g x : A) : Prop :=
  (cyc_adj p1 g x \/ cyc_adj p2 g x) /\ ~ In x used.

(** [g] has exactly [d] such neighbours. *)
Definition erx_degree {A} (p1 p2 used : list A) (g : A) (d : nat) : Prop :=
  exists l, NoDup l /\ length l = d /\ forall x, In x l <-> erx_free p1 p2 used g x.

(** The rule for the gene placed after [cur]. *)
Definition erx_rule {A} (p1 p2 used : list A) (cur nxt : A) : Prop :=
  (erx_free p1 p2 used cur nxt /\
   exists d, erx_degree p1 p2 used nxt d /\
     forall y, erx_free p1 p2 used cur y -> exists dy, erx_degree p1 p2 used y dy /\ d <= dy)
  \/ ((forall y, ~ erx_free p1 p2 used cur y) /\ first_not_in p1 used nxt).

(** ** PMX: [pmx_maps seg1 seg2 g r]: starting from gene [g] and replacing, as
    long as possible, a gene of [seg1] by the gene at the same place of [seg2],
    one ends at [r]. *)
Inductive pmx_maps {A} (seg1 seg2 : list A) : A -> A -> Prop :=
| pmx_stop g : ~ In g seg1 -> pmx_maps seg1 seg2 g g
| pmx_step g i h r : nth_error seg1 i = Some g -> nth_error seg2 i = Some h ->
    pmx_maps seg1 seg2 h r -> pmx_maps seg1 seg2 g r.

(** The elements of [l] at positions [a..b). *)
Definition segment {A} (l : list A) (a b : nat) : list A := firstn (b - a) (skipn a l).

(** [l] read cyclically from position [b]. *)
Definition rotated {A} (l : list A) (b : nat) : list A := skipn b l ++ firstn b l.

(** ** CX: positions [i] and [j] are linked when the gene of parent 1 at [i] is
    the gene of parent 2 at [j]; a cycle is a class of linked positions. *)
Definition cx_link {A} (p1 p2 : list A) (i j : nat) : Prop :=
  exists g, nth_error p1 i = Some g /\ nth_error p2 j = Some g.
Inductive cx_cycle_of {A} (p1 p2 : list A) : nat -> nat -> Prop :=
| cx_refl i : cx_cycle_of p1 p2 i i
| cx_fwd i j k : cx_link p1 p2 i j -> cx_cycle_of p1 p2 j k -> cx_cycle_of p1 p2 i k
| cx_bwd i j k : cx_link p1 p2 j i -> cx_cycle_of p1 p2 j k -> cx_cycle_of p1 p2 i k.

(** The first position of a cycle. *)
Definition cx_leader {A} (p1 p2 : list A) (i : nat) : Prop :=
  i < length p1 /\ forall j, cx_cycle_of p1 p2 i j -> i <= j.

(** ** Mutations: where each position of the mutated genome takes its gene from *)
Definition rearranged {A} (src : nat -> nat) (l r : list A) : Prop :=
  forall k, nth_error r k = nth_error l (src k).

(** Positions [i] and [j] exchanged. *)
Definition swap_src (i j k : nat) : nat := if k =? i then j else if k =? j then i else k.

(** The run [a..b) reversed. *)
Definition reverse_src (a b k : nat) : nat := if (a <=? k) && (k <? b) then a + b - 1 - k else k.

(** The gene at [s] moved to position [t], the genes between shifted by one. *)
Definition move_src (s t k : nat) : nat :=
  if k =? t then s
  else if (t <? k) && (k <=? s) then k - 1
  else if (s <=? k) && (k <? t) then k + 1
  else k.

(** The gene at [s] copied over position [t]. *)
Definition copy_src (s t k : nat) : nat := if k =? t then s else k.

(** The genes of the run [a..b) rearranged among themselves. *)
Definition scrambled {A} (a b : nat) (l r : list A) : Prop :=
  length r = length l /\ (forall k, k < a \/ b <= k -> nth_error r k = nth_error l k) /\
  Permutation (segment l a b) (segment r a b).
