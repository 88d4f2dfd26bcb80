(** * Properties_Mix: what long sequences of permutation mutations do to an order (C119). *)
From Coq Require Import List Bool Arith NArith Reals Permutation Factorial.
From Verif Require Import Rnd Prob MMutation Spec SpecM SpecJ PMix2.
Import ListNotations.

(** C119: mutating an order taken uniformly among all orders of the genes, any number
    of times, gives a uniform order again: the probabilities of an event, added over
    all starting orders, give the number of orders in the event. *)
Theorem C119_keeps_uniform :
  forall (G : Type) (s : mutation_strategy) (k : nat) (g : list G) (ls : list (list G)) (P : list G -> bool),
  s <> Duplicate -> all_orders g ls ->
  total (map (fun l => prob (mutate_times s k l) P) ls) = INR (length (filter P ls)).
Proof. exact @c119_even. Qed.
Print Assumptions C119_keeps_uniform.

(** From any order, repeated scrambling, inversion (from 4 genes on) and insertion
    (from 3 genes on) tend to the uniform distribution over all orders ... *)
Theorem C119_forgets_start :
  forall (G : Type) (s : mutation_strategy) (g : list G) (ls : list (list G)) (P : list G -> bool),
  all_orders g ls -> mixes s (length g) ->
  Un_cv (fun k => prob (mutate_times s k g) P) (INR (length (filter P ls)) / INR (length ls)).
Proof. exact @c119_limit. Qed.
Print Assumptions C119_forgets_start.
Theorem C119_all_orders :
  forall (G : Type) (g : list G), NoDup g -> exists ls, all_orders g ls /\ length ls = fact (length g).
Proof. exact @orders_ex. Qed.
Print Assumptions C119_all_orders.

(** ... while swapping never does: the number of mutations decides, by its parity,
    which half of the orders can come out. *)
Theorem C119_parity :
  forall (G : Type) (s : mutation_strategy) (g r : list G) (k k' : nat), NoDup g -> alternates s (length g) ->
  mutated s k g r -> mutated s k' g r -> Nat.even k = Nat.even k'.
Proof. exact @c119_parity. Qed.
Print Assumptions C119_parity.
Theorem C119_alternates :
  forall (G : Type) (eqb : G -> G -> bool) (s : mutation_strategy) (g : list G), eq_ok eqb -> NoDup g -> alternates s (length g) ->
  exists P : list G -> bool, forall k, prob (mutate_times s k g) P = (if Nat.even k then 1 else 0)%R.
Proof. exact @c119_alternates. Qed.
Print Assumptions C119_alternates.
Example C119_example :
  all_orders [1; 2; 3] [[1; 2; 3]; [2; 1; 3]; [2; 3; 1]; [1; 3; 2]; [3; 1; 2]; [3; 2; 1]] /\
  mixes Insertion 3 /\ mixes Inversion 4 /\ mixes Scramble 2 /\ alternates Swap 3 /\ alternates Inversion 3 /\ alternates Insertion 2 /\ NoDup [1; 2; 3] /\
  mutated Swap 1 [1; 2; 3] [3; 2; 1] /\ mutated Swap 3 [1; 2; 3] [3; 2; 1] /\
  run (mutate_times Insertion 2 [1; 2; 3]) [2; 0; 1; 0]%N = Some [1; 3; 2].
Proof. exact c119_example. Qed.
