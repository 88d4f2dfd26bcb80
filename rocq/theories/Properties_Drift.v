(** * Properties_Drift: what long sequences of duplicate mutations do to a genome (C120). *)
From Coq Require Import List Bool Arith NArith Reals.
From Verif Require Import Rnd Prob MMutation Spec SpecJ PDrift.
Import ListNotations.

(** C120: duplicate mutation favours no gene: the expected number of genes of any
    kind stays what it was, however often the genome is mutated.  (The expected
    number is the sum over the positions of the probability to find the kind
    there.) *)
Theorem C120_mean :
  forall (G : Type) (h : G -> bool) (k : nat) (l : list G),
  total (map (fun i => prob (mutate_times Duplicate k l) (kind_at h i)) (seq 0 (length l))) = INR (length (filter h l)).
Proof. exact @c120_mean. Qed.
Print Assumptions C120_mean.

(** Sooner or later all genes are the same: the probability that they are not falls
    geometrically. *)
Theorem C120_fixes :
  forall (G : Type) (eqb : G -> G -> bool), eq_ok eqb -> forall (k : nat) (l : list G), 2 <= length l ->
  (1 - still_mixed (length l) k <= prob (mutate_times Duplicate k l) (all_same eqb))%R.
Proof. exact @c120_fixes. Qed.
Print Assumptions C120_fixes.
Theorem C120_falls : forall n, 2 <= n -> Un_cv (still_mixed n) 0.
Proof. exact still_mixed_limit. Qed.
Print Assumptions C120_falls.

(** A kind takes over with the probability given by its share of the genome. *)
Theorem C120_takeover :
  forall (G : Type) (eqb : G -> G -> bool), eq_ok eqb -> forall (h : G -> bool) (k : nat) (l : list G), 2 <= length l ->
  (INR (length (filter h l)) / INR (length l) - still_mixed (length l) k
   <= prob (mutate_times Duplicate k l) (forallb h) <= INR (length (filter h l)) / INR (length l))%R.
Proof. exact @c120_takeover. Qed.
Print Assumptions C120_takeover.
Theorem C120_takeover_limit :
  forall (G : Type) (eqb : G -> G -> bool), eq_ok eqb -> forall (h : G -> bool) (l : list G), 2 <= length l ->
  Un_cv (fun k => prob (mutate_times Duplicate k l) (forallb h)) (INR (length (filter h l)) / INR (length l)).
Proof. exact @c120_limit. Qed.
Print Assumptions C120_takeover_limit.
Example C120_example :
  (2 <= length [1; 1; 2])%nat /\ eq_ok Nat.eqb /\ length (filter (Nat.eqb 1) [1; 1; 2]%nat) = 2%nat /\
  prob (mutate_times Duplicate 1 [1; 1; 2]%nat) (forallb (Nat.eqb 1)) = (/ 3)%R /\
  run (mutate_times Duplicate 2 [1; 2; 3]%nat) [1; 0; 1; 1]%N = Some [2; 2; 2]%nat.
Proof. exact c120_example. Qed.
