(** * DocExamples: the documented examples of the repository, run on the model.

    These are tests of the model (not theorems about all inputs): each doc-test
    of src/operators.rs and src/operators/crossover.rs whose result does not
    depend on a seeded generator is evaluated on the model. *)
From Coq Require Import List Bool Arith NArith.
From Verif Require Import Rnd MOperators MCrossover.
Import ListNotations.

Definition parent1 := [0; 1; 2; 3; 4; 5; 6; 7; 8; 9].
Definition parent2 := [8; 9; 0; 7; 4; 5; 6; 3; 2; 1].

(** src/operators.rs:126-135 *)
Example doc_common_neighbors :
  common_neighbors Nat.eqb Nat.ltb [1; 2; 3; 4; 5] [1; 3; 2; 4; 5] = Ret [(2, 3); (4, 5); (1, 5)].
Proof. reflexivity. Qed.

(** src/operators.rs:193-202 *)
Example doc_common_partitions :
  common_partitions Nat.eqb Nat.ltb [1; 2; 3; 4; 5] [1; 3; 2; 4; 5] = Ret [[1; 5; 4]; [2; 3]].
Proof. reflexivity. Qed.

(** src/operators/crossover.rs:130-151 *)
Example doc_gpx2_first :
  generalized_partition_2_crossover Nat.eqb Nat.ltb parent1 parent2
    (fun (_ : unit) _ _ => Ret (0, tt)) tt = Ret [0; 9; 8; 7; 4; 5; 6; 1; 2; 3].
Proof. vm_compute. reflexivity. Qed.

Fixpoint index_of_containing (g : nat) (ps : list (list nat)) : option nat :=
  match ps with
  | [] => None
  | p :: t => if mem Nat.eqb g p then Some 0
              else match index_of_containing g t with Some i => Some (S i) | None => None end
  end.

Example doc_gpx2_second :
  generalized_partition_2_crossover Nat.eqb Nat.ltb parent1 parent2
    (fun (_ : unit) lst ps =>
       Ret (match lst with
            | None => 0
            | Some g => match index_of_containing ((g + 3) mod 10) ps with Some i => i | None => 0 end
            end, tt)) tt = Ret [0; 9; 8; 1; 2; 3; 4; 5; 6; 7].
Proof. vm_compute. reflexivity. Qed.

(** src/operators/crossover.rs:209-218 *)
Example doc_scx :
  sequential_constructive_crossover Nat.eqb parent1 parent2 2 = Ret [2; 1; 8; 9; 0; 7; 4; 5; 6; 3].
Proof. vm_compute. reflexivity. Qed.

(** src/operators/crossover.rs:408-417 *)
Example doc_pmx :
  partially_mapped_crossover Nat.eqb 10 parent1 parent2 (1, 4) = Ret [8; 1; 2; 3; 4; 5; 6; 7; 0; 9].
Proof. vm_compute. reflexivity. Qed.

(** src/operators/crossover.rs:472-481 *)
Example doc_ox :
  order_crossover Nat.eqb 11 parent1 parent2 (1, 4) = Ret [7; 1; 2; 3; 4; 5; 6; 8; 9; 0].
Proof. vm_compute. reflexivity. Qed.

(** src/operators/crossover.rs:540-549 *)
Example doc_cx :
  cycle_crossover Nat.eqb parent1 parent2 = Ret [0; 9; 2; 3; 4; 5; 6; 7; 8; 1].
Proof. vm_compute. reflexivity. Qed.

(** src/operators/crossover.rs:622-631 *)
Example doc_spx :
  single_point_crossover [1; 2; 3; 4; 5] [21; 22; 23; 24; 25] 3 = Ret [1; 2; 3; 24; 25].
Proof. reflexivity. Qed.
