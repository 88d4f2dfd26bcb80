(** * SpecS: the vocabulary of the statements about schedules (C100, C101),
    and the small inputs of their examples. *)
From Coq Require Import List NArith.
From Verif Require Import Rnd F64 MStats MPopulation MSelection MModel MAlgorithms MOneMax SpecF.
Import ListNotations.

(** The generator respects the bound it is given. *)
Definition in_range {G} (next : G -> N -> N * G) : Prop := forall g n, (0 < n)%N -> (fst (next g n) < n)%N.

(** No choice is left open: the result is a function of the draws. *)
Fixpoint settled {A} (m : M A) : Prop :=
  match m with
  | Ret _ | Fail _ => True
  | Draw _ k => forall i, settled (k i)
  | Pick _ _ => False
  end.

(** A generator that reads a tape; beyond the end it answers 0. *)
Definition tape_next (tape : list N) (n : N) : N * list N :=
  match tape with
  | [] => (0%N, [])
  | i :: rest => (if (i <? n)%N then i else 0%N, rest)
  end.

(** A counter as a generator *)
Definition counter_next (c : N) (n : N) : N * N := ((c mod n)%N, (c + 1)%N).

(** An unevaluated one-bit genome, and a population of evaluated ones *)
Definition bit (b : bool) : onemax := onemax_from [b].
Definition bit_pop (l : list bool) : population onemax :=
  let inds := map (fun b => mkOneMax [b] (if b then f1 else f0)) l in mkPopulation inds 0 0 (stats_of onemax_ops inds).

(** Two individuals, no crossover, no mutation, tournaments of one *)
Definition seed_params : ga_params := mkGaParams 2 f0 f0 f0 (StTournament 1).

(** A progress callback that stops at once *)
Definition stop {PS I : Type} (ps : PS) (p : population I) : M (bool * PS) := Ret (false, ps).

(** One individual bred from the population of the two one-bit genomes *)
Definition seed_breed : M onemax := breed onemax_ops (fun x => x) onemax_model tt (bit_pop [false; true]) (mkBreeding f0 f0 (Tournament 1)).
