(** * SpecU: the vocabulary of the statements about caught panics (C103). *)
From Coq Require Import List Bool Arith.
From Verif Require Import Rnd F64 MStats MPopulation MSelection MModel MAlgorithms MUnwind SpecF SpecA.
Import ListNotations.

(** The numbers among the parameters are all right (the strategy may not be). *)
Definition ga_numbers (q : ga_params) : Prop :=
  ga_population_size q <> 0 /\ proper_ratio (ga_elitism_rate q) /\ rate (ga_crossover_rate q) /\ rate (ga_mutation_rate q).
Definition aga_numbers (q : aga_params) : Prop :=
  aga_population_size q <> 0 /\ proper_ratio (aga_elitism_rate q) /\
  rate (fst (aga_crossover_rate_range q)) /\ rate (snd (aga_crossover_rate_range q)) /\
  rate (fst (aga_mutation_rate_range q)) /\ rate (snd (aga_mutation_rate_range q)).

(** A progress closure that, when shown generation [g], starts a run with the
    parameters [q'] on the same [Evolution] value, which [configure] rejects, and
    catches the panic; for the rest it answers like [f]. *)
Definition rejected_at {I P S0 PS} (configure_steps : P -> list (S0 -> M S0)) (g : nat) (q' : P)
    (f : PS -> population I -> M (bool * PS)) (ps : PS) (s : S0) (p : population I) : M (bool * PS * S0) :=
  if generation p =? g then
    '(s1, _) <- unwinding (configure_steps q') s ;;
    '(c, ps1) <- f ps p ;;
    Ret (c, ps1, s1)
  else quiet f ps s p.
