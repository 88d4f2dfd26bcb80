(** * ExP: the run of ExH, watched (C115). *)
From Coq Require Import List.
From Verif Require Import Rnd F64 SpecP MStats MPopulation MSelection MModel MAlgorithms ExF ExM ExR ExH.
Import ListNotations.

(** From the individuals 0 (invalid), 3 and 9 up to generation 2, size 4, two elites *)
Definition ex_watched (w : method) : M (run_result nat (ga_state nat unit) unit) :=
  evolve_population ex_io ex_exp (watch w ex_model) (ga_algorithm ex_io ex_exp (watch w ex_model))
    (quiet (stop_at 2)) 3 (ga_from tt) [0; 3; 9] (ex_ga4 f1 f1 StRank) tt.
