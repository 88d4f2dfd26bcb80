(** * ExH: the concrete runs of the examples of Properties_History. *)
From Coq Require Import List Bool Arith NArith ZArith.
From Verif Require Import Rnd F64 MStats MPopulation MSelection MModel MAlgorithms ExF ExM ExR.
Import ListNotations.

(** Four individuals, half of them elite *)
Definition ex_ga4 (cr mr : f64) (st : selection_strategy) : ga_params := mkGaParams 4 (f_lit 1 2) cr mr st.
Definition ex_aga4 (cr mr : f64 * f64) (st : selection_strategy) : aga_params := mkAgaParams 4 (f_lit 1 2) cr mr st 1.

(** Runs from the individuals 0 (invalid), 3 and 9, up to generation 2 *)
Definition ex_hist (q : ga_params) : M (run_result nat (ga_state nat unit) unit) :=
  evolve_population ex_io ex_exp ex_model (ga_algorithm ex_io ex_exp ex_model) (quiet (stop_at 2)) 3 (ga_from tt) [0; 3; 9] q tt.
Definition ex_hista (q : aga_params) : M (run_result nat (aga_state nat unit) unit) :=
  evolve_population ex_io ex_exp ex_model (aga_algorithm ex_io ex_exp ex_model) (quiet (stop_at 2)) 3 (aga_from tt) [0; 3; 9] q tt.

(** The adaptive run from the individuals 0 (invalid) and 3, up to generation 2 *)
Definition ex_frozen : M (run_result nat (aga_state nat unit) unit) :=
  evolve_population ex_io ex_exp ex_model (aga_algorithm ex_io ex_exp ex_model) (quiet (stop_at 2)) 3 (aga_from tt) [0; 3]
    (ex_aga4 (f0, f1) (f0, f1) StRank) tt.
