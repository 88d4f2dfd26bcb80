(** * Properties of the model: the new individuals are independent of each other (C107). *)
From Coq Require Import List Bool Arith Reals Lra.
From Verif Require Import Rnd Prob F64 MStats MPopulation MSelection MModel MAlgorithms MOneMax SpecF SpecI ExF ExM PIndep.
Import ListNotations.

(** C107: whatever properties the new individuals are asked to have, one by one,
    the probability that they all do is the product of the probabilities that
    one does: for the children of a generation, ... *)
Theorem C107_offspring :
  forall (I : Type) (io : individual_ops I) (fexp : f64 -> f64) (MS : Type) (mdl : model I MS)
    (ms : MS) (b : breeding I) (size : nat) (p : population I) (offspring : list I) (Ps : list (I -> bool)),
  must (breed io fexp mdl ms p b) (fun _ => True) ->
  2 <= size - length offspring -> length Ps = size - length offspring ->
  prob (generate_new_population io fexp mdl ms (b, size) p offspring) (fun l => each Ps (skipn (length offspring) l))
  = product (map (prob (breed io fexp mdl ms p b)) Ps).
Proof. exact @offspring_independent. Qed.
Print Assumptions C107_offspring.

(** ... so that a property of one child gives a power for all the children, ... *)
Theorem C107_all :
  forall (I : Type) (io : individual_ops I) (fexp : f64 -> f64) (MS : Type) (mdl : model I MS)
    (ms : MS) (b : breeding I) (size : nat) (p : population I) (offspring : list I) (Q : I -> bool),
  must (breed io fexp mdl ms p b) (fun _ => True) ->
  2 <= size - length offspring ->
  prob (generate_new_population io fexp mdl ms (b, size) p offspring) (fun l => forallb Q (skipn (length offspring) l))
  = (prob (breed io fexp mdl ms p b) Q ^ (size - length offspring))%R.
Proof. exact @offspring_all. Qed.
Print Assumptions C107_all.

(** ... for the random individuals of the first population ... *)
Theorem C107_initial :
  forall (I : Type) (new_random : M I) (Ps : list (I -> bool)), must new_random (fun _ => True) ->
  prob (extend_population new_random [] (length Ps)) (each Ps) = product (map (prob new_random) Ps).
Proof. exact @initial_independent. Qed.
Print Assumptions C107_initial.

(** ... and for the mutated copies of a seed. *)
Theorem C107_variants :
  forall (I MS : Type) (mdl : model I MS) (ms : MS) (seed : I) (Ps : list (I -> bool)),
  must (m_mutate mdl ms seed) (fun _ => True) ->
  prob (extend_population_with mdl ms [] (S (length Ps)) seed) (fun l => each Ps (tl l))
  = product (map (prob (m_mutate mdl ms seed)) Ps).
Proof. exact @variants_independent. Qed.
Print Assumptions C107_variants.

Example C107_example :
  must gen_bool (fun _ => True) /\
  prob (extend_population gen_bool [] 2) (each [(fun b => b); negb]) = (/ 4)%R.
Proof. exact c107_coins. Qed.
Example C107_breed_example :
  must (breed ex_io ex_exp ex_model tt (ex_popn ex_io [4; 5; 6]) (mkBreeding f1 f0 Rank)) (fun _ => True).
Proof. exact c107_breed. Qed.
