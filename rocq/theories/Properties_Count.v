(** * Properties_Count: how many new individuals have some property (C135). *)
From Coq Require Import List Bool Arith NArith ZArith Reals.
From Verif Require Import Rnd Prob F64 MStats MPopulation MSelection MModel MAlgorithms MOneMax SpecF SpecCount ExF ExM PCount.
Import ListNotations.

(** C135: of the k >= 2 individuals bred for a generation, the number of those with a
    property has the binomial law given by the chance of one of them, ... *)
Theorem C135_offspring :
  forall (I : Type) (io : individual_ops I) (fexp : f64 -> f64) (MS : Type) (mdl : model I MS)
    (ms : MS) (b : breeding I) (size : nat) (p : population I) (offspring : list I) (Q : I -> bool) (j : nat),
  draws_only (breed io fexp mdl ms p b) -> must (breed io fexp mdl ms p b) (fun _ => True) ->
  2 <= size - length offspring -> j <= size - length offspring ->
  prob (generate_new_population io fexp mdl ms (b, size) p offspring) (fun l => how_many Q (skipn (length offspring) l) =? j)
  = binomial (size - length offspring) (prob (breed io fexp mdl ms p b) Q) j.
Proof. exact @offspring_count. Qed.
Print Assumptions C135_offspring.

(** ... so their mean number is k times that chance. *)
Theorem C135_offspring_mean :
  forall (I : Type) (io : individual_ops I) (fexp : f64 -> f64) (MS : Type) (mdl : model I MS)
    (ms : MS) (b : breeding I) (size : nat) (p : population I) (offspring : list I) (Q : I -> bool),
  draws_only (breed io fexp mdl ms p b) -> must (breed io fexp mdl ms p b) (fun _ => True) ->
  2 <= size - length offspring ->
  Rsum (S (size - length offspring)) (fun j => INR j *
    prob (generate_new_population io fexp mdl ms (b, size) p offspring) (fun l => how_many Q (skipn (length offspring) l) =? j)%nat)%R
  = (INR (size - length offspring) * prob (breed io fexp mdl ms p b) Q)%R.
Proof. exact @offspring_mean. Qed.
Print Assumptions C135_offspring_mean.

(** The mean squared distance from that mean is k s (1 - s), s being that chance. *)
Theorem C135_offspring_variance :
  forall (I : Type) (io : individual_ops I) (fexp : f64 -> f64) (MS : Type) (mdl : model I MS)
    (ms : MS) (b : breeding I) (size : nat) (p : population I) (offspring : list I) (Q : I -> bool),
  draws_only (breed io fexp mdl ms p b) -> must (breed io fexp mdl ms p b) (fun _ => True) ->
  2 <= size - length offspring ->
  Rsum (S (size - length offspring)) (fun j => (INR j - INR (size - length offspring) * prob (breed io fexp mdl ms p b) Q) ^ 2 *
    prob (generate_new_population io fexp mdl ms (b, size) p offspring) (fun l => how_many Q (skipn (length offspring) l) =? j)%nat)%R
  = (INR (size - length offspring) * (prob (breed io fexp mdl ms p b) Q * (1 - prob (breed io fexp mdl ms p b) Q)))%R.
Proof. exact @offspring_variance. Qed.
Print Assumptions C135_offspring_variance.

(** With the selection strategies of the library, breeding leaves nothing open but the
    drawn numbers if the methods of the model do so. *)
Theorem C135_breed :
  forall (I : Type) (io : individual_ops I) (fexp : f64 -> f64) (MS : Type) (mdl : model I MS) (ms : MS) (p : population I) (b : breeding I),
  match parent_selector b with Custom _ _ _ _ => False | _ => True end -> drawing_model mdl ->
  draws_only (breed io fexp mdl ms p b).
Proof. exact @breed_draws. Qed.
Print Assumptions C135_breed.
Example C135_breed_example :
  drawing_model ex_model /\
  must (breed ex_io ex_exp ex_model tt (ex_popn ex_io [4; 5; 6]) (mkBreeding f1 f0 Rank)) (fun _ => True).
Proof. exact c135_breed. Qed.

(** The same law for random initial individuals ... *)
Theorem C135_initial :
  forall (I : Type) (new_random : M I) (size : nat) (Q : I -> bool) (j : nat),
  draws_only new_random -> must new_random (fun _ => True) -> j <= size ->
  prob (extend_population new_random [] size) (fun l => how_many Q l =? j) = binomial size (prob new_random Q) j.
Proof. exact @initial_count. Qed.
Print Assumptions C135_initial.
(** ... and for the set bits of a random OneMax genome. *)
Theorem C135_onemax :
  forall (n j : nat), j <= n ->
  prob (onemax_new_random n) (fun x => how_many (fun b => b) (genome x) =? j) = (C n j / 2 ^ n)%R.
Proof. exact onemax_count. Qed.
Print Assumptions C135_onemax.
Example C135_example :
  draws_only gen_bool /\ must gen_bool (fun _ => True) /\
  prob (extend_population gen_bool [] 3) (fun l => how_many (fun b => b) l =? 2) = (3 / 8)%R.
Proof. exact c135_coins. Qed.
