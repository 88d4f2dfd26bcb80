(** * Properties_Pairs: which parents are crossed, and in which order (C132). *)
From Coq Require Import List Bool Arith NArith Reals.
From Flocq Require Import Core BinarySingleNaN.
From Verif Require Import Rnd Prob F64 MPopulation MSelection MModel SpecF SpecPairs ExF PPairs.
Import ListNotations.
Local Open Scope R_scope.

(** C132: of the individuals that differ from the excluded one, select_distinct returns each
    in proportion to how often a selection returns it; the factor is 1 + q + q^2 + ...,
    one term for every try, where q is the chance to meet the excluded one. *)
Theorem C132_second_parent :
  forall (I : Type) (io : individual_ops I) (fexp : f64 -> f64) (s : selector I) (p : population I)
    (tries : nat) (excluded : I) (P : nat * I -> bool),
  match s with Custom _ _ _ _ => False | _ => True end ->
  prob (select_distinct io fexp s p tries excluded) (fun o => match o with Some r => P r | None => false end)
  = prob (select io fexp s p) (fun r => negb (ieq io (snd r) excluded) && P r)
    * Rsum tries (fun k => prob (select io fexp s p) (fun r => ieq io (snd r) excluded) ^ k).
Proof. exact @second_law. Qed.
Print Assumptions C132_second_parent.
(** In a population without equal individuals, the parents are i and j, in this order, with a
    chance that grows with the share of i faster than with that of j. *)
Theorem C132_pair :
  forall (I : Type) (io : individual_ops I) (fexp : f64 -> f64) (s : selector I) (p : population I),
  match s with Custom _ _ _ _ => False | _ => True end ->
  must (select io fexp s p) (fun r => nth_error (individuals p) (fst r) = Some (snd r)) -> all_different io p ->
  forall i j : nat, i <> j -> (i < length (individuals p))%nat ->
  prob (parents io fexp s p) (are i j) =
  share io fexp s p i * share io fexp s p j * (1 + share io fexp s p i + share io fexp s p i ^ 2).
Proof. exact @pair_law. Qed.
Print Assumptions C132_pair.
(** So of two individuals the one that is selected more often is the first parent more often. *)
Theorem C132_stronger_first :
  forall (I : Type) (io : individual_ops I) (fexp : f64 -> f64) (s : selector I) (p : population I),
  match s with Custom _ _ _ _ => False | _ => True end ->
  must (select io fexp s p) (fun r => nth_error (individuals p) (fst r) = Some (snd r)) -> all_different io p ->
  forall i j : nat, i <> j -> (i < length (individuals p))%nat -> (j < length (individuals p))%nat ->
  share io fexp s p j <= share io fexp s p i ->
  prob (parents io fexp s p) (are j i) <= prob (parents io fexp s p) (are i j) /\
  (0 < share io fexp s p j < share io fexp s p i ->
   prob (parents io fexp s p) (are j i) < prob (parents io fexp s p) (are i j)).
Proof. exact @stronger_first. Qed.
Print Assumptions C132_stronger_first.
(** No second parent is found with the sum of the fourth powers of the shares ... *)
Theorem C132_alone :
  forall (I : Type) (io : individual_ops I) (fexp : f64 -> f64) (s : selector I) (p : population I),
  match s with Custom _ _ _ _ => False | _ => True end ->
  must (select io fexp s p) (fun r => nth_error (individuals p) (fst r) = Some (snd r)) -> all_different io p ->
  prob (parents io fexp s p) alone = Rsum (length (individuals p)) (fun i => share io fexp s p i ^ 4).
Proof. exact @alone_law. Qed.
Print Assumptions C132_alone.
(** ... and, equal individuals or not, at most with the cube of the largest share of any. *)
Theorem C132_alone_at_most :
  forall (I : Type) (io : individual_ops I) (fexp : f64 -> f64) (s : selector I) (p : population I) (m : R),
  match s with Custom _ _ _ _ => False | _ => True end ->
  must (select io fexp s p) (fun r => In (snd r) (individuals p)) ->
  (forall x, In x (individuals p) -> prob (select io fexp s p) (fun r => ieq io (snd r) x) <= m) ->
  prob (parents io fexp s p) alone <= m ^ 3.
Proof. exact @alone_at_most. Qed.
Print Assumptions C132_alone_at_most.
(** Elitist selection that leaves one individual to select from never finds a second parent. *)
Theorem C132_elitist_alone :
  forall (I : Type) (io : individual_ops I) (fexp : f64 -> f64) (ratio : f64) (p : population I) (x : I),
  is_finite ratio = true -> 0 <= B2R ratio < 1 -> individuals p <> [] -> fits_usize (length (individuals p)) ->
  S (elitist_bound (length (individuals p)) ratio) = length (individuals p) ->
  nth_error (individuals p) (length (individuals p) - 1) = Some x -> ieq io x x = true ->
  must (parents io fexp (Elitist ratio) p) (fun z => alone z = true).
Proof. exact @elitist_alone. Qed.
Print Assumptions C132_elitist_alone.
Example C132_elitist_example :
  let p := ex_popn ex_io [1; 2; 3; 4; 5; 6; 7; 8; 9; 10]%nat in
  S (elitist_bound (length (individuals p)) (f_lit 9 10)) = length (individuals p) /\
  must (parents ex_io ex_exp (Elitist (f_lit 9 10)) p) (fun z => alone z = true).
Proof. exact elitist_example. Qed.
Print Assumptions C132_elitist_example.
(** These are the parents of breed: a model whose crossover panics on certain pairs (T) panics
    with the rate of crossover times the chance of such a pair. *)
Theorem C132_breed :
  forall (I : Type) (io : individual_ops I) (fexp : f64 -> f64) (MS : Type) (mdl : model I MS)
    (ms : MS) (p : population I) (b : breeding I) (T : I -> I -> bool),
  match parent_selector b with Custom _ _ _ _ => False | _ => True end ->
  must (select io fexp (parent_selector b) p) (fun r => In (snd r) (individuals p)) ->
  (1 < length (individuals p))%nat ->
  (forall o, must (m_improve mdl ms o) (fun _ => True)) /\
  (forall o, must (m_evaluate mdl ms o) (fun _ => True)) /\
  (forall o f, must (m_can_survive mdl ms o f p) (fun _ => True)) ->
  (forall a c, if T a c then m_crossover mdl ms a c = Fail Panic else must (m_crossover mdl ms a c) (fun _ => True)) ->
  (forall o, must (m_mutate mdl ms o) (fun _ => True)) ->
  prob (breed io fexp mdl ms p b) (fun _ => true) =
  1 - prob gen_f64 (fun u => flt u (crossover_rate b))
      * prob (parents io fexp (parent_selector b) p)
          (fun z => match snd z with Some c => T (snd (fst z)) (snd c) | None => false end).
Proof. exact @breed_pairs. Qed.
Print Assumptions C132_breed.
(** Two different individuals and a tournament of two: a third of the offspring has one parent
    even with crossover rate 1, and the fitter one is the first parent in 111 of 174 pairs. *)
Example C132_example :
  match Tournament (I := nat) 2 with Custom _ _ _ _ => False | _ => True end /\
  must (select ex_io ex_exp (Tournament 2) ex_two) (fun r => nth_error (individuals ex_two) (fst r) = Some (snd r)) /\
  all_different ex_io ex_two /\
  prob (parents ex_io ex_exp (Tournament 2) ex_two) (are 1 0) = 111 / 256 /\
  prob (parents ex_io ex_exp (Tournament 2) ex_two) (are 0 1) = 63 / 256 /\
  prob (parents ex_io ex_exp (Tournament 2) ex_two) alone = 82 / 256.
Proof. exact two_example. Qed.
Print Assumptions C132_example.
(** With a crossover that panics when the fitter parent is the first one, 145 of 256 survive. *)
Example C132_breed_example :
  prob (breed ex_io ex_exp ex_model_first tt ex_two (mkBreeding f1 f0 (Tournament 2))) (fun _ => true) = 145 / 256.
Proof. exact two_breed. Qed.
Print Assumptions C132_breed_example.
