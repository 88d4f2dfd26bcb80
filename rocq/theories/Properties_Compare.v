(** * Properties_Compare: the selection strategies compared (C123). *)
From Coq Require Import List Bool Arith NArith ZArith Reals.
From Flocq Require Import Core BinarySingleNaN.
From Verif Require Import Rnd Prob F64 LF64 MStats MPopulation MSelection SpecF SpecQ SpecCompare ExF PCompare.
Import ListNotations.

(** C123: rank selection presses less than a tournament of two, ... *)
Theorem C123_rank_tournament :
  forall (I : Type) (io : individual_ops I) (fexp : f64 -> f64) (p : population I),
  sorted_by_fitness io (individuals p) -> individuals p <> [] ->
  presses_harder io (select io fexp Rank p) (select io fexp (Tournament 2) p) 0.
Proof. exact @rank_below_tournament. Qed.
Print Assumptions C123_rank_tournament.
(** ... linear selection with bias 2 as much as it, up to rounding; ... *)
Theorem C123_linear_tournament :
  forall (I : Type) (io : individual_ops I) (fexp : f64 -> f64) (b : f64) (p : population I),
  is_finite b = true -> B2R b = 2%R -> (Z.of_nat (length (individuals p)) <= 2 ^ 53)%Z ->
  sorted_by_fitness io (individuals p) -> individuals p <> [] ->
  presses_harder io (select io fexp (Linear b) p) (select io fexp (Tournament 2) p) (bpow radix2 (-48)) /\
  presses_harder io (select io fexp (Tournament 2) p) (select io fexp (Linear b) p) (bpow radix2 (-48)).
Proof. exact @linear_two. Qed.
Print Assumptions C123_linear_tournament.
(** ... a greater bias or ratio presses harder. *)
Theorem C123_linear_bias :
  forall (I : Type) (io : individual_ops I) (fexp : f64 -> f64) (b1 b2 : f64) (p : population I),
  is_finite b1 = true -> is_finite b2 = true -> (1 < B2R b1)%R -> (B2R b1 <= B2R b2 <= 2)%R ->
  (Z.of_nat (length (individuals p)) <= 2 ^ 53)%Z -> sorted_by_fitness io (individuals p) -> individuals p <> [] ->
  presses_harder io (select io fexp (Linear b1) p) (select io fexp (Linear b2) p) (bpow radix2 (-47) / (B2R b1 - 1)).
Proof. exact @linear_harder. Qed.
Print Assumptions C123_linear_bias.
Theorem C123_elitist_ratio :
  forall (I : Type) (io : individual_ops I) (fexp : f64 -> f64) (r1 r2 : f64) (p : population I),
  is_finite r1 = true -> is_finite r2 = true -> (0 <= B2R r1)%R -> (B2R r1 <= B2R r2 < 1)%R ->
  fits_usize (length (individuals p)) -> sorted_by_fitness io (individuals p) -> individuals p <> [] ->
  presses_harder io (select io fexp (Elitist r1) p) (select io fexp (Elitist r2) p) 0.
Proof. exact @elitist_stricter. Qed.
Print Assumptions C123_elitist_ratio.
(** Elitist selection and tournaments cannot be compared in general. *)
Theorem C123_elitist_tournament_refuted :
  exists (p : population nat) (ratio : f64) (size : nat),
  sorted_by_fitness ex_io (individuals p) /\ individuals p <> [] /\ is_finite ratio = true /\ (0 <= B2R ratio < 1)%R /\ 1 <= size /\
  ~ presses_harder ex_io (select ex_io ex_exp (Elitist ratio) p) (select ex_io ex_exp (Tournament size) p) 0 /\
  ~ presses_harder ex_io (select ex_io ex_exp (Tournament size) p) (select ex_io ex_exp (Elitist ratio) p) 0.
Proof. exact incomparable_witness. Qed.
Print Assumptions C123_elitist_tournament_refuted.

(** How often the fittest individual is selected. *)
Theorem C123_fittest :
  forall (I : Type) (io : individual_ops I) (fexp : f64 -> f64) (p : population I), individuals p <> [] ->
  let n := length (individuals p) in
  (forall size, 1 <= size -> prob (select io fexp (Tournament size) p) (fun r => fst r =? n - 1) = (1 - ((INR n - 1) / INR n) ^ size)%R) /\
  prob (select io fexp Rank p) (fun r => fst r =? n - 1) = (2 / (INR n + 1))%R /\
  (forall ratio, is_finite ratio = true -> (0 <= B2R ratio < 1)%R -> fits_usize n ->
     prob (select io fexp (Elitist ratio) p) (fun r => fst r =? n - 1) = (1 / INR (n - elitist_bound n ratio))%R).
Proof. exact @fittest_shares. Qed.
Print Assumptions C123_fittest.
Example C123_example :
  let p := ex_popn ex_io [1; 2; 5; 9] in
  sorted_by_fitness ex_io (individuals p) /\ individuals p <> [] /\ fits_usize (length (individuals p)) /\
  elitist_bound (length (individuals p)) (f_lit 1 2) = 2 /\ is_finite f2 = true /\ B2R f2 = 2%R /\
  prob (select ex_io ex_exp Rank p) (fun r => 4 - 2 <=? fst r) = (7 / 10)%R /\
  prob (select ex_io ex_exp (Tournament 2) p) (fun r => 4 - 2 <=? fst r) = (3 / 4)%R.
Proof. exact compare_example. Qed.
