(** * Properties_Pressure: selection pressure (C106). *)
From Coq Require Import List Bool Arith NArith ZArith Reals.
From Flocq Require Import Core BinarySingleNaN.
From Verif Require Import Rnd Prob F64 LF64 MStats MPopulation MSelection SpecF SpecQ ExF PPressure.
Import ListNotations.

(** C106: tournament, rank and elitist selection favour the fitter, ... *)
Theorem C106_tournament :
  forall (I : Type) (io : individual_ops I) (fexp : f64 -> f64) (size : nat) (p : population I),
  1 <= size -> sorted_by_fitness io (individuals p) -> individuals p <> [] ->
  favours_fitter io (select io fexp (Tournament size) p) p 0.
Proof. exact @tournament_favours. Qed.
Print Assumptions C106_tournament.
(** ... a larger tournament more so; ... *)
Theorem C106_larger_tournament :
  forall (I : Type) (io : individual_ops I) (fexp : f64 -> f64) (size1 size2 : nat) (p : population I) (t : f64),
  1 <= size1 <= size2 -> sorted_by_fitness io (individuals p) -> individuals p <> [] ->
  (prob (select io fexp (Tournament size1) p) (fun r => fge (fitness io (snd r)) t)
   <= prob (select io fexp (Tournament size2) p) (fun r => fge (fitness io (snd r)) t))%R.
Proof. exact @tournament_larger. Qed.
Print Assumptions C106_larger_tournament.
Theorem C106_rank :
  forall (I : Type) (io : individual_ops I) (fexp : f64 -> f64) (p : population I),
  sorted_by_fitness io (individuals p) -> individuals p <> [] ->
  favours_fitter io (select io fexp Rank p) p 0.
Proof. exact @rank_favours. Qed.
Print Assumptions C106_rank.
Theorem C106_elitist :
  forall (I : Type) (io : individual_ops I) (fexp : f64 -> f64) (ratio : f64) (p : population I),
  is_finite ratio = true -> (0 <= B2R ratio < 1)%R -> fits_usize (length (individuals p)) ->
  sorted_by_fitness io (individuals p) -> individuals p <> [] ->
  favours_fitter io (select io fexp (Elitist ratio) p) p 0.
Proof. exact @elitist_favours. Qed.
Print Assumptions C106_elitist.
(** ... linear, roulette and Boltzmann selection do up to rounding, ... *)
Theorem C106_linear :
  forall (I : Type) (io : individual_ops I) (fexp : f64 -> f64) (b : f64) (p : population I),
  is_finite b = true -> (1 < B2R b <= 2)%R -> (Z.of_nat (length (individuals p)) <= 2 ^ 53)%Z ->
  sorted_by_fitness io (individuals p) -> individuals p <> [] ->
  favours_fitter io (select io fexp (Linear b) p) p (bpow radix2 (-48) / (B2R b - 1)).
Proof. exact @linear_favours. Qed.
Print Assumptions C106_linear.
Theorem C106_roulette :
  forall (I : Type) (io : individual_ops I) (fexp : f64 -> f64) (t0 : f64) (p : population I),
  sorted_by_fitness io (individuals p) -> individuals p <> [] ->
  (forall y, In y (individuals p) -> is_finite (fitness io y) = true /\ 0 <= B2R (fitness io y))%R ->
  (Z.of_nat (length (individuals p)) <= 2 ^ 49)%Z ->
  (bpow radix2 (-899) <= sumR (map (fun y => B2R (fitness io y)) (individuals p)) <= bpow radix2 1022)%R ->
  must (prepare io fexp (RouletteWheel t0) p) (fun s =>
    favours_fitter io (select io fexp s p) p (INR (length (individuals p)) * INR (length (individuals p)) * bpow radix2 (-49))).
Proof. exact @roulette_favours. Qed.
Print Assumptions C106_roulette.
Theorem C106_boltzmann :
  forall (I : Type) (io : individual_ops I) (fexp : f64 -> f64) (t c t0 : f64) (p : population I),
  let scaled := fun y => fexp (fdiv (fitness io y) (fmul t c)) in
  sorted_by_fitness io (individuals p) -> individuals p <> [] ->
  (forall y, In y (individuals p) -> is_finite (scaled y) = true /\ 0 <= B2R (scaled y))%R ->
  (forall x y, In x (individuals p) -> In y (individuals p) -> fle (fitness io x) (fitness io y) = true -> fle (scaled x) (scaled y) = true) ->
  (Z.of_nat (length (individuals p)) <= 2 ^ 49)%Z ->
  (bpow radix2 (-899) <= sumR (map (fun y => B2R (scaled y)) (individuals p)) <= bpow radix2 1022)%R ->
  must (prepare io fexp (Boltzmann t c t0) p) (fun s =>
    favours_fitter io (select io fexp s p) p (INR (length (individuals p)) * INR (length (individuals p)) * bpow radix2 (-49))).
Proof. exact @boltzmann_favours. Qed.
Print Assumptions C106_boltzmann.
(** ... and Boltzmann selection does not when the scaled fitness values overflow. *)
Theorem C106_boltzmann_refuted :
  exists (t c : f64) (p : population nat) (s : selector nat),
  sorted_by_fitness ex_io (individuals p) /\ individuals p <> [] /\ may (prepare ex_io ex_exp (Boltzmann t c f0) p) s /\
  ~ favours_fitter ex_io (select ex_io ex_exp s p) p (1 / 4).
Proof. exact cold_refuted. Qed.
Print Assumptions C106_boltzmann_refuted.
Example C106_example :
  let p := ex_popn ex_io [1; 2; 5] in
  sorted_by_fitness ex_io (individuals p) /\
  (forall y, In y (individuals p) -> is_finite (fitness ex_io y) = true /\ (0 <= B2R (fitness ex_io y))%R) /\
  prob (select ex_io ex_exp (Tournament 2) p) (fun r => fge (fitness ex_io (snd r)) (f_of_nat 2)) = (8 / 9)%R /\
  length (filter (fun x => fge (fitness ex_io x) (f_of_nat 2)) (individuals p)) = 2.
Proof. exact c106_example. Qed.
