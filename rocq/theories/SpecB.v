(** * SpecB: the vocabulary of the statement about the outcomes of breed, the default
    parameters and nested runs. *)
From Coq Require Import List Bool Arith Reals.
From Flocq Require Import BinarySingleNaN.
From Verif Require Import Rnd F64 MStats MPopulation MSelection MModel MAlgorithms.
Import ListNotations.

(** An event of rate [r] can happen when the rate is positive, and can fail to
    happen unless the rate is 1 or more (a NaN rate never happens). *)
Definition can_happen (r : f64) : Prop := flt f0 r = true.
Definition can_be_skipped (r : f64) : Prop := fge r f1 = false.

(** The possible second parents beside the first parent [a]: an individual
    different from [a] that can be selected from two or more individuals, or none,
    when there is nobody else, when the crossover is skipped, or when the
    selection only finds individuals equal to [a]. *)
Definition second_parent {I} (io : individual_ops I) (fexp : f64 -> f64) (p : population I) (b : breeding I)
    (a : I) (second : option I) : Prop :=
  match second with
  | Some c => 1 < length (individuals p) /\ can_happen (crossover_rate b) /\ ieq io c a = false /\
              exists i, may (select io fexp (parent_selector b) p) (i, c)
  | None => length (individuals p) <= 1 \/ can_be_skipped (crossover_rate b) \/
            exists i c, may (select io fexp (parent_selector b) p) (i, c) /\ ieq io c a = true
  end.

(** The parent an offspring has to replace: the second one only if it is fitter. *)
Definition rival {I} (io : individual_ops I) (a : I) (second : option I) (f : I) : Prop :=
  match second with
  | Some c => (fgt (fitness io c) (fitness io a) = true /\ f = c) \/
              (fgt (fitness io c) (fitness io a) = false /\ f = a)
  | None => f = a
  end.

(** [x] is what becomes of the parents [a] and [second]: their crossover (the
    first parent itself without a second one) is perhaps mutated, then improved
    and evaluated; it survives if it is valid and the model says so, otherwise
    the rival takes its place. *)
Definition offspring_of {I MS} (io : individual_ops I) (mdl : model I MS) (ms : MS) (p : population I) (b : breeding I)
    (a : I) (second : option I) (x : I) : Prop :=
  exists child mutant improved evaluated f,
    match second with Some c => may (m_crossover mdl ms a c) child | None => child = a end /\
    ((can_happen (mutation_rate b) /\ may (m_mutate mdl ms child) mutant) \/
     (can_be_skipped (mutation_rate b) /\ mutant = child)) /\
    may (m_improve mdl ms mutant) improved /\
    may (m_evaluate mdl ms improved) evaluated /\
    rival io a second f /\
    ((x = evaluated /\ is_valid io evaluated = true /\ may (m_can_survive mdl ms evaluated f p) true) \/
     (x = f /\ (is_valid io evaluated = false \/ may (m_can_survive mdl ms evaluated f p) false))).

(** The float closest to a real number *)
Definition closest (x : f64) (r : R) : Prop :=
  is_finite x = true /\ forall y : f64, is_finite y = true -> (Rabs (B2R x - r) <= Rabs (B2R y - r))%R.

(** A progress closure that, when it is shown generation [g], makes another run
    on the same [Evolution] value, with its own parameters [q'] and closure [f'];
    for the rest it answers like [f]. *)
Definition nested_at {I MS P S0 PS PS'} (io : individual_ops I) (fexp : f64 -> f64) (mdl : model I MS) (alg : algorithm I MS P S0)
    (g fuel' : nat) (init' : list I) (q' : P) (f' : PS' -> population I -> M (bool * PS')) (ps' : PS')
    (f : PS -> population I -> M (bool * PS)) (ps : PS) (s : S0) (p : population I) : M (bool * PS * S0) :=
  if generation p =? g then
    r <- evolve_population io fexp mdl alg (quiet f') fuel' s init' q' ps' ;;
    '(c, ps1) <- f ps p ;;
    Ret (c, ps1, r_algorithm r)
  else quiet f ps s p.
