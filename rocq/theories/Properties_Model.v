(** * Properties_Model: theorems about src/model.rs (C52-C54, C74). *)
From Coq Require Import List Bool Arith NArith ZArith Reals Lia Lra.
From Flocq Require Import Core BinarySingleNaN.
From Verif Require Import Rnd Prob F64 MStats MPopulation MSelection MModel SpecF ExF ExM PModel.
Import ListNotations.

(** C52: with the default survival rule the bred individual is at least as fit
    as the parents it came from ... *)
Theorem C52_at_least_the_parents :
  forall (I : Type) (io : individual_ops I) (fexp : f64 -> f64) (MS : Type) (mdl : model I MS)
    (ms : MS) (p : population I) (b : breeding I) (x : I),
  (forall ms' o f q, m_can_survive mdl ms' o f q = Ret (fge (fitness io o) (fitness io f))) ->
  selects_members io fexp (parent_selector b) p -> no_nan io (individuals p) ->
  may (breed io fexp mdl ms p b) x ->
  exists i1 parent1 parent2,
    may (select io fexp (parent_selector b) p) (i1, parent1) /\
    may (breed_parent2 io fexp p b parent1) parent2 /\ may (breed_from io mdl ms p b parent1 parent2) x /\
    fle (fitness io parent1) (fitness io x) = true /\
    (forall q, parent2 = Some q -> fle (fitness io q) (fitness io x) = true).
Proof. exact @c52. Qed.
Print Assumptions C52_at_least_the_parents.
(** ... hence never below what the selection mechanism guarantees for parents ... *)
Theorem C52_at_least_the_selected :
  forall (I : Type) (io : individual_ops I) (fexp : f64 -> f64) (MS : Type) (mdl : model I MS)
    (ms : MS) (p : population I) (b : breeding I) (x : I) (t : f64),
  (forall ms' o f q, m_can_survive mdl ms' o f q = Ret (fge (fitness io o) (fitness io f))) ->
  no_nan io (individuals p) ->
  must (select io fexp (parent_selector b) p) (fun r => In (snd r) (individuals p) /\ fle t (fitness io (snd r)) = true) ->
  may (breed io fexp mdl ms p b) x -> fle t (fitness io x) = true.
Proof. exact @c52_threshold. Qed.
Print Assumptions C52_at_least_the_selected.
(** ... and a member of the population or valid, with any survival rule. *)
Theorem C52_member_or_valid :
  forall (I : Type) (io : individual_ops I) (fexp : f64 -> f64) (MS : Type) (mdl : model I MS)
    (ms : MS) (p : population I) (b : breeding I) (x : I),
  selects_members io fexp (parent_selector b) p -> may (breed io fexp mdl ms p b) x ->
  (In x (individuals p) \/ is_valid io x = true) /\
  ((forall y, In y (individuals p) -> is_valid io y = true) -> is_valid io x = true).
Proof. exact @c52_member_or_valid. Qed.
Print Assumptions C52_member_or_valid.
Example C52_example :
  run (breed ex_io ex_exp ex_model tt (ex_popn ex_io [4; 5; 6]) (mkBreeding f1 f0 (Tournament 1))) [0; 0; 2; 0]%N = Some 10 /\
  run (breed ex_io ex_exp ex_model0 tt (ex_popn ex_io [4; 5; 6]) (mkBreeding f1 f1 (Tournament 1))) [0; 0; 2; 0]%N = Some 6.
Proof. vm_compute; auto. Qed.

(** C53: breed calls crossover only on two different members of a population of
    at least two when the crossover rate is positive, and mutate only when the
    mutation rate is positive: it is enough that the methods are safe there for
    breed never to panic. *)
Theorem C53_calls :
  forall (I : Type) (io : individual_ops I) (fexp : f64 -> f64) (MS : Type) (mdl : model I MS)
    (ms : MS) (p : population I) (b : breeding I) (X Y : I -> Prop),
  selects_members io fexp (parent_selector b) p ->
  (forall a c, In a (individuals p) -> In c (individuals p) -> ieq io c a = false ->
     1 < length (individuals p) -> flt f0 (crossover_rate b) = true -> must (m_crossover mdl ms a c) X) ->
  (forall o, In o (individuals p) \/ X o -> flt f0 (mutation_rate b) = true -> must (m_mutate mdl ms o) X) ->
  (forall o, In o (individuals p) \/ X o -> must (m_improve mdl ms o) X) ->
  (forall o, X o -> must (m_evaluate mdl ms o) Y) ->
  (forall o f, Y o -> is_valid io o = true -> In f (individuals p) -> must (m_can_survive mdl ms o f p) (fun _ => True)) ->
  must (breed io fexp mdl ms p b) (fun x => In x (individuals p) \/ (Y x /\ is_valid io x = true)).
Proof. exact @breed_must. Qed.
Print Assumptions C53_calls.
Example C53_example :
  selects_members ex_io ex_exp Rank (ex_popn ex_io [4; 5; 6]) /\
  must (breed ex_io ex_exp ex_model tt (ex_popn ex_io [4; 5; 6]) (mkBreeding f1 f0 Rank)) (fun x => 4 <= x <= 12).
Proof.
  assert (S : selects_members ex_io ex_exp Rank (ex_popn ex_io [4; 5; 6])).
  { apply must_in_members; [exact Logic.I|discriminate|unfold fits_usize; cbn; unfold usize_max; lia]. }
  split; auto; eapply LRnd.must_mono; [|apply (C53_calls _ ex_io ex_exp _ ex_model tt _ (mkBreeding f1 f0 Rank) (fun x => 4 <= x <= 12) (fun x => 4 <= x <= 12) S)].
  - cbn; intros x [[<-|[<-|[<-|[]]]]|[H _]]; lia.
  - cbn; intros a c Ha Hc _ _ _; intuition subst; lia.
  - intros o _ H; vm_compute in H; discriminate.
  - cbn; intros o [[<-|[<-|[<-|[]]]]|H]; lia.
  - cbn; auto.
  - cbn; auto.
Qed.

(** C54 *)
Theorem C54_extend_population :
  forall (I : Type) (new_random : M I) (l : list I) (size : nat) (Q : I -> Prop), must new_random Q ->
  must (extend_population new_random l size) (fun r => exists news, r = l ++ news /\ length news = size /\ Forall Q news).
Proof. exact @extend_spec. Qed.
Print Assumptions C54_extend_population.
Theorem C54_extend_population_with :
  forall (I : Type) (MS : Type) (mdl : model I MS) (ms : MS) (l : list I) (size : nat) (seed : I) (Q : I -> Prop),
  must (m_mutate mdl ms seed) Q ->
  must (extend_population_with mdl ms l size seed) (fun r =>
    (size = 0 -> r = l) /\
    (size <> 0 -> exists news, r = l ++ seed :: news /\ length news = size - 1 /\ Forall Q news)).
Proof. exact @extend_with_spec. Qed.
Print Assumptions C54_extend_population_with.
Example C54_example : extend_population_with ex_model tt [] 3 7 = Ret [7; 8; 8].
Proof. reflexivity. Qed.

(** C74: a mutation happens with probability the rate, rounded up to a multiple
    of 2^-53 (seen through a mutate that panics) ... *)
Theorem C74_rate_probability :
  forall r : f64, is_finite r = true -> (0 <= B2R r <= 1)%R ->
  (B2R r <= prob gen_f64 (fun u => flt u r) < B2R r + bpow radix2 (-53))%R.
Proof. exact rate_prob. Qed.
Print Assumptions C74_rate_probability.
Theorem C74_mutation_frequency :
  forall (I : Type) (io : individual_ops I) (fexp : f64 -> f64) (MS : Type) (mdl : model I MS)
    (ms : MS) (p : population I) (b : breeding I),
  selects_members io fexp (parent_selector b) p ->
  (forall o, must (m_improve mdl ms o) (fun _ => True)) /\
  (forall o, must (m_evaluate mdl ms o) (fun _ => True)) /\
  (forall o f, must (m_can_survive mdl ms o f p) (fun _ => True)) ->
  (forall a c, must (m_crossover mdl ms a c) (fun _ => True)) ->
  (forall o, m_mutate mdl ms o = Fail Panic) ->
  prob (breed io fexp mdl ms p b) (fun _ => true) = (1 - prob gen_f64 (fun u => flt u (mutation_rate b)))%R.
Proof. exact @mutation_frequency. Qed.
Print Assumptions C74_mutation_frequency.
(** ... and a crossover with its rate times the probability that a distinct
    second parent is found in three tries. *)
Theorem C74_crossover_frequency :
  forall (I : Type) (io : individual_ops I) (fexp : f64 -> f64) (MS : Type) (mdl : model I MS)
    (ms : MS) (p : population I) (b : breeding I),
  match parent_selector b with Custom _ _ _ _ => False | _ => True end ->
  selects_members io fexp (parent_selector b) p -> 1 < length (individuals p) ->
  (forall o, must (m_improve mdl ms o) (fun _ => True)) /\
  (forall o, must (m_evaluate mdl ms o) (fun _ => True)) /\
  (forall o f, must (m_can_survive mdl ms o f p) (fun _ => True)) ->
  (forall a c, m_crossover mdl ms a c = Fail Panic) ->
  (forall o, must (m_mutate mdl ms o) (fun _ => True)) ->
  prob (breed io fexp mdl ms p b) (fun _ => true) =
  (1 - prob gen_f64 (fun u => flt u (crossover_rate b))
   * (1 - prob (r <- select io fexp (parent_selector b) p ;; select_distinct io fexp (parent_selector b) p 3 (snd r))
            (fun o => match o with None => true | Some _ => false end)))%R.
Proof. exact @crossover_frequency. Qed.
Print Assumptions C74_crossover_frequency.
Example C74_example : (B2R (f_lit 1 2) <= prob gen_f64 (fun u => flt u (f_lit 1 2)))%R.
Proof.
  apply C74_rate_probability; [reflexivity|].
  replace (B2R (f_lit 1 2)) with (/2)%R; [lra|]; vm_compute; lra.
Qed.
Example C74_example2 :
  (prob (breed ex_io ex_exp ex_model_pm tt (ex_popn ex_io [4; 5; 6]%nat) (mkBreeding f1 (f_lit 1 2) Rank)) (fun _ => true) <= / 2)%R.
Proof.
  rewrite C74_mutation_frequency.
  - pose proof C74_example as H; replace (B2R (f_lit 1 2)) with (/2)%R in H by (vm_compute; lra).
    cbn [mutation_rate]; lra.
  - apply must_in_members; [exact Logic.I|discriminate|unfold fits_usize; cbn; unfold usize_max; lia].
  - cbn; auto.
  - cbn; auto.
  - cbn; auto.
Qed.
