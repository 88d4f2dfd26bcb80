(** * Properties_Population: theorems about src/population.rs and
    src/individual.rs (C46-C51, C73, C99). *)
From Coq Require Import List Bool Arith NArith ZArith Reals Lia Permutation.
From Flocq Require Import Core BinarySingleNaN.
From Verif Require Import Rnd F64 MStats MPopulation SpecF ExF PPopulation PRound.
Import ListNotations.

(** C46: construction and replacement, for every order the sort may produce. *)
Theorem C46_new :
  forall (I : Type) (io : individual_ops I) (l : list I),
  (l = [] -> must_fail (population_new io l) Panic) /\
  (l <> [] -> must (population_new io l) (fun p =>
     generation p = 0 /\ stagnation p = 0 /\
     individuals p <> [] /\ same_individuals io l (individuals p) /\ length (individuals p) <= length l /\
     pop_stats p = stats_of io (individuals p) /\
     (no_nan io l -> well_formed io p))).
Proof. exact @c46_new. Qed.
Print Assumptions C46_new.
Theorem C46_replace :
  forall (I : Type) (io : individual_ops I) (p : population I) (l : list I),
  (l = [] -> must_fail (population_replace io p l) Panic) /\
  (l <> [] -> must (population_replace io p l) (fun '(q, _) =>
     individuals q <> [] /\ same_individuals io l (individuals q) /\ length (individuals q) <= length l /\
     pop_stats q = stats_of io (individuals q) /\
     (no_nan io l -> well_formed io q))).
Proof. exact @c46_replace. Qed.
Print Assumptions C46_replace.
Theorem C46_try_from :
  forall (I : Type) (io : individual_ops I) (l : list I),
  (l = [] -> population_try_from io l = Ret (inr [])) /\
  (l <> [] -> must (population_try_from io l) (fun o => exists p, o = inl p /\ built_from io l p)).
Proof. exact @c46_try_from. Qed.
Print Assumptions C46_try_from.
Example C46_example : match run (population_new ex_io [3; 1; 3; 2]) [0%N] with
  | Some p => individuals p = [1; 2; 3] | _ => False end.
Proof. vm_compute; reflexivity. Qed.

(** C47: neighbours differ; the whole population is unique when fitness decides
    equality, and not in general. *)
Theorem C47_no_adjacent_duplicates :
  forall (I : Type) (io : individual_ops I) (l : list I) (p : population I),
  built_from io l p -> no_adjacent_equal io (individuals p).
Proof. exact @c47_adjacent. Qed.
Print Assumptions C47_no_adjacent_duplicates.
Theorem C47_unique_when_fitness_decides :
  forall (I : Type) (io : individual_ops I) (l : list I) (p : population I),
  built_from io l p -> no_nan io l ->
  (forall x y, In x l -> In y l -> (ieq io x y = true <-> feq (fitness io x) (fitness io y) = true)) ->
  forall i j x y, i < j -> nth_error (individuals p) i = Some x -> nth_error (individuals p) j = Some y ->
  ieq io y x = false.
Proof. exact @c47_unique. Qed.
Print Assumptions C47_unique_when_fitness_decides.
Theorem C47_unique_refuted :
  exists (l : list (nat * nat)) (p : population (nat * nat)),
  may (population_new ex_io2 l) p /\
  exists i j x y, i < j /\ nth_error (individuals p) i = Some x /\ nth_error (individuals p) j = Some y /\
    ieq ex_io2 y x = true.
Proof. exact unique_refuted. Qed.
Print Assumptions C47_unique_refuted.
Example C47_example : built_from ex_iof [f2; f1; f2] (ex_popn ex_iof [f1; f2]) /\ no_nan ex_iof [f2; f1; f2].
Proof.
  assert (N : no_nan ex_iof [f2; f1; f2]) by (intros x [<-|[<-|[<-|[]]]]; reflexivity).
  split; auto; left; apply new_may; [discriminate|]; exists [f1; f2; f2]; split; [apply perm_swap|]; split; [|reflexivity].
  intros _; apply ksorted_sorted; [intros x Hx; apply N; cbn [In] in *; tauto|].
  apply sortedb_ksorted; [intros x Hx; apply N; cbn [In] in *; tauto|vm_compute; reflexivity].
Qed.

(** C48: fittest never panics, whatever the fitness values, and is a maximum. *)
Theorem C48_fittest :
  forall (I : Type) (io : individual_ops I) (l : list I) (p : population I), built_from io l p ->
  exists x, fittest p = Ret x /\ take_fittest p = Ret x /\ In x (individuals p) /\
    (no_nan io l -> fitness io x = ps_max (pop_stats p) /\
       forall y, In y (individuals p) -> fle (fitness io y) (fitness io x) = true).
Proof. exact @c48. Qed.
Print Assumptions C48_fittest.
Example C48_example : fittest (ex_popn ex_io [1; 2; 3]) = Ret 3 /\ take_fittest (ex_popn ex_io [1; 2; 3]) = Ret 3.
Proof. vm_compute; auto. Qed.

(** C49: the counters, for one replace and for any history of replaces. *)
Theorem C49_step :
  forall (I : Type) (io : individual_ops I) (p : population I) (l : list I), l <> [] ->
  must (population_replace io p l) (fun '(q, _) =>
    generation q = generation p + 1 /\
    stagnation q = (if fgt (ps_max (pop_stats q)) (ps_max (pop_stats p)) then 0 else stagnation p + 1)).
Proof. exact @c49_step. Qed.
Print Assumptions C49_step.
Theorem C49_history :
  forall (I : Type) (io : individual_ops I) (p : population I) (vs : list (list I)),
  (forall v, In v vs -> v <> []) ->
  must (replaces io p vs) (fun tr =>
    length tr = S (length vs) /\
    forall k q, nth_error tr k = Some q ->
      generation q = generation p + k /\
      exists j, j <= k /\ (forall i, j < i <= k -> ~ improved tr i) /\
        ((j = 0 /\ stagnation q = stagnation p + k) \/ (1 <= j /\ improved tr j /\ stagnation q = k - j))).
Proof. exact @history. Qed.
Print Assumptions C49_history.
Example C49_example :
  match run (replaces ex_io (ex_popn ex_io [1]) [[2; 1]; [2]; [1]; [3]]) (repeat 0%N 4) with
  | Some tr => map stagnation tr = [0; 0; 1; 2; 0] /\ map generation tr = [0; 1; 2; 3; 4] | _ => False end.
Proof. vm_compute; auto. Qed.

(** C50: the old individuals come back; a caught panic leaves no individuals,
    stale statistics and counters, and a population whose fittest() panics. *)
Theorem C50_old_returned :
  forall (I : Type) (io : individual_ops I) (p : population I) (l : list I), l <> [] ->
  must (population_replace io p l) (fun '(_, old) => old = individuals p).
Proof. exact @c50_old. Qed.
Print Assumptions C50_old_returned.
Theorem C50_catch_is_replace :
  forall (I : Type) (io : individual_ops I) (p : population I) (l : list I) r,
  (may (population_replace io p l) r <-> may (population_replace_catch io p l) (inl r)) /\
  (may_fail (population_replace io p l) Panic <-> exists s, may (population_replace_catch io p l) (inr s)).
Proof. exact @replace_catch_relates. Qed.
Print Assumptions C50_catch_is_replace.
Theorem C50_caught_panic :
  forall (I : Type) (io : individual_ops I) (p : population I),
  must (population_replace_catch io p []) (fun o => exists q, o = inr (q, individuals p) /\
    individuals q = [] /\ generation q = generation p /\ stagnation q = stagnation p /\ pop_stats q = pop_stats p /\
    fittest q = Fail Panic /\ take_fittest q = Fail Panic).
Proof. exact @replace_panic_state. Qed.
Print Assumptions C50_caught_panic.
Example C50_example : match run (population_replace ex_io (ex_popn ex_io [1; 4]) [2]) [0%N] with
  | Some (q, old) => individuals q = [2] /\ old = [1; 4] | _ => False end.
Proof. vm_compute; auto. Qed.

(** C51: a total preorder without NaN; not transitive, and an equality that is
    not reflexive, with it. *)
Theorem C51_total_preorder :
  forall (I : Type) (io : individual_ops I) (x y z : I),
  f_is_nan (fitness io x) = false -> f_is_nan (fitness io y) = false -> f_is_nan (fitness io z) = false ->
  compare_fitness io x x = Eq /\
  compare_fitness io y x = CompOpp (compare_fitness io x y) /\
  (compare_fitness io x y <> Gt -> compare_fitness io y z <> Gt -> compare_fitness io x z <> Gt) /\
  (compare_fitness io x y = Lt <-> flt (fitness io x) (fitness io y) = true) /\
  (compare_fitness io x y = Eq <-> wrapper_eq io (wrapper_from x) (wrapper_from y) = true) /\
  wrapper_partial_cmp io (wrapper_from x) (wrapper_from y) = Some (compare_fitness io x y).
Proof. exact @c51_order. Qed.
Print Assumptions C51_total_preorder.
Theorem C51_wrapper_agrees :
  forall (I : Type) (io : individual_ops I) (x y : I),
  wrapper_cmp io (wrapper_from x) (wrapper_from y) = compare_fitness io x y /\ wrapper_take (wrapper_from x) = x.
Proof. exact @wrapper_agrees. Qed.
Print Assumptions C51_wrapper_agrees.
Theorem C51_nan :
  forall (I : Type) (io : individual_ops I) (x y : I), f_is_nan (fitness io x) = true ->
  compare_fitness io x y = Eq /\ compare_fitness io y x = Eq /\
  wrapper_eq io (wrapper_from x) (wrapper_from x) = false /\ wrapper_cmp io (wrapper_from x) (wrapper_from x) = Eq /\
  wrapper_partial_cmp io (wrapper_from x) (wrapper_from y) = None.
Proof. exact @nan_order. Qed.
Print Assumptions C51_nan.
Theorem C51_transitive_refuted :
  exists x y z : f64, compare_fitness ex_iof x y = Eq /\ compare_fitness ex_iof y z = Eq /\ compare_fitness ex_iof x z = Gt.
Proof. exact (ex_intro _ f2 (ex_intro _ f_nan (ex_intro _ f1 order_not_transitive))). Qed.
Print Assumptions C51_transitive_refuted.
Example C51_example : compare_fitness ex_io 1 2 = Lt /\ compare_fitness ex_iof f_inf f_nan = Eq.
Proof. vm_compute; auto. Qed.

(** C73: the best individual survives construction when equal individuals are
    equally fit; otherwise it may be dropped as a duplicate of a worse one. *)
Theorem C73_best_survives :
  forall (I : Type) (io : individual_ops I) (l : list I) (p : population I) (x : I),
  built_from io l p -> no_nan io l ->
  (forall a b, In a l -> In b l -> ieq io a b = true -> feq (fitness io a) (fitness io b) = true) ->
  fittest p = Ret x -> In x l /\ forall y, In y l -> fle (fitness io y) (fitness io x) = true.
Proof. exact @c73_best. Qed.
Print Assumptions C73_best_survives.
Theorem C73_best_survives_refuted :
  exists (l : list (nat * nat)) (p : population (nat * nat)) x y,
  built_from ex_io3 l p /\ fittest p = Ret x /\ In y l /\ flt (fitness ex_io3 x) (fitness ex_io3 y) = true.
Proof. exact best_lost. Qed.
Print Assumptions C73_best_survives_refuted.
Example C73_example : forall a b, In a [3; 1; 3] -> In b [3; 1; 3] -> ieq ex_io a b = true ->
  feq (fitness ex_io a) (fitness ex_io b) = true.
Proof. intros a b Ha _ E; apply Nat.eqb_eq in E as <-; cbn in Ha; destruct Ha as [<-|[<-|[<-|[]]]]; vm_compute; reflexivity. Qed.

(** C99: a population turned into a vector, and back. *)
Theorem C99_into :
  forall (I : Type) (io : individual_ops I) (l : list I) (p : population I),
  built_from io l p ->
  population_into p <> [] /\ same_individuals io l (population_into p) /\
  (no_nan io l -> sorted_by_fitness io (population_into p) /\
     exists x, nth_error (population_into p) (length (population_into p) - 1) = Some x /\
       forall y, In y (population_into p) -> fle (fitness io y) (fitness io x) = true).
Proof. exact @into_spec. Qed.
Print Assumptions C99_into.
Theorem C99_round_trip :
  forall (I : Type) (io : individual_ops I) (l : list I) (p : population I),
  built_from io l p -> no_nan io l ->
  (forall i j x y, i < j -> nth_error (individuals p) i = Some x -> nth_error (individuals p) j = Some y ->
     feq (fitness io x) (fitness io y) = false) ->
  must (population_try_from io (population_into p)) (fun o => exists q, o = inl q /\
    individuals q = individuals p /\ pop_stats q = pop_stats p /\ generation q = 0 /\ stagnation q = 0).
Proof. exact @round_trip. Qed.
Print Assumptions C99_round_trip.
Theorem C99_round_trip_refuted :
  exists (l : list (nat * nat)) (p q : population (nat * nat)),
  may (population_new ex_io2 l) p /\ may (population_try_from ex_io2 (population_into p)) (inl q) /\
  length (individuals q) < length (individuals p).
Proof. exact round_trip_shrinks. Qed.
Print Assumptions C99_round_trip_refuted.
Example C99_example : match run (population_new ex_io [3; 1; 3; 2]) [0%N] with
  | Some p => population_into p = [1; 2; 3] /\
      match run (population_try_from ex_io (population_into p)) [0%N] with
      | Some (inl q) => individuals q = [1; 2; 3] | _ => False end
  | _ => False end.
Proof. vm_compute; auto. Qed.
