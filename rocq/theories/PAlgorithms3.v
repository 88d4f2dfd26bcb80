(** * PAlgorithms3: the claims C55-C58 and C61 in their final form. *)
From Coq Require Import List Bool Arith NArith ZArith Reals Lia Lra Permutation.
From Flocq Require Import Core BinarySingleNaN.
From Verif Require Import Rnd LRnd F64 LF64 MStats MPopulation MSelection MModel MAlgorithms SpecF SpecA ExF ExM
  PSelection PPopulation PModel PInterp PAlgorithms PAlgorithms2.
Import ListNotations.
Local Open Scope nat_scope.

Lemma interpolate_count (n : nat) (ratio : f64) : n <> 0 -> fits_usize n -> proper_ratio ratio ->
  exists k, interpolate_usize 0 n ratio = Ret k /\ elite_count n ratio k.
Proof.
  intros Hn Hf Hr; exists (elitist_bound n ratio); split; [apply interpolate_is_bound; auto; apply ratio_spec; auto|apply elite_count_bound; auto].
Qed.

Lemma interpolate_unit a b t : rate a -> rate b -> rate t ->
  rate (interpolate_f64 a b t) /\
  ((B2R a <= B2R b)%R -> (B2R a <= B2R (interpolate_f64 a b t) <= B2R b + bpow radix2 (-53))%R) /\
  ((B2R b <= B2R a)%R -> (B2R (interpolate_f64 a b t) <= B2R a)%R) /\
  (B2R t = 0%R -> B2R (interpolate_f64 a b t) = B2R a).
Proof.
  intros Ha Hb Ht; destruct (point_rate a b t Ha Hb Ht) as (A & B & C); repeat (split; [exact A || exact B|]); split; [|exact C].
  destruct Ha as [Fa Ha], Hb as [Fb Hb], Ht as [Ft Ht]; apply (interp_bounds a b Fa Fb Ha Hb t Ft Ht).
Qed.

Lemma interpolate_monotone a b t t' : rate a -> rate b -> rate t -> rate t' -> (B2R t <= B2R t')%R ->
  ((B2R a <= B2R b)%R -> (B2R (interpolate_f64 a b t) <= B2R (interpolate_f64 a b t'))%R) /\
  ((B2R b <= B2R a)%R -> (B2R (interpolate_f64 a b t') <= B2R (interpolate_f64 a b t))%R).
Proof.
  intros [Fa Ha] [Fb Hb] [Ft Ht] [Ft' Ht'] Hle; apply (interp_mono a b Fa Fb Ha Hb t t' Ft Ft'); auto; apply Ht || apply Ht'.
Qed.

Lemma interpolate_exceeds : exists a b : f64, rate a /\ rate b /\ fle a b = true /\ flt b (interpolate_f64 a b f1) = true.
Proof. destruct interp_exceeds as (a & b & A & B & C & D); exists a, b; repeat split; auto; apply rate_spec; auto. Qed.

Lemma ga_configure_spec I MS (s : ga_state I MS) (q : ga_params) : fits_usize (ga_population_size q) ->
  (ga_accepted q -> exists e sel, elite_count (ga_population_size q) (ga_elitism_rate q) e /\
     create_selector (ga_selection_strategy q) = Ret sel /\
     ga_configure s q = Ret (mkGa (ga_model s) (ga_population_size q) e
       (mkBreeding (ga_crossover_rate q) (ga_mutation_rate q) sel))) /\
  (~ ga_accepted q -> ga_configure s q = Fail Panic).
Proof. intros Hf; split; [apply ga_configure_ok; auto|apply ga_configure_panics; auto]. Qed.

Lemma aga_configure_spec I MS (s : aga_state I MS) (q : aga_params) : fits_usize (aga_population_size q) ->
  (aga_accepted q -> exists e sel, elite_count (aga_population_size q) (aga_elitism_rate q) e /\
     create_selector (aga_selection_strategy q) = Ret sel /\
     aga_configure s q = Ret (mkAga (aga_model s) (aga_population_size q) e (aga_parameter_adjustment_interval q)
       (aga_crossover_rate_range q) (aga_mutation_rate_range q)
       (mkBreeding (crossover_rate (aga_breeding s)) (mutation_rate (aga_breeding s)) sel) (aga_reference_std s))) /\
  (~ aga_accepted q -> aga_configure s q = Fail Panic).
Proof. intros Hf; split; [apply aga_configure_ok; auto|apply aga_configure_panics; auto]. Qed.

Lemma defaults_accepted : ga_accepted ga_params_default /\ aga_accepted aga_params_default.
Proof.
  unfold ga_accepted, aga_accepted; cbn [ga_params_default aga_params_default ga_population_size ga_elitism_rate ga_crossover_rate ga_mutation_rate ga_selection_strategy
    aga_population_size aga_elitism_rate aga_crossover_rate_range aga_mutation_rate_range aga_selection_strategy fst snd strategy_accepted].
  rewrite <- !rate_spec, <- !ratio_spec; vm_compute; repeat split; auto; discriminate.
Qed.

Lemma select_top_best I (io : individual_ops I) e p (acc : list I) : sorted_by_fitness io (individuals p) ->
  exists rest top, individuals p = rest ++ top /\ length top = Nat.min e (length (individuals p)) /\
    select_top e p acc = Ret (acc ++ top) /\
    forall x y, In x top -> In y rest -> fle (fitness io y) (fitness io x) = true.
Proof.
  intros Hs; destruct (select_top_spec e p acc) as (rest & top & A & B & C); exists rest, top; repeat split; auto.
  eapply top_are_best; eauto.
Qed.

Lemma default_elites_best I (io : individual_ops I) p (acc : list I) : well_formed io p ->
  exists x, default_select_elites p acc = Ret (acc ++ [x]) /\ In x (individuals p) /\
    forall y, In y (individuals p) -> fle (fitness io y) (fitness io x) = true.
Proof.
  intros Hw; destruct (fittest_max io p Hw) as (x & A & _ & B & _ & C); exists x; unfold default_select_elites; rewrite A; cbn; auto.
Qed.

Lemma generate_result I io fexp MS (mdl : model I MS) ms b size p (acc r : list I) :
  may (generate_new_population io fexp mdl ms (b, size) p acc) r ->
  exists news, r = acc ++ news /\
    length news = (if size - length acc =? 1 then 0 else size - length acc) /\
    forall x, In x news -> may (breed io fexp mdl ms p b) x.
Proof. exact (generate_may io fexp mdl ms b size p acc r). Qed.

Lemma generate_length I io fexp MS (mdl : model I MS) ms b size p (acc : list I) :
  must (breed io fexp mdl ms p b) (fun _ => True) ->
  must (generate_new_population io fexp mdl ms (b, size) p acc) (fun r =>
    length r = if size - length acc =? 1 then length acc else Nat.max (length acc) size).
Proof.
  intros H; eapply must_mono; [|apply (generate_must io fexp mdl ms b size p acc (fun _ => True) H)].
  intros r (news & -> & Hl & _); rewrite app_length, Hl; unfold appended; destruct (Nat.eqb_spec (size - length acc) 1); lia.
Qed.

Lemma fills_refuted :
  exists (p : population nat) (b : breeding nat) (size : nat) (offspring r : list nat),
  length offspring <= size /\
  must (generate_new_population ex_io ex_exp ex_model tt (b, size) p offspring) (fun r' => r' = r) /\
  length r < size.
Proof.
  exists (ex_popn ex_io [4; 5; 6]), (mkBreeding f0 f1 Rank), 3, [5; 6], [5; 6]; split; [cbn; lia|]; split; [|cbn; lia].
  unfold generate_new_population; cbn [length Nat.sub].
  eapply must_bind_intro with (Q := fun _ => True); [|intros; reflexivity].
  eapply must_mono; [|apply (breed_must ex_io ex_exp ex_model tt (ex_popn ex_io [4; 5; 6]) (mkBreeding f0 f1 Rank) (fun _ => True) (fun _ => True))]; [auto| |cbn; auto..].
  apply must_in_members; [exact Logic.I|discriminate|unfold fits_usize; cbn; unfold usize_max; lia].
Qed.

Lemma rate_history I io fexp MS (mdl : model I MS) (s0 s : aga_state I MS) ps p0 :
  rates_left_alone mdl -> prepared io fexp mdl s0 ps s -> nth_error ps 0 = Some p0 ->
  aga_reference_std s = deviation p0 /\
  exists j pj, nth_error ps j = Some pj /\ (j = 0 \/ adjusts (aga_interval s0) j) /\
    (forall i, j < i < length ps -> ~ adjusts (aga_interval s0) i) /\
    crossover_rate (aga_breeding s) = (if j =? 0 then snd (aga_crossover_range s0)
      else point (aga_crossover_range s0) (diversity_of (deviation pj) (deviation p0))) /\
    mutation_rate (aga_breeding s) = (if j =? 0 then fst (aga_mutation_range s0)
      else point (aga_mutation_range s0) (fsub f1 (diversity_of (deviation pj) (deviation p0)))).
Proof. intros Hr Hp H0; apply (prepared_history io fexp mdl s0 ps s Hr Hp); auto. Qed.

Lemma interval_zero I io fexp MS (mdl : model I MS) (s0 s : aga_state I MS) ps :
  rates_left_alone mdl -> prepared io fexp mdl s0 ps s -> ps <> [] -> aga_interval s0 = 0 ->
  crossover_rate (aga_breeding s) = snd (aga_crossover_range s0) /\
  mutation_rate (aga_breeding s) = fst (aga_mutation_range s0).
Proof.
  intros Hr Hp Hne H0; destruct ps as [|p0 ps]; [congruence|].
  destruct (rate_history I io fexp MS mdl s0 s _ p0 Hr Hp eq_refl) as (_ & j & pj & _ & [->|(_ & Hj & _)] & _ & A & B); [auto|congruence].
Qed.
