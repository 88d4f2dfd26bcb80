(** * PCrossoverAll: SPX, length checks and CrossoverStrategy::crossover. *)
From Coq Require Import List Bool Arith NArith Lia Permutation.
From Verif Require Import Rnd LRnd MOperators MCrossover Spec POperatorsRandom POperatorsNeighbors LGenes
  PCrossoverGpx PCrossoverScx PCrossoverErx PCrossoverPmx PCrossoverOx PCrossoverCx.
Import ListNotations.

Lemma spx_spec {G} (p1 p2 : list G) point :
  length p1 = length p2 ->
  must (single_point_crossover p1 p2 point) (fun r => r = firstn point p1 ++ skipn point p2).
Proof.
  intros Hl; unfold single_point_crossover; rewrite Hl, Nat.eqb_refl; cbn [massert bind].
  destruct (Nat.ltb_spec point (length p2)) as [H|H].
  - rewrite slice_ok by lia; cbn [bind].
    rewrite copy_range_ok; [|lia|lia|rewrite firstn_length_le; auto; rewrite skipn_length; lia].
    cbn; rewrite (firstn_all2 (skipn point p2)) by (rewrite skipn_length; auto).
    rewrite (skipn_all2 p1) by lia; rewrite app_nil_r; auto.
  - cbn; rewrite firstn_all2, skipn_all2 by lia; rewrite app_nil_r; auto.
Qed.

Lemma spx_same {G} (p : list G) point : must (single_point_crossover p p point) (fun r => r = p).
Proof. eapply must_mono; [|apply spx_spec; auto]; cbn; intros r ->; apply firstn_skipn. Qed.

Section Mismatch.
Context {G : Type} (eqb : G -> G -> bool) (p1 p2 : list G).
Hypothesis Hne : length p1 <> length p2.

Lemma mismatch : (length p1 =? length p2) = false.
Proof. apply Nat.eqb_neq; auto. Qed.

Lemma mismatch_all :
  (forall pivot, must_fail (sequential_constructive_crossover eqb p1 p2 pivot) Panic) /\
  (forall pivot, must_fail (edge_recombination_crossover eqb p1 p2 pivot) Panic) /\
  (forall fuel range, must_fail (partially_mapped_crossover eqb fuel p1 p2 range) Panic) /\
  (forall fuel range, must_fail (order_crossover eqb fuel p1 p2 range) Panic) /\
  must_fail (cycle_crossover eqb p1 p2) Panic /\
  (forall point, must_fail (single_point_crossover p1 p2 point) Panic).
Proof.
  unfold sequential_constructive_crossover, edge_recombination_crossover, partially_mapped_crossover,
    order_crossover, cycle_crossover, single_point_crossover; rewrite mismatch; cbn; auto 10.
Qed.
End Mismatch.

Lemma must_choose {A} (l : list A) (P : option A -> Prop) :
  l <> [] -> (forall x, In x l -> P (Some x)) -> must (choose l) P.
Proof.
  intros Hl H; unfold choose; destruct l as [|h t] eqn:E; [congruence|]; rewrite <- E in *.
  apply must_bind; apply must_gen_range; split; [rewrite E; cbn; lia|].
  intros i Hi; destruct (nth_error_lt l i) as [x Hx]; [lia|].
  rewrite (idx_some _ _ _ Hx); cbn; apply H; eapply nth_error_In; eauto.
Qed.

Section Strategy.
Context {G : Type} (eqb ltb : G -> G -> bool).
Hypothesis Heq : eq_ok eqb.

Lemma gpx2_selector_ok :
  forall (s : unit) (o : option G) (ps : list (list G)), ps <> [] ->
  must (i <- gen_range 0 (length ps) ;; Ret (i, tt)) (fun r => fst r < length ps).
Proof.
  intros s o ps Hps; apply must_bind, must_gen_range; split; [destruct ps; cbn; [congruence|lia]|].
  intros i Hi; cbn; lia.
Qed.

Lemma crossover_perm fuel s (p1 p2 : list G) :
  NoDup p1 -> Permutation p1 p2 -> p1 <> [] -> length p1 < fuel -> s <> SinglePoint ->
  must (crossover eqb ltb fuel s p1 p2) (fun r => Permutation p1 r).
Proof.
  intros Hnd HP Hne Hf Hs.
  assert (Hpos : 1 <= length p1) by (destruct p1; cbn; [congruence|lia]).
  assert (Hl : length p1 = length p2) by (apply Permutation_length; auto).
  destruct s; cbn [crossover]; [| | | | | |congruence].
  - apply gpx2_perm; auto; exact gpx2_selector_ok.
  - apply must_bind, must_choose; auto; intros x Hx; cbn.
    eapply must_mono; [|apply scx_spec; eauto]; cbn; tauto.
  - apply must_bind, must_choose; auto; intros x Hx; cbn.
    eapply must_mono; [|apply erx_spec; eauto]; cbn; tauto.
  - apply must_bind; eapply must_mono; [|apply random_range_must; auto].
    intros [a b] H; cbn in H; eapply must_mono; [|apply pmx_spec; eauto; lia]; cbn; tauto.
  - apply must_bind; eapply must_mono; [|apply random_range_must; auto].
    intros [a b] H; cbn in H; eapply must_mono; [|apply ox_spec; eauto; lia]; cbn; tauto.
  - eapply must_mono; [|apply cx_spec; eauto]; cbn; tauto.
Qed.

Lemma crossover_spx fuel (p1 p2 : list G) :
  length p1 = length p2 -> p1 <> [] ->
  must (crossover eqb ltb fuel SinglePoint p1 p2) (fun r =>
    exists point, point < length p1 /\ r = firstn point p1 ++ skipn point p2).
Proof.
  intros Hl Hne; cbn [crossover]; apply must_bind, must_gen_range; split; [destruct p1; cbn; [congruence|lia]|].
  intros i Hi; eapply must_mono; [|apply spx_spec; auto]; cbn; intros r ->; exists i; split; auto; lia.
Qed.

Lemma crossover_spx_reach fuel (p1 p2 : list G) point :
  length p1 = length p2 -> point < length p1 ->
  may (crossover eqb ltb fuel SinglePoint p1 p2) (firstn point p1 ++ skipn point p2).
Proof.
  intros Hl Hp; cbn [crossover]; apply may_bind; exists point; split; [apply may_gen_range; lia|].
  destruct (must_exists _ _ (spx_spec p1 p2 point Hl)) as (r & Hr).
  pose proof (must_may _ _ _ (spx_spec p1 p2 point Hl) Hr) as E; cbn in E; subst; auto.
Qed.

Lemma crossover_empty fuel s :
  match s with
  | GeneralizedPartition2 | Cycle => must (crossover eqb ltb fuel s [] []) (fun r => r = [])
  | _ => must_fail (crossover eqb ltb fuel s [] []) Panic
  end.
Proof. destruct s; reflexivity. Qed.

End Strategy.

(** ** The exact statements of Properties_Crossover.v *)
From Verif Require Import DocExamples.

Lemma doc_parents_perm : eq_ok Nat.eqb /\ perm_parents parent1 parent2 /\ 2 <= length parent1.
Proof.
  split; [exact Nat.eqb_eq|]; split; [split|cbn; lia].
  - unfold parent1; repeat constructor; cbn; intuition discriminate.
  - apply NoDup_Permutation_bis.
    + unfold parent1; repeat constructor; cbn; intuition discriminate.
    + cbn; lia.
    + intros x; cbn; intuition.
Qed.

Lemma gpx2_mismatch_witness :
  exists p1 p2 : list nat, length p1 <> length p2 /\
  forall fuel, must (crossover Nat.eqb Nat.ltb fuel GeneralizedPartition2 p1 p2) (fun r => Permutation p1 r).
Proof.
  exists [1; 2; 3; 4], [1; 2; 3]; split; [discriminate|].
  intros fuel; cbn [crossover]; apply gpx2_perm; [exact Nat.eqb_eq|exact gpx2_selector_ok|].
  repeat constructor; cbn; intuition discriminate.
Qed.

Lemma pmx_diverges_witness :
  exists (p1 p2 : list nat) (a b : nat), length p1 = length p2 /\ a <= b <= length p1 /\
  forall fuel, must_fail (partially_mapped_crossover Nat.eqb fuel p1 p2 (a, b)) NoFuel.
Proof. exists [0; 1], [0; 0], 0, 1; split; auto; split; [cbn; lia|exact pmx_diverges]. Qed.

Lemma ox_diverges_witness :
  exists (p1 p2 : list nat) (a b : nat), length p1 = length p2 /\ a < b <= length p1 /\
  forall fuel, must_fail (order_crossover Nat.eqb fuel p1 p2 (a, b)) NoFuel.
Proof. exists [0; 1], [0; 0], 0, 1; split; auto; split; [cbn; lia|exact ox_diverges]. Qed.

Lemma ox_empty_witness :
  exists (p1 p2 : list nat) (a b : nat), perm_parents p1 p2 /\ a <= b <= length p1 /\
  must (order_crossover Nat.eqb 100 p1 p2 (a, b)) (fun r => ~ Permutation p1 r).
Proof.
  exists [0; 1; 2], [0; 1; 2], 1, 1; split; [split; auto; repeat constructor; cbn; intuition discriminate|].
  split; [cbn; lia|].
  eapply must_mono; [|apply ox_empty_range with (g0 := 0); cbn; auto; lia].
  intros r -> HP; assert (H : In 1 [0; 0; 0]) by (eapply Permutation_in; eauto; cbn; auto).
  cbn in H; intuition discriminate.
Qed.

Section Statements.
Context {G : Type} (eqb : G -> G -> bool) (p1 p2 : list G).

Lemma scx_perm pivot : eq_ok eqb -> perm_parents p1 p2 -> In pivot p1 ->
  must (sequential_constructive_crossover eqb p1 p2 pivot)
    (fun r => Permutation p1 r /\ hd_error r = Some pivot).
Proof. intros He [Hn HP] Hp; eapply must_mono; [|apply scx_spec; eauto]; cbn; tauto. Qed.

Lemma scx_rule_all pivot : eq_ok eqb -> perm_parents p1 p2 -> In pivot p1 ->
  must (sequential_constructive_crossover eqb p1 p2 pivot) (fun r =>
    forall i c x, nth_error r i = Some c -> nth_error r (S i) = Some x ->
      scx_rule p1 p2 (firstn (S i) r) c x).
Proof. intros He [Hn HP] Hp; eapply must_mono; [|apply scx_spec; eauto]; cbn; tauto. Qed.

Lemma erx_perm pivot : eq_ok eqb -> perm_parents p1 p2 -> In pivot p1 ->
  must (edge_recombination_crossover eqb p1 p2 pivot)
    (fun r => Permutation p1 r /\ hd_error r = Some pivot).
Proof. intros He [Hn HP] Hp; eapply must_mono; [|apply erx_spec; eauto]; cbn; tauto. Qed.

Lemma erx_rule_all pivot : eq_ok eqb -> perm_parents p1 p2 -> In pivot p1 ->
  must (edge_recombination_crossover eqb p1 p2 pivot) (fun r =>
    forall i c x, nth_error r i = Some c -> nth_error r (S i) = Some x ->
      erx_rule p1 p2 (firstn (S i) r) c x).
Proof. intros He [Hn HP] Hp; eapply must_mono; [|apply erx_spec; eauto]; cbn; tauto. Qed.

Lemma pmx_offspring fuel a b :
  eq_ok eqb -> perm_parents p1 p2 -> a <= b -> b <= length p1 -> b - a < fuel ->
  must (partially_mapped_crossover eqb fuel p1 p2 (a, b)) (fun r =>
    Permutation p1 r /\
    (forall i, a <= i < b -> nth_error r i = nth_error p1 i) /\
    (forall i g, ~ (a <= i < b) -> nth_error p2 i = Some g ->
       exists x, nth_error r i = Some x /\ pmx_maps (segment p1 a b) (segment p2 a b) g x) /\
    (forall i g, ~ (a <= i < b) -> nth_error p2 i = Some g -> ~ In g (segment p1 a b) ->
       nth_error r i = Some g)).
Proof.
  intros He [Hn HP] H1 H2 H3; eapply must_mono; [|apply pmx_spec; eauto].
  intros r (Hr & Hl & Hin & Hout); split; auto; split; auto; split; auto.
  intros i g Hi Hg Hs; destruct (Hout i g Hi Hg) as (x & Hx & Hm).
  inversion Hm; subst; auto; exfalso; apply Hs; eapply nth_error_In; eauto.
Qed.

Lemma pmx_terminates a b :
  eq_ok eqb -> perm_parents p1 p2 -> a <= b -> b <= length p1 ->
  must (partially_mapped_crossover eqb (S (b - a)) p1 p2 (a, b)) (fun _ => True).
Proof. intros He [Hn HP] H1 H2; eapply must_mono; [|apply pmx_spec; eauto]; auto. Qed.

Lemma ox_offspring fuel a b :
  eq_ok eqb -> perm_parents p1 p2 -> a < b -> b <= length p1 -> length p1 < fuel ->
  must (order_crossover eqb fuel p1 p2 (a, b)) (fun r =>
    Permutation p1 r /\
    (forall i, a <= i < b -> nth_error r i = nth_error p1 i) /\
    forall keep : G -> bool, (forall g, keep g = true <-> ~ In g (segment p1 a b)) ->
      rotated r b = filter keep (rotated p2 b) ++ segment p1 a b).
Proof. intros He [Hn HP] H1 H2 H3; apply ox_spec; auto. Qed.

Lemma cx_offspring : eq_ok eqb -> perm_parents p1 p2 ->
  must (cycle_crossover eqb p1 p2) (fun r =>
    Permutation p1 r /\
    exists from1 : nat -> bool,
      (forall i, i < length p1 -> nth_error r i = nth_error (if from1 i then p1 else p2) i) /\
      from1 0 = true /\
      (forall i j, cx_link p1 p2 i j -> from1 i = from1 j) /\
      (forall i j, cx_leader p1 p2 i -> cx_leader p1 p2 j -> i < j ->
         (forall k, i < k < j -> ~ cx_leader p1 p2 k) -> from1 j = negb (from1 i))).
Proof.
  intros He [Hn HP]; eapply must_mono; [|apply cx_spec; eauto].
  intros r (H & ch & Hl & Hr); split; auto; exists ch; auto.
Qed.

Lemma same_parents (p : list G) fuel a b point :
  eq_ok eqb -> NoDup p -> a < b -> b <= length p -> length p < fuel ->
  must (partially_mapped_crossover eqb fuel p p (a, b)) (fun r => r = p) /\
  must (order_crossover eqb fuel p p (a, b)) (fun r => r = p) /\
  must (cycle_crossover eqb p p) (fun r => r = p) /\
  must (single_point_crossover p p point) (fun r => r = p).
Proof.
  intros He Hn H1 H2 H3; split; [apply pmx_same; auto; lia|]; split; [apply ox_same; auto|].
  split; [apply cx_same; auto|apply spx_same].
Qed.
End Statements.
