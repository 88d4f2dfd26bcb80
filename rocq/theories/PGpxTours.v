(** * PGpxTours: GPX2 reads parent2 as a tour (C131). *)
From Coq Require Import List Bool Arith NArith Lia Permutation Reals Factorial.
From Verif Require Import Rnd LRnd MOperators MCrossover Spec SpecC POperatorsNeighbors LGenes Prob PNested PCommon PCrossoverAll PCrossoverLaw PErxExact PTours.
Import ListNotations.

Section Tours.
Context {G : Type} (eqb ltb : G -> G -> bool).
Hypothesis Heq : eq_ok eqb.
Hypothesis Hlt : lt_total ltb.

Lemma neighbor_swap a b : neighbor ltb a b = neighbor ltb b a.
Proof.
  destruct (gene_dec eqb Heq a b) as [->|H]; [auto|]; unfold neighbor; rewrite (Hlt a b H); destruct (ltb b a); reflexivity.
Qed.
Lemma pairs_adj (l : list G) a b : (exists x y, cyc_next l x y /\ neighbor ltb a b = neighbor ltb x y) <-> cyc_adj l a b.
Proof.
  split.
  - intros (x & y & H & E); unfold cyc_adj; destruct (neighbor_cases ltb a b) as [Ea|Ea], (neighbor_cases ltb x y) as [Ex|Ex];
      rewrite Ea, Ex in E; injection E as -> ->; auto.
  - intros [H|H]; [exists a, b|exists b, a]; split; auto; apply neighbor_swap.
Qed.
Lemma common_same (p1 p2 q2 : list G) : length p1 <= length p2 -> length q2 = length p2 ->
  (forall a b, cyc_adj p1 a b -> (cyc_adj p2 a b <-> cyc_adj q2 a b)) ->
  common_neighbors eqb ltb p1 p2 = common_neighbors eqb ltb p1 q2.
Proof.
  intros Hl Hq H; unfold common_neighbors; rewrite Hq.
  destruct ((length p1 <? 2) || (length p2 <=? 2)) eqn:E; [reflexivity|]; apply orb_false_iff in E as [E1 E2].
  apply Nat.ltb_ge in E1; apply Nat.leb_gt in E2; rewrite (proj2 (Nat.leb_le _ _) Hl).
  destruct (neighbor_pairs_ok ltb p1) as (n1 & -> & H1); [destruct p1; cbn in *; [lia|discriminate]|].
  destruct (neighbor_pairs_ok ltb p2) as (n2 & -> & H2); [destruct p2; cbn in *; [lia|discriminate]|].
  destruct (neighbor_pairs_ok ltb q2) as (m2 & -> & H3); [destruct q2; cbn in *; [lia|discriminate]|].
  cbn [bind]; f_equal; apply filter_ext_in; intros p Hp.
  assert (Hex : forall (l : list (G*G)), existsb (fun q => pair_eqb eqb q p) l = true <-> In p l).
  { intros l; rewrite existsb_exists; split.
    - intros (q & Hi & E); apply (pair_eqb_eq eqb Heq) in E; subst; auto.
    - intros Hi; exists p; split; auto; apply (pair_eqb_eq eqb Heq); auto. }
  apply eq_true_iff_eq; rewrite !Hex, H2, H3; apply H1 in Hp as (a & b & Hab & ->); rewrite !pairs_adj; apply H; left; auto.
Qed.
Lemma gpx2_steps {S0} (p1 p2 q2 : list G) (sel : S0 -> option G -> list (list G) -> M (nat * S0)) s : length p1 <= length p2 -> length q2 = length p2 ->
  (forall a b, cyc_adj p1 a b -> (cyc_adj p2 a b <-> cyc_adj q2 a b)) ->
  generalized_partition_2_crossover eqb ltb p1 p2 sel s = generalized_partition_2_crossover eqb ltb p1 q2 sel s.
Proof. intros H1 H2 H3; unfold generalized_partition_2_crossover, common_partitions; rewrite (common_same p1 p2 q2); auto. Qed.
Lemma gpx2_tour {S0} (p1 p2 q2 : list G) (sel : S0 -> option G -> list (list G) -> M (nat * S0)) s : length p1 <= length p2 ->
  turned p2 q2 \/ turned (rev p2) q2 ->
  generalized_partition_2_crossover eqb ltb p1 p2 sel s = generalized_partition_2_crossover eqb ltb p1 q2 sel s.
Proof.
  intros Hl Ht; apply gpx2_steps; auto; [symmetry; apply Permutation_length, tour_perm; auto|].
  intros a b _; apply tour_adj; auto.
Qed.

(** ** Parents without a shared step *)
Lemma single_loop (l visited : list G) : NoDup (visited ++ l) -> partitions_loop eqb [] l visited = Ret (map (fun x => [x]) l).
Proof.
  revert visited; induction l as [|x l IH]; intros visited Hn; [reflexivity|]; cbn [partitions_loop map].
  assert (Hx : ~ In x visited) by (apply NoDup_remove_2 in Hn; rewrite in_app_iff in Hn; tauto).
  rewrite (proj2 (mem_notIn eqb Heq _ _) Hx); cbn [length Nat.mul Nat.add grow map last next_node bind].
  rewrite IH; [reflexivity|]; cbn [app].
  constructor; [apply NoDup_remove_2 in Hn; auto|apply NoDup_remove_1 in Hn; auto].
Qed.
Lemma gpx2_strangers fuel (p1 p2 r : list G) (P : list G -> bool) : NoDup p1 -> Permutation p1 r ->
  (forall a b, cyc_adj p1 a b -> ~ cyc_adj p2 a b) -> (forall x, P x = true <-> x = r) ->
  prob (crossover eqb ltb fuel GeneralizedPartition2 p1 p2) P = (/ INR (fact (length p1)))%R.
Proof.
  intros Hn HP Hs HPr.
  assert (E : common_partitions eqb ltb p1 p2 = Ret (map (fun x => [x]) p1)).
  { unfold common_partitions; pose proof (common_neighbors_sound eqb ltb Heq p1 p2) as S.
    destruct (common_neighbors_ret eqb ltb Heq p1 p2) as [c Hc]; rewrite Hc in S |- *; cbn in S |- *.
    destruct c as [|[a b] c]; [apply single_loop; auto|]; exfalso; destruct (S a b (or_introl eq_refl)); eapply Hs; eauto. }
  rewrite <- (map_length (fun x => [x]) p1); apply (gpx2_uniform eqb ltb Heq fuel p1 p2 _ (map (fun x => [x]) r)); auto.
  - apply Permutation_map; auto.
  - assert (C : forall l : list G, concat (map (fun x => [x]) l) = l) by (induction l; cbn; congruence).
    intros x; rewrite C; apply HPr.
Qed.
End Tours.

(** ** Witnesses *)
Fixpoint never {A} (m : M A) (ok : A -> bool) : bool :=
  match m with
  | Ret a => negb (ok a)
  | Fail _ => true
  | Draw n k | Pick n k => forallb (fun i => never (k (N.of_nat i)) ok) (seq 0 (N.to_nat n))
  end.
Lemma never_may {A} (m : M A) ok v : never m ok = true -> may m v -> ok v = false.
Proof.
  induction m as [a|e|n k IH|n k IH]; cbn [never may]; intros H Hm; [subst; apply negb_true_iff; auto|contradiction|..];
    destruct Hm as (i & Hi & Hm); apply (IH i); auto; rewrite forallb_forall in H;
    rewrite <- (N2Nat.id i); apply H, in_seq; lia.
Qed.
Lemma never_list (m : M (list nat)) r : never m (fun x => if list_eq_dec Nat.eq_dec x r then true else false) = true -> ~ may m r.
Proof. intros H Hm; pose proof (never_may _ _ _ H Hm) as E; cbn in E; destruct (list_eq_dec Nat.eq_dec r r); congruence. Qed.
Lemma tour_others s : s <> GeneralizedPartition2 -> s <> EdgeRecombination ->
  exists p1 p2 q2 r : list nat, perm_parents p1 p2 /\ turned p2 q2 /\
  may (crossover Nat.eqb Nat.ltb 100 s p1 p2) r /\ ~ may (crossover Nat.eqb Nat.ltb 100 s p1 q2) r.
Proof.
  intros H1 H2; exists [0; 1; 2], [0; 2; 1], [2; 1; 0], [0; 2; 1]; split; [split; [repeat constructor; cbn; intuition discriminate|repeat constructor]|].
  split; [exists 1; cbn; split; [lia|auto]|].
  destruct s; try congruence; (split; [|apply never_list; vm_compute; reflexivity]).
  - eapply (run_strict_may _ [0]%N); vm_compute; reflexivity.
  - eapply (run_strict_may _ [0; 0]%N); vm_compute; reflexivity.
  - eapply (run_strict_may _ [0; 0]%N); vm_compute; reflexivity.
  - eapply (run_strict_may _ []%N); vm_compute; reflexivity.
  - eapply (run_strict_may _ [0]%N); vm_compute; reflexivity.
Qed.
Lemma gpx2_first_refuted :
  exists p1 q1 p2 r : list nat, perm_parents p1 p2 /\ turned p1 q1 /\
  may (crossover Nat.eqb Nat.ltb 0 GeneralizedPartition2 p1 p2) r /\ ~ may (crossover Nat.eqb Nat.ltb 0 GeneralizedPartition2 q1 p2) r.
Proof.
  exists [0; 1; 2; 3], [3; 0; 1; 2], [0; 2; 1; 3], [0; 3; 1; 2]; split; [split; [repeat constructor; cbn; intuition discriminate|repeat constructor]|].
  split; [exists 3; cbn; split; [lia|auto]|]; split; [|apply never_list; vm_compute; reflexivity].
  eapply (run_strict_may _ [0; 0]%N); vm_compute; reflexivity.
Qed.
Lemma gpx2_tour_example :
  perm_parents eight eight2 /\ turned (rev eight2) (rotated (rev eight2) 3) /\
  common_partitions Nat.eqb Nat.ltb eight (rotated (rev eight2) 3) = Ret [[0; 1]; [2; 3]; [4]; [5; 6]; [7]] /\
  (forall a b, cyc_adj [0; 1; 2; 3; 4] a b -> ~ cyc_adj [0; 2; 4; 1; 3] a b) /\ NoDup [0; 1; 2; 3; 4].
Proof.
  split; [exact eight_parents|]; split; [exists 3; cbn; split; [lia|auto]|]; split; [vm_compute; reflexivity|].
  split; [|repeat constructor; cbn; intuition discriminate].
  assert (S : must (common_neighbors Nat.eqb Nat.ltb [0; 1; 2; 3; 4] [0; 2; 4; 1; 3]) (fun r => r = [])) by (vm_compute; reflexivity).
  pose proof (common_neighbors_exact Nat.eqb Nat.ltb nat_eq_ok [0; 1; 2; 3; 4] [0; 2; 4; 1; 3]) as X.
  assert (Y : forall a b, Nat.ltb b a = false -> cyc_adj [0; 1; 2; 3; 4] a b -> ~ cyc_adj [0; 2; 4; 1; 3] a b).
  { destruct (common_neighbors Nat.eqb Nat.ltb [0; 1; 2; 3; 4] [0; 2; 4; 1; 3]) as [c|e|n k|n k] eqn:E; try (vm_compute in E; discriminate).
    cbn in S; subst c; intros a b H1 H2 H3; apply (proj2 (X ltac:(intros u v Hu; destruct (Nat.ltb_spec u v), (Nat.ltb_spec v u); auto; lia) Nat.ltb_irrefl ltac:(cbn; lia) ltac:(cbn; lia) a b)); auto. }
  intros a b H1 H2; destruct (Nat.ltb_spec b a) as [L|L].
  - apply (Y b a); [apply Nat.ltb_ge; lia|destruct H1; [right|left]; auto|destruct H2; [right|left]; auto].
  - apply (Y a b); auto; apply Nat.ltb_ge; lia.
Qed.
