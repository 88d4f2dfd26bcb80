(** * PCrossoverAny3: the crossover strategies on arbitrary parents. *)
From Coq Require Import List Bool Arith NArith Lia Permutation.
From Verif Require Import Rnd LRnd MOperators MCrossover Spec SpecC POperatorsRandom POperatorsNeighbors LGenes
  PCrossoverGpx PCrossoverScx PCrossoverErx PCrossoverPmx PCrossoverOx PCrossoverCx PCrossoverAll
  PCrossoverAny PCrossoverAny2.
Import ListNotations.

(** ** Computations in which every draw has an answer *)
Fixpoint live {A} (m : M A) : Prop :=
  match m with
  | Ret _ | Fail _ => True
  | Draw n k | Pick n k => (0 < n)%N /\ forall i, (i < n)%N -> live (k i)
  end.

Lemma live_bind {A B} (m : M A) (f : A -> M B) : live m -> (forall a, may m a -> live (f a)) -> live (bind m f).
Proof.
  induction m as [a|e|n k IH|n k IH]; cbn; intros Hm Hf; auto.
  - destruct Hm as [Hn Hk]; split; auto; intros i Hi; apply IH; auto; intros a Ha; apply Hf; exists i; auto.
  - destruct Hm as [Hn Hk]; split; auto; intros i Hi; apply IH; auto; intros a Ha; apply Hf; exists i; auto.
Qed.
Lemma live_idx {A} (l : list A) i : live (idx l i).
Proof. unfold idx; destruct (nth_error l i); cbn; auto. Qed.
Lemma live_unwrap {A} (o : option A) : live (unwrap o).
Proof. destruct o; cbn; auto. Qed.
Lemma live_massert b : live (massert b).
Proof. destruct b; cbn; auto. Qed.
Lemma live_gen_range lo hi : live (gen_range lo hi).
Proof. unfold gen_range; destruct (Nat.ltb_spec lo hi); cbn; auto; split; [lia|auto]. Qed.
Lemma live_choose {A} (l : list A) : live (choose l).
Proof.
  unfold choose; destruct l; [cbn; auto|]; apply live_bind; [apply live_gen_range|]; intros i _.
  apply live_bind; [apply live_idx|cbn; auto].
Qed.
Lemma live_mapM {A B} (f : A -> M B) l : (forall a, In a l -> live (f a)) -> live (mapM f l).
Proof.
  induction l as [|h t IH]; cbn [mapM]; intros H; [cbn; auto|].
  apply live_bind; [apply H; left; auto|]; intros x _; apply live_bind; [apply IH; intros; apply H; right; auto|cbn; auto].
Qed.
Lemma perms_self {A} (l : list A) : In l (perms l).
Proof.
  induction l as [|h t IH]; cbn; auto; apply in_flat_map; exists t; split; auto.
  destruct t; left; reflexivity.
Qed.
Lemma live_perms {A} (l : list A) : live (pick_from (perms l)).
Proof.
  unfold pick_from; cbn; split.
  - pose proof (perms_self l); destruct (perms l); cbn in *; [tauto|lia].
  - intros i Hi; destruct (nth_error _ _); cbn; auto.
Qed.

Lemma stuck_panics {A} (m : M A) : live m -> (forall r, ~ may m r) -> halts m -> must_fail m Panic.
Proof.
  unfold halts; induction m as [a|e|n k IH|n k IH]; cbn; intros Hl Hm Hh.
  - exfalso; eapply Hm; reflexivity.
  - destruct e; auto; exfalso; apply Hh; auto.
  - destruct Hl as [Hn Hk]; split; auto; intros i Hi; apply IH; auto; [intros r Hr; apply (Hm r)|intros Hf; apply Hh]; eauto.
  - destruct Hl as [Hn Hk]; split; auto; intros i Hi; apply IH; auto; [intros r Hr; apply (Hm r)|intros Hf; apply Hh]; eauto.
Qed.

Lemma may_random_range n r : may (random_range n) r -> fst r < snd r /\ snd r <= n.
Proof.
  intros H; destruct n as [|n]; [destruct H|].
  apply (must_may _ _ _ (random_range_must (S n) ltac:(lia)) H).
Qed.

Section Any.
Context {G : Type} (eqb ltb : G -> G -> bool).
Hypothesis Heq : eq_ok eqb.


Lemma chain_gene (s1 s2 : list G) g r : pmx_chain s1 s2 g r -> r = g \/ In r s2.
Proof.
  induction 1 as [g H|g i h r H1 H2 H3 H4 IH]; auto.
  destruct IH as [-> | IH]; auto; right; eapply nth_error_In; eauto.
Qed.

Lemma segment_in (l : list G) a b x : In x (segment l a b) -> In x l.
Proof.
  unfold segment; intros H; rewrite <- (firstn_skipn a l); apply in_or_app; right.
  rewrite <- (firstn_skipn (b - a) (skipn a l)); apply in_or_app; auto.
Qed.

Lemma repeated_in (l : list G) m x : In x (repeated l m) -> In x l.
Proof.
  unfold repeated; intros H; apply in_concat in H as (l' & Hl & Hx); apply repeat_spec in Hl; subst; auto.
Qed.

Lemma pmx_whole fuel (p1 p2 : list G) a b r : a <= b -> b <= length p1 ->
  may (partially_mapped_crossover eqb fuel p1 p2 (a, b)) r ->
  length r = length p1 /\ length p2 = length p1 /\ forall x, In x r -> In x p1 \/ In x p2.
Proof.
  intros Hab Hb H.
  destruct (Nat.eq_dec (length p1) (length p2)) as [Hl|Hl].
  2: { exfalso; eapply must_fail_no_may; [|exact H]; apply (mismatch_all eqb p1 p2 Hl). }
  split; [|split; auto].
  - destruct (Nat.le_gt_cases 2 (length p1)) as [H2|H2].
    + apply (pmx_any eqb Heq) in H; tauto.
    + unfold partially_mapped_crossover in H; rewrite Hl, Nat.eqb_refl in H; cbn [massert bind] in H.
      rewrite (proj2 (Nat.ltb_lt _ _)) in H by lia; cbn in H; subst; auto.
  - destruct (Nat.le_gt_cases 2 (length p1)) as [H2|H2].
    + apply (pmx_any eqb Heq) in H as (H1 & Hi & Ho); auto; intros x Hx.
      apply In_nth_error in Hx as (i & Hx); pose proof (nth_error_some_lt _ _ _ Hx) as Hlt.
      destruct (Nat.le_gt_cases a i) as [Ha|Ha]; [destruct (Nat.lt_ge_cases i b) as [Hib|Hib]|].
      * rewrite Hi in Hx by auto; left; eapply nth_error_In; eauto.
      * destruct (nth_error_lt p2 i) as [g Hg]; [lia|]; destruct (Ho i g ltac:(lia) Hg) as (y & Hy & Hc).
        rewrite Hx in Hy; injection Hy as <-; right.
        apply chain_gene in Hc as [-> | Hc]; [eapply nth_error_In; eauto|eapply segment_in; eauto].
      * destruct (nth_error_lt p2 i) as [g Hg]; [lia|]; destruct (Ho i g ltac:(lia) Hg) as (y & Hy & Hc).
        rewrite Hx in Hy; injection Hy as <-; right.
        apply chain_gene in Hc as [-> | Hc]; [eapply nth_error_In; eauto|eapply segment_in; eauto].
    + unfold partially_mapped_crossover in H; rewrite Hl, Nat.eqb_refl in H; cbn [massert bind] in H.
      rewrite (proj2 (Nat.ltb_lt _ _)) in H by lia; cbn in H; subst; auto.
Qed.

Lemma ox_whole fuel (p1 p2 : list G) a b r : a < b -> b <= length p1 ->
  may (order_crossover eqb fuel p1 p2 (a, b)) r ->
  length r = length p1 /\ length p2 = length p1 /\ forall x, In x r -> In x p1 \/ In x p2.
Proof.
  intros Hab Hb H.
  destruct (Nat.eq_dec (length p1) (length p2)) as [Hl|Hl].
  2: { exfalso; eapply must_fail_no_may; [|exact H]; apply (mismatch_all eqb p1 p2 Hl). }
  destruct (Nat.le_gt_cases 2 (length p1)) as [H2|H2].
  - set (keep := fun g => negb (mem eqb g (segment p1 a b))).
    destruct (ox_any eqb Heq p1 p2 Hl a b Hab Hb fuel r keep (length p1)) as (H1 & _ & Hr); auto; [|lia|].
    + intros g; unfold keep; rewrite negb_true_iff; split; intros Hg.
      * apply (mem_notIn eqb Heq); auto.
      * apply (mem_notIn eqb Heq); auto.
    + split; auto; split; auto; intros x Hx.
      assert (Hx' : In x (rotated r b)) by (eapply Permutation_in; [|exact Hx]; apply rotated_perm).
      rewrite Hr in Hx'; apply in_app_or in Hx' as [Hx'|Hx']; [|left; eapply segment_in; eauto].
      right.
      assert (K : In x (repeated (filter keep (rotated p2 b)) (length p1))).
      { revert Hx'; generalize (repeated (filter keep (rotated p2 b)) (length p1)) as l; intros l Hx'.
        rewrite <- (firstn_skipn (length p1 - (b - a)) l); apply in_or_app; auto. }
      apply repeated_in, filter_In in K as [K _].
      eapply Permutation_in; [|exact K]; symmetry; apply rotated_perm.
  - unfold order_crossover in H; rewrite Hl, Nat.eqb_refl in H; cbn [massert bind] in H.
    rewrite (proj2 (Nat.ltb_lt _ _)) in H by lia; cbn in H; subst; auto.
Qed.

Lemma short_nodup (l : list G) : length l < 2 -> NoDup l.
Proof. destruct l as [|x [|y l]]; cbn; intros H; repeat constructor; try tauto; lia. Qed.

Lemma scx_whole p1 p2 (pivot : G) r : may (sequential_constructive_crossover eqb p1 p2 pivot) r ->
  length r = length p1 /\ length p2 = length p1 /\ (forall x, In x r -> In x p1 \/ In x p2) /\ NoDup r.
Proof.
  intros H.
  destruct (Nat.eq_dec (length p1) (length p2)) as [Hl|Hl].
  2: { exfalso; eapply must_fail_no_may; [|exact H]; apply (mismatch_all eqb p1 p2 Hl). }
  destruct (Nat.le_gt_cases 2 (length p1)) as [H2|H2].
  - apply (scx_any eqb Heq) in H as (A & B & C & D & E); auto.
  - unfold sequential_constructive_crossover in H; rewrite Hl, Nat.eqb_refl in H; cbn [massert bind] in H.
    rewrite (proj2 (Nat.ltb_lt _ _)) in H by lia; cbn in H; subst; repeat split; auto; apply short_nodup; auto.
Qed.

Lemma erx_whole p1 p2 (pivot : G) r : may (edge_recombination_crossover eqb p1 p2 pivot) r ->
  length r = length p1 /\ length p2 = length p1 /\ (forall x, In x r -> In x p1 \/ In x p2) /\ NoDup r.
Proof.
  intros H.
  destruct (Nat.eq_dec (length p1) (length p2)) as [Hl|Hl].
  2: { exfalso; eapply must_fail_no_may; [|exact H]; apply (mismatch_all eqb p1 p2 Hl). }
  destruct (Nat.le_gt_cases 2 (length p1)) as [H2|H2].
  - apply (erx_any eqb Heq) in H as (A & B & C & E); auto.
  - unfold edge_recombination_crossover in H; rewrite Hl, Nat.eqb_refl in H; cbn [massert bind] in H.
    rewrite (proj2 (Nat.ltb_lt _ _)) in H by lia; cbn in H; subst; repeat split; auto; apply short_nodup; auto.
Qed.

Lemma spx_whole (p1 p2 : list G) point r : may (single_point_crossover p1 p2 point) r ->
  length r = length p1 /\ length p2 = length p1 /\
  forall i, nth_error r i = nth_error p1 i \/ nth_error r i = nth_error p2 i.
Proof.
  intros H.
  destruct (Nat.eq_dec (length p1) (length p2)) as [Hl|Hl].
  2: { exfalso; eapply must_fail_no_may; [|exact H]; apply (mismatch_all eqb p1 p2 Hl). }
  pose proof (must_may _ _ _ (spx_spec p1 p2 point Hl) H) as E; cbn in E; subst r.
  split; [|split; auto].
  - rewrite app_length, firstn_length, skipn_length; lia.
  - intros i; destruct (Nat.lt_ge_cases i (length (firstn point p1))) as [Hi|Hi].
    + left; rewrite nth_error_app1 by auto; rewrite firstn_length in Hi; apply nth_error_firstn'; lia.
    + right; rewrite nth_error_app2 by auto.
      destruct (Nat.lt_ge_cases i (length p2)) as [Hi2|Hi2].
      * rewrite firstn_length in *; rewrite nth_error_skipn'; f_equal; lia.
      * rewrite !(proj2 (nth_error_None _ _)); auto; rewrite skipn_length, firstn_length in *; lia.
Qed.

Lemma positions_genes (p1 p2 r : list G) :
  (forall i, nth_error r i = nth_error p1 i \/ nth_error r i = nth_error p2 i) ->
  forall x, In x r -> In x p1 \/ In x p2.
Proof.
  intros H x Hx; apply In_nth_error in Hx as (i & Hi).
  destruct (H i) as [E|E]; rewrite Hi in E; symmetry in E; apply nth_error_In in E; auto.
Qed.

Lemma may_choose_pivot {B} (l : list G) (f : G -> M B) r :
  may (o <- choose l ;; pivot <- unwrap o ;; f pivot) r -> exists pivot, In pivot l /\ may (f pivot) r.
Proof.
  intros H; apply may_bind in H as (o & Ho & H); apply may_bind in H as (pivot & Hp & H).
  apply may_unwrap in Hp; subst o; apply may_choose in Ho as [[_ E]|(x & Hx & E)]; [discriminate|].
  injection E as ->; eauto.
Qed.

Lemma crossover_any fuel s (p1 p2 r : list G) :
  may (crossover eqb ltb fuel s p1 p2) r ->
  (forall x, In x r -> In x p1 \/ In x p2) /\
  (s <> GeneralizedPartition2 -> length r = length p1 /\ length p2 = length p1) /\
  match s with
  | GeneralizedPartition2 => NoDup r /\ forall x, In x r <-> In x p1
  | SequentialConstructive | EdgeRecombination => NoDup r
  | Cycle | SinglePoint => forall i, nth_error r i = nth_error p1 i \/ nth_error r i = nth_error p2 i
  | PartiallyMapped | Order => True
  end.
Proof.
  intros H; destruct s; cbn [crossover] in H.
  - pose proof (must_may _ _ _ (gpx2_genes eqb ltb Heq _ gpx2_selector_ok p1 p2 tt) H) as (A & B & _).
    split; [intros x Hx; left; apply B; auto|split; [congruence|auto]].
  - apply may_choose_pivot in H as (pivot & _ & H); apply scx_whole in H as (A & B & C & D); auto.
  - apply may_choose_pivot in H as (pivot & _ & H); apply erx_whole in H as (A & B & C & D); auto.
  - apply may_bind in H as ([a b] & Hr & H); apply may_random_range in Hr as [Ha Hb]; cbn in Ha, Hb.
    apply pmx_whole in H as (A & B & C); auto; lia.
  - apply may_bind in H as ([a b] & Hr & H); apply may_random_range in Hr as [Ha Hb]; cbn in Ha, Hb.
    apply ox_whole in H as (A & B & C); auto.
  - apply (cx_any eqb) in H as (A & B & C); split; [apply positions_genes; auto|auto].
  - apply may_bind in H as (i & _ & H); apply spx_whole in H as (A & B & C); split; [apply positions_genes; auto|auto].
Qed.

(** ** Too few different genes *)
Lemma few_genes (p1 p2 genes r : list G) :
  (forall x, In x p1 \/ In x p2 -> In x genes) -> length genes < length r -> NoDup r ->
  ~ (forall x, In x r -> In x p1 \/ In x p2).
Proof.
  intros Hg Hl Hn H; assert (length r <= length genes); [|lia].
  apply NoDup_incl_length; auto; intros x Hx; auto.
Qed.

Lemma live_nmap_get m (g : G) : live (nmap_get eqb m g).
Proof. induction m as [|[h s] m IH]; cbn; auto; destruct (eqb h g); cbn; auto. Qed.

Lemma live_scx p1 p2 (pivot : G) : live (sequential_constructive_crossover eqb p1 p2 pivot).
Proof.
  unfold sequential_constructive_crossover; apply live_bind; [apply live_massert|]; intros _ _.
  destruct (_ <? 2); [cbn; auto|]; apply live_bind; [|cbn; auto].
  generalize (@nil G) as visited; generalize (length p1 - 1) as k; intros k; revert pivot.
  induction k as [|k IH]; intros cur visited; cbn [scx_loop]; [cbn; auto|].
  apply live_bind; [|intros; apply live_bind; [apply IH|cbn; auto]].
  unfold scx_next; repeat (apply live_bind; [first [apply live_unwrap|apply live_idx]|intros ? _]).
  destruct (mem _ _ _ && mem _ _ _); [apply live_unwrap|].
  destruct (mem _ _ _); [cbn; auto|]; destruct (mem _ _ _); [cbn; auto|].
  repeat (apply live_bind; [apply live_unwrap|intros ? _]); cbn; auto.
Qed.

Lemma live_erx p1 p2 (pivot : G) : live (edge_recombination_crossover eqb p1 p2 pivot).
Proof.
  unfold edge_recombination_crossover; apply live_bind; [apply live_massert|]; intros _ _.
  destruct (_ <? 2); [cbn; auto|]; apply live_bind.
  { unfold build_neighbors; repeat (apply live_bind; [|intros ? _]); [| |cbn; auto];
      unfold neighbors_of; apply live_mapM; intros i _;
      repeat (apply live_bind; [apply live_idx|intros ? _]); cbn; auto. }
  intros m _; apply live_bind; [|cbn; auto].
  generalize (@nil G) as visited; generalize (length p1 - 1) as k; intros k; revert m pivot.
  induction k as [|k IH]; intros m cur visited; cbn [erx_loop]; [cbn; auto|].
  apply live_bind; [|intros; apply live_bind; [apply IH|cbn; auto]].
  unfold edge_next; apply live_bind; [apply live_nmap_get|]; intros s _.
  apply live_bind; [apply live_perms|]; intros o _.
  apply live_bind; [apply live_mapM; intros g _; apply live_bind; [apply live_nmap_get|cbn; auto]|]; intros ks _.
  destruct (min_by_key ks) as [[? ?]|]; [cbn; auto|apply live_unwrap].
Qed.

Lemma scx_few (p1 p2 genes : list G) (pivot : G) : 2 <= length p1 ->
  (forall x, In x p1 \/ In x p2 -> In x genes) -> length genes < length p1 ->
  must_fail (sequential_constructive_crossover eqb p1 p2 pivot) Panic.
Proof.
  intros H2 Hg Hl; apply stuck_panics; [apply live_scx| |apply (scx_halts eqb)].
  intros r Hr; apply scx_whole in Hr as (A & _ & C & D).
  apply (few_genes p1 p2 genes r); auto; lia.
Qed.

Lemma erx_few (p1 p2 genes : list G) (pivot : G) : 2 <= length p1 ->
  (forall x, In x p1 \/ In x p2 -> In x genes) -> length genes < length p1 ->
  must_fail (edge_recombination_crossover eqb p1 p2 pivot) Panic.
Proof.
  intros H2 Hg Hl; apply stuck_panics; [apply live_erx| |apply (erx_halts eqb)].
  intros r Hr; apply erx_whole in Hr as (A & _ & C & D).
  apply (few_genes p1 p2 genes r); auto; lia.
Qed.

(** ** Every strategy but PMX and OX comes to an end *)
Lemma spx_halts (p1 p2 : list G) point : halts (single_point_crossover p1 p2 point).
Proof.
  unfold single_point_crossover; apply halts_bind; [apply halts_massert|]; intros _ _.
  destruct (_ <? _); [|apply halts_ret].
  apply halts_bind; [apply halts_slice|intros ? _]; apply halts_copy.
Qed.

Lemma crossover_halts fuel s (p1 p2 : list G) :
  s <> PartiallyMapped -> s <> Order -> halts (crossover eqb ltb fuel s p1 p2).
Proof.
  intros H1 H2; destruct s; try congruence; cbn [crossover].
  - eapply halts_must, (gpx2_genes eqb ltb Heq); apply gpx2_selector_ok.
  - apply halts_bind; [apply halts_choose|]; intros o _; apply halts_bind; [apply halts_unwrap|]; intros x _.
    apply (scx_halts eqb).
  - apply halts_bind; [apply halts_choose|]; intros o _; apply halts_bind; [apply halts_unwrap|]; intros x _.
    apply (erx_halts eqb).
  - apply (cx_halts eqb).
  - apply halts_bind; [apply halts_gen_range|]; intros i _; apply spx_halts.
Qed.

End Any.

Lemma both_few {G} (eqb : G -> G -> bool) : eq_ok eqb ->
  forall (p1 p2 genes : list G) (pivot : G), 2 <= length p1 ->
  (forall x, In x p1 \/ In x p2 -> In x genes) -> length genes < length p1 ->
  must_fail (sequential_constructive_crossover eqb p1 p2 pivot) Panic /\
  must_fail (edge_recombination_crossover eqb p1 p2 pivot) Panic.
Proof. intros He p1 p2 genes pivot H2 Hg Hl; split; [apply scx_few with genes|apply erx_few with genes]; auto. Qed.

Lemma operators_halt {G} (eqb : G -> G -> bool) (p1 p2 : list G) :
  (forall pivot, ~ may_fail (sequential_constructive_crossover eqb p1 p2 pivot) NoFuel) /\
  (forall pivot, ~ may_fail (edge_recombination_crossover eqb p1 p2 pivot) NoFuel) /\
  ~ may_fail (cycle_crossover eqb p1 p2) NoFuel /\
  (forall point, ~ may_fail (single_point_crossover p1 p2 point) NoFuel).
Proof.
  split; [intros; apply scx_halts|]; split; [intros; apply erx_halts|].
  split; [apply cx_halts|intros; apply spx_halts].
Qed.

Lemma any_parents_example :
  may (crossover Nat.eqb Nat.ltb 20 PartiallyMapped [0; 1; 0; 1] [1; 2; 0; 0]) [0; 1; 2; 2] /\
  may (crossover Nat.eqb Nat.ltb 20 Order [0; 0; 0; 0] [1; 0; 0; 0]) [1; 0; 1; 1] /\
  (forall x, In x [0; 0; 1; 1] \/ In x [0; 1; 0; 1] -> In x [0; 1]) /\ length [0; 1] < length [0; 0; 1; 1].
Proof.
  split; [|split; [|split; [cbn; intuition|cbn; lia]]].
  - exists 1%N; split; [reflexivity|]; exists 0%N; split; reflexivity.
  - exists 0%N; split; [reflexivity|]; exists 1%N; split; reflexivity.
Qed.

Lemma ends_example :
  pmx_chain (segment [0; 1; 0; 1] 0 2) (segment [1; 2; 0; 0] 0 2) 0 2 /\
  (forall x, ~ pmx_chain (segment [0; 1; 2] 0 1) (segment [0; 1; 0] 0 1) 0 x) /\
  (In 1 [1; 0; 0; 0] /\ ~ In 1 (segment [0; 0; 0; 0] 1 2)) /\
  (forall g, In g [0; 0; 0] -> In g (segment [0; 1; 2] 0 1)).
Proof.
  split; [|split; [|split; [cbn; intuition discriminate|cbn; intuition]]].
  - apply chain_step with 0 1; auto; [intros j Hj; lia|].
    apply chain_step with 1 2; auto; [intros [|j] Hj; [discriminate|lia]|].
    apply chain_stop; cbn; intuition discriminate.
  - intros x H; cbn in H; remember 0 as g eqn:Eg in H at 3.
    induction H as [g H|g i h r H1 H2 H3 H4 IH]; subst.
    + apply H; left; auto.
    + apply IH; destruct i as [|[|i]]; cbn in *; congruence.
Qed.
