(** * PCrossoverAny: crossovers of arbitrary (also repeating) parents. *)
From Coq Require Import List Bool Arith NArith Lia Permutation.
From Verif Require Import Rnd LRnd MOperators MCrossover Spec SpecC POperatorsRandom POperatorsNeighbors LGenes
  PCrossoverGpx PCrossoverScx PCrossoverErx PCrossoverPmx PCrossoverOx PCrossoverCx PCrossoverAll.
Import ListNotations.

(** ** Results and hangs of the building blocks *)

Lemma may_idx {A} (l : list A) i x : may (idx l i) x <-> nth_error l i = Some x.
Proof. unfold idx; destruct (nth_error l i); cbn; split; intros H; try discriminate; try tauto; congruence. Qed.

Lemma may_unwrap {A} (o : option A) x : may (unwrap o) x <-> o = Some x.
Proof. destruct o; cbn; split; intros H; try discriminate; try tauto; congruence. Qed.

Lemma may_massert b : may (massert b) tt <-> b = true.
Proof. destruct b; cbn; intuition discriminate. Qed.

Lemma may_set {A} (l : list A) i v r : may (set l i v) r <-> i < length l /\ r = upd l i v.
Proof.
  unfold set; destruct (Nat.ltb_spec i (length l)); cbn; split; try tauto; try lia.
  - intros <-; auto.
  - intros [_ ->]; auto.
Qed.

Lemma may_slice {A} (l : list A) a b r : may (slice l a b) r <-> a <= b /\ b <= length l /\ r = segment l a b.
Proof.
  unfold slice; destruct (Nat.leb_spec a b); destruct (Nat.leb_spec b (length l)); cbn; split; try tauto; try lia.
  - intros <-; auto.
  - intros (_ & _ & ->); auto.
Qed.

Lemma may_copy_range {A} (l : list A) a b src r :
  may (copy_range l a b src) r -> a <= b /\ b <= length l /\ length src = b - a /\ r = firstn a l ++ src ++ skipn b l.
Proof.
  unfold copy_range; destruct (Nat.leb_spec a b); destruct (Nat.leb_spec b (length l));
    destruct (Nat.eqb_spec (length src) (b - a)); cbn; try tauto.
  intros <-; auto.
Qed.

Lemma may_choose {A} (l : list A) o : may (choose l) o -> l = [] /\ o = None \/ exists x, In x l /\ o = Some x.
Proof.
  unfold choose; destruct l as [|h t] eqn:E; [cbn; intros <-; auto|]; rewrite <- E.
  intros H; apply may_bind in H as (i & _ & H); apply may_bind in H as (x & Hx & H); cbn in H.
  apply may_idx in Hx; right; exists x; split; [eapply nth_error_In; eauto|auto].
Qed.

Lemma may_mapM {A B} (f : A -> M B) l r : may (mapM f l) r -> Forall2 (fun a b => may (f a) b) l r.
Proof.
  revert r; induction l as [|h t IH]; cbn; intros r H; [subst; constructor|].
  apply may_bind in H as (x & Hx & H); apply may_bind in H as (xs & Hxs & H); cbn in H; subst; constructor; auto.
Qed.

Lemma may_pick_from {A} (l : list A) x : may (pick_from l) x -> In x l.
Proof.
  unfold pick_from; cbn; intros (i & _ & H).
  destruct (nth_error l (N.to_nat i)) as [y|] eqn:E; cbn in H; [subst; eapply nth_error_In; eauto|tauto].
Qed.

(** The computation always comes to an end (it may panic). *)
Definition halts {A} (m : M A) : Prop := ~ may_fail m NoFuel.

Lemma halts_bind {A B} (m : M A) (f : A -> M B) :
  halts m -> (forall a, may m a -> halts (f a)) -> halts (bind m f).
Proof. intros H1 H2 H; apply may_fail_bind in H as [H|(a & Ha & H)]; [apply H1; auto|apply (H2 a Ha H)]. Qed.
Lemma halts_ret {A} (x : A) : halts (Ret x).
Proof. intros []. Qed.
Lemma halts_panic {A} : halts (Fail Panic : M A).
Proof. intros H; discriminate H. Qed.
Lemma halts_idx {A} (l : list A) i : halts (idx l i).
Proof. unfold idx; destruct (nth_error l i); [apply halts_ret|apply halts_panic]. Qed.
Lemma halts_unwrap {A} (o : option A) : halts (unwrap o).
Proof. destruct o; [apply halts_ret|apply halts_panic]. Qed.
Lemma halts_massert b : halts (massert b).
Proof. destruct b; [apply halts_ret|apply halts_panic]. Qed.
Lemma halts_set {A} (l : list A) i v : halts (set l i v).
Proof. unfold set; destruct (_ <? _); [apply halts_ret|apply halts_panic]. Qed.
Lemma halts_slice {A} (l : list A) a b : halts (slice l a b).
Proof. unfold slice; destruct (_ && _); [apply halts_ret|apply halts_panic]. Qed.
Lemma halts_copy {A} (l : list A) a b s : halts (copy_range l a b s).
Proof. unfold copy_range; destruct (_ && _ && _); [apply halts_ret|apply halts_panic]. Qed.
Lemma halts_gen_range lo hi : halts (gen_range lo hi).
Proof. intros H; apply may_fail_gen_range in H as [_ H]; discriminate. Qed.
Lemma halts_choose {A} (l : list A) : halts (choose l).
Proof.
  unfold choose; destruct l; [apply halts_ret|].
  apply halts_bind; [apply halts_gen_range|]; intros i _; apply halts_bind; [apply halts_idx|]; intros; apply halts_ret.
Qed.
Lemma halts_mapM {A B} (f : A -> M B) l : (forall a, In a l -> halts (f a)) -> halts (mapM f l).
Proof.
  induction l as [|h t IH]; cbn; intros H; [apply halts_ret|].
  apply halts_bind; [apply H; auto|]; intros x _; apply halts_bind; [apply IH; auto|]; intros; apply halts_ret.
Qed.
Lemma halts_pick_from {A} (l : list A) : halts (pick_from l).
Proof.
  intros (i & _ & H); destruct (nth_error l (N.to_nat i)); cbn in H; [tauto|discriminate].
Qed.
Lemma halts_must {A} (m : M A) P : must m P -> halts m.
Proof. intros H; eapply must_no_fail; eauto. Qed.

Section Any.
Context {G : Type} (eqb : G -> G -> bool).
Hypothesis Heq : eq_ok eqb.

(** ** SCX *)

Lemma first_unvisited_some l visited (x : G) :
  first_unvisited eqb l visited = Some x -> In x l /\ ~ In x visited.
Proof.
  intros H; apply find_some in H as [H1 H2]; split; auto.
  apply negb_true_iff in H2; apply (mem_notIn eqb Heq); auto.
Qed.

Lemma scx_next_any p1 p2 visited cur (x : G) :
  may (scx_next eqb p1 p2 visited cur) x ->
  In cur p1 /\ In cur p2 /\ ~ In x visited /\ (In x p1 \/ In x p2).
Proof.
  unfold scx_next; intros H.
  apply may_bind in H as (q1 & Hq1 & H); apply may_bind in H as (q2 & Hq2 & H).
  apply may_bind in H as (n1 & Hn1 & H); apply may_bind in H as (n2 & Hn2 & H).
  apply may_unwrap in Hq1, Hq2; apply may_idx in Hn1, Hn2.
  apply (find_position_some eqb Heq) in Hq1 as [Hq1 _]; apply (find_position_some eqb Heq) in Hq2 as [Hq2 _].
  apply nth_error_In in Hq1, Hq2, Hn1, Hn2; split; auto; split; auto.
  destruct (mem eqb n1 visited) eqn:E1; destruct (mem eqb n2 visited) eqn:E2; cbn [andb] in H.
  - apply may_unwrap in H; apply first_unvisited_some in H; tauto.
  - cbn in H; subst; split; auto; apply (mem_notIn eqb Heq); auto.
  - cbn in H; subst; split; auto; apply (mem_notIn eqb Heq); auto.
  - apply (mem_notIn eqb Heq) in E1, E2.
    apply may_bind in H as (k1 & _ & H); apply may_bind in H as (k2 & _ & H); cbn [may] in H.
    destruct (k1 <? k2); subst; auto.
Qed.

Lemma scx_loop_any p1 p2 k visited (cur : G) r :
  may (scx_loop eqb p1 p2 k visited cur) r ->
  length r = k /\ NoDup r /\ (forall x, In x r -> ~ In x (cur :: visited) /\ (In x p1 \/ In x p2)) /\
  (0 < k -> In cur p1 /\ In cur p2).
Proof.
  revert visited cur r; induction k as [|k IH]; cbn [scx_loop]; intros visited cur r H.
  - cbn in H; subst; repeat split; try constructor; cbn in *; try tauto; lia.
  - apply may_bind in H as (nx & Hnx & H); apply may_bind in H as (rest & Hr & H); cbn in H; subst.
    apply scx_next_any in Hnx as (H1 & H2 & H3 & H4); apply IH in Hr as (R1 & R2 & R3 & _).
    split; [cbn; lia|]; split; [|split; auto].
    + constructor; auto; intros Hi; apply R3 in Hi as [Hi _]; apply Hi; left; auto.
    + intros x [<-|Hx]; auto; apply R3 in Hx as [Hx Hx']; split; auto.
      intros Hv; apply Hx; right; auto.
Qed.

Lemma scx_any p1 p2 (pivot : G) r :
  2 <= length p1 -> may (sequential_constructive_crossover eqb p1 p2 pivot) r ->
  length r = length p1 /\ NoDup r /\ hd_error r = Some pivot /\ In pivot p1 /\ forall x, In x r -> In x p1 \/ In x p2.
Proof.
  intros H2 H; unfold sequential_constructive_crossover in H.
  apply may_bind in H as (_ & _ & H); rewrite (proj2 (Nat.ltb_ge _ _)) in H by auto.
  apply may_bind in H as (rest & Hr & H); cbn in H; subst.
  apply scx_loop_any in Hr as (R1 & R2 & R3 & R4).
  destruct R4 as [R4 R5]; [lia|].
  split; [cbn; lia|]; split; [|split; [auto|split; auto]].
  - constructor; auto; intros Hi; apply R3 in Hi as [Hi _]; apply Hi; left; auto.
  - intros x [<-|Hx]; auto; apply R3; auto.
Qed.

Lemma scx_halts p1 p2 (pivot : G) : halts (sequential_constructive_crossover eqb p1 p2 pivot).
Proof.
  unfold sequential_constructive_crossover; apply halts_bind; [apply halts_massert|]; intros _ _.
  destruct (_ <? 2); [apply halts_ret|]; apply halts_bind; [|intros; apply halts_ret].
  generalize (@nil G) as visited; generalize (length p1 - 1) as k; intros k; revert pivot.
  induction k as [|k IH]; intros cur visited; cbn [scx_loop]; [apply halts_ret|].
  apply halts_bind; [|intros; apply halts_bind; [apply IH|intros; apply halts_ret]].
  unfold scx_next.
  do 2 (apply halts_bind; [apply halts_unwrap|intros ? _]); do 2 (apply halts_bind; [apply halts_idx|intros ? _]).
  destruct (_ && _); [apply halts_unwrap|]; destruct (mem _ _ _); [apply halts_ret|]; destruct (mem _ _ _); [apply halts_ret|].
  do 2 (apply halts_bind; [apply halts_unwrap|intros ? _]); apply halts_ret.
Qed.

(** ** ERX *)

Definition nmap_within (P : G -> Prop) (m : @nmap G) : Prop := forall e, In e m -> forall x, In x (snd e) -> P x.

Lemma nmap_get_may m (g : G) s : may (nmap_get eqb m g) s -> exists h, In (h, s) m /\ eqb h g = true.
Proof.
  induction m as [|[h t] m IH]; cbn; [tauto|].
  destruct (eqb h g) eqn:E; cbn; [intros ->; exists h; auto|].
  intros H; destruct (IH H) as (h' & H1 & H2); exists h'; auto.
Qed.

Lemma set_insert_incl x y (s : list G) : In y (set_insert eqb x s) -> y = x \/ In y s.
Proof. apply (set_insert_in eqb Heq). Qed.

Lemma nmap_extend_within P m (g a b : G) : nmap_within P m -> P a -> P b -> nmap_within P (nmap_extend eqb m g a b).
Proof.
  intros Hm Ha Hb; induction m as [|[h s] m IH]; cbn [nmap_extend].
  - intros e [<-|[]] x Hx; cbn [snd] in Hx.
    apply set_insert_incl in Hx as [->|Hx]; auto; apply set_insert_incl in Hx as [->|[]]; auto.
  - destruct (eqb h g).
    + intros e [<-|He] x Hx.
      * cbn [snd] in Hx; apply set_insert_incl in Hx as [->|Hx]; auto.
        apply set_insert_incl in Hx as [->|Hx]; auto; apply (Hm (h, s)); cbn; auto.
      * apply (Hm e); cbn; auto.
    + intros e [<-|He] x Hx; [apply (Hm (h, s)); cbn; auto|].
      apply IH with (e := e); auto; intros e' He'; apply Hm; right; auto.
Qed.

Lemma neighbors_of_within l n (r : list (G * (G * G))) :
  may (neighbors_of l n) r -> forall e, In e r -> In (fst (snd e)) l /\ In (snd (snd e)) l.
Proof.
  intros H; apply may_mapM in H; intros e He.
  induction H as [|i x is xs Hx H IH]; [destruct He|].
  destruct He as [<-|He]; auto.
  apply may_bind in Hx as (g & Hg & Hx); apply may_bind in Hx as (p & Hp & Hx).
  apply may_bind in Hx as (q & Hq & Hx); cbn in Hx; subst; cbn.
  apply may_idx in Hp, Hq; split; eapply nth_error_In; eauto.
Qed.

Lemma build_neighbors_within p1 p2 (m : @nmap G) :
  may (build_neighbors eqb p1 p2) m -> nmap_within (fun x => In x p1 \/ In x p2) m.
Proof.
  unfold build_neighbors; intros H; apply may_bind in H as (l1 & H1 & H); apply may_bind in H as (l2 & H2 & H).
  cbn in H; subst m.
  assert (Hall : forall e, In e (l1 ++ l2) ->
    (In (fst (snd e)) p1 \/ In (fst (snd e)) p2) /\ (In (snd (snd e)) p1 \/ In (snd (snd e)) p2)).
  { intros e He; apply in_app_or in He as [He|He].
    - destruct (neighbors_of_within _ _ _ H1 e He); auto.
    - destruct (neighbors_of_within _ _ _ H2 e He); auto. }
  assert (Hg : forall es m, (forall e, In e es ->
    (In (fst (snd e)) p1 \/ In (fst (snd e)) p2) /\ (In (snd (snd e)) p1 \/ In (snd (snd e)) p2)) ->
    nmap_within (fun x => In x p1 \/ In x p2) m ->
    nmap_within (fun x => In x p1 \/ In x p2)
      (fold_left (fun m e => nmap_extend eqb m (fst e) (fst (snd e)) (snd (snd e))) es m)).
  { induction es as [|e es IH]; cbn [fold_left]; intros m He Hm; auto.
    destruct (He e (or_introl eq_refl)) as [Ha Hb].
    apply IH; [intros e' He'; apply He; right; auto|apply nmap_extend_within; auto]. }
  apply Hg; auto; intros e [].
Qed.

Lemma perms_in_may {A} (l o : list A) : In o (perms l) -> forall x, In x o -> In x l.
Proof.
  revert o; induction l as [|h t IH]; cbn; intros o Ho x Hx; [destruct Ho as [<-|[]]; auto|].
  apply in_flat_map in Ho as (o' & Ho' & Hi).
  assert (H : forall l o, In o (inserts h l) -> In x o -> x = h \/ In x l).
  { clear; induction l as [|y l IH]; cbn; intros o Ho Hx.
    - destruct Ho as [<-|[]]; destruct Hx as [->|[]]; auto.
    - destruct Ho as [<-|Ho]; [destruct Hx as [->|Hx]; auto|].
      apply in_map_iff in Ho as (o' & <- & Ho'); cbn in Hx; destruct Hx as [->|Hx]; auto.
      destruct (IH _ Ho' Hx); auto. }
  destruct (H _ _ Hi Hx) as [->|H']; auto; right; eapply IH; eauto.
Qed.

Lemma min_by_key_in (l : list (G * nat)) g k : min_by_key l = Some (g, k) -> In (g, k) l.
Proof.
  revert g k; induction l as [|[h d] l IH]; cbn [min_by_key]; intros g k; [discriminate|].
  destruct (min_by_key l) as [[g' k']|]; [|intros [= -> ->]; left; auto].
  destruct (k' <? d); intros [= <- <-]; cbn [In]; auto.
Qed.

Lemma edge_next_any p1 m visited cur (x : G) (P : G -> Prop) :
  nmap_within P m -> may (edge_next eqb p1 m visited cur) x ->
  ~ In x visited /\ (P x \/ In x p1) /\ exists s, In (cur, s) m.
Proof.
  intros Hm H; unfold edge_next in H.
  apply may_bind in H as (s & Hs & H); apply may_bind in H as (o & Ho & H); apply may_bind in H as (ks & Hks & H).
  apply nmap_get_may in Hs as (h & Hs & Eh); apply Heq in Eh; subst h.
  assert (Hcur : exists s, In (cur, s) m) by (exists s; auto).
  apply may_pick_from in Ho; apply may_mapM in Hks.
  destruct (min_by_key ks) as [[g k]|] eqn:E; cbn in H.
  - subst g; apply min_by_key_in in E.
    assert (Hx : In x (filter (fun g => negb (mem eqb g visited)) o)).
    { revert E; clear -Hks; induction Hks as [|a b l l' Hab H IH]; intros E; [destruct E|].
      destruct E as [->|E]; [|right; auto].
      apply may_bind in Hab as (ns & _ & Hab); cbn in Hab; injection Hab as -> _; left; auto. }
    apply filter_In in Hx as [Hx Hv]; apply negb_true_iff in Hv.
    split; [apply (mem_notIn eqb Heq); auto|]; split; auto; left.
    apply (Hm _ Hs); cbn; eapply perms_in_may; eauto.
  - apply may_unwrap in H; apply first_unvisited_some in H as [H1 H2]; auto.
Qed.

Lemma erx_loop_any p1 (P : G -> Prop) k m visited cur r :
  nmap_within P m -> may (erx_loop eqb p1 k m visited cur) r ->
  length r = k /\ NoDup r /\ (forall x, In x r -> ~ In x (cur :: visited) /\ (P x \/ In x p1)) /\
  (0 < k -> exists s, In (cur, s) m).
Proof.
  revert m visited cur r; induction k as [|k IH]; cbn [erx_loop]; intros m visited cur r Hm H.
  - cbn in H; subst; repeat split; try constructor; cbn in *; try tauto; lia.
  - set (m' := map (fun e => (fst e, set_remove eqb cur (snd e))) m) in *.
    assert (Hm' : nmap_within P m').
    { intros e He x Hx; apply in_map_iff in He as (e' & <- & He'); cbn in Hx.
      apply filter_In in Hx as [Hx _]; apply (Hm e' He'); auto. }
    apply may_bind in H as (nx & Hnx & H); apply may_bind in H as (rest & Hr & H); cbn in H; subst.
    apply (edge_next_any _ _ _ _ _ P Hm') in Hnx as (H1 & H2 & s & H3); apply (IH _ _ _ _ Hm') in Hr as (R1 & R2 & R3 & _).
    split; [cbn; lia|]; split; [|split].
    + constructor; auto; intros Hi; apply R3 in Hi as [Hi _]; apply Hi; left; auto.
    + intros x [<-|Hx]; auto; apply R3 in Hx as [Hx Hx']; split; auto.
      intros Hv; apply Hx; right; auto.
    + intros _; apply in_map_iff in H3 as ([g s'] & E & H3); cbn in E; injection E as -> _; exists s'; auto.
Qed.

Lemma nmap_keys p1 p2 (m : @nmap G) g s : may (build_neighbors eqb p1 p2) m -> In (g, s) m -> In g p1 \/ In g p2.
Proof.
  unfold build_neighbors; intros H; apply may_bind in H as (l1 & H1 & H); apply may_bind in H as (l2 & H2 & H).
  cbn in H; subst m.
  assert (K : forall l n r, may (neighbors_of l n) r -> forall e : G * (G * G), In e r -> In (fst e) l).
  { clear; intros l n r H; apply may_mapM in H; intros e He.
    induction H as [|i x is xs Hx H IH]; [destruct He|].
    destruct He as [<-|He]; auto.
    apply may_bind in Hx as (g & Hg & Hx); apply may_bind in Hx as (p & Hp & Hx).
    apply may_bind in Hx as (q & Hq & Hx); cbn in Hx; subst; cbn.
    apply may_idx in Hg; eapply nth_error_In; eauto. }
  assert (Hall : forall e, In e (l1 ++ l2) -> In (fst e) p1 \/ In (fst e) p2).
  { intros e He; apply in_app_or in He as [He|He]; [left|right]; eapply K; eauto. }
  assert (Hx : forall m g a b h s, In (h, s) (nmap_extend eqb m g a b) -> h = g \/ exists s', In (h, s') m).
  { clear; induction m as [|[k t] m IH]; cbn; intros g a b h s H.
    - destruct H as [[= <- _]|[]]; auto.
    - destruct (eqb k g); destruct H as [[= <- _]|H]; eauto.
      destruct (IH _ _ _ _ _ H) as [->|(s' & Hs)]; eauto. }
  assert (Hg : forall es m, (forall e, In e es -> In (fst e) p1 \/ In (fst e) p2) ->
    (forall h s, In (h, s) m -> In h p1 \/ In h p2) -> forall h s,
    In (h, s) (fold_left (fun m e => nmap_extend eqb m (fst e) (fst (snd e)) (snd (snd e))) es m) -> In h p1 \/ In h p2).
  { induction es as [|e es IH]; cbn [fold_left]; intros m He Hm; auto.
    apply IH; [intros e' He'; apply He; right; auto|].
    intros h t Ht; apply Hx in Ht as [->|(t' & Ht)]; [apply He; left; auto|eauto]. }
  intros Hi; eapply Hg; [exact Hall| |exact Hi]; intros h t [].
Qed.

Lemma erx_any p1 p2 (pivot : G) r :
  2 <= length p1 -> may (edge_recombination_crossover eqb p1 p2 pivot) r ->
  length r = length p1 /\ NoDup r /\ hd_error r = Some pivot /\ forall x, In x r -> In x p1 \/ In x p2.
Proof.
  intros H2 H; unfold edge_recombination_crossover in H.
  apply may_bind in H as (_ & _ & H); rewrite (proj2 (Nat.ltb_ge _ _)) in H by auto.
  apply may_bind in H as (m & Hm & H); apply may_bind in H as (rest & Hr & H); cbn in H; subst.
  pose proof (build_neighbors_within _ _ _ Hm) as Hw.
  apply (erx_loop_any _ _ _ _ _ _ _ Hw) in Hr as (R1 & R2 & R3 & R4).
  destruct R4 as [s R4]; [lia|].
  split; [cbn; lia|]; split; [|split; [auto|]].
  - constructor; auto; intros Hi; apply R3 in Hi as [Hi _]; apply Hi; left; auto.
  - intros x [<-|Hx]; [eapply nmap_keys; eauto|]; apply R3 in Hx; tauto.
Qed.

Lemma halts_nmap_get m (g : G) : halts (nmap_get eqb m g).
Proof. induction m as [|[h s] m IH]; cbn; [apply halts_panic|destruct (eqb h g); [apply halts_ret|auto]]. Qed.

Lemma erx_halts p1 p2 (pivot : G) : halts (edge_recombination_crossover eqb p1 p2 pivot).
Proof.
  unfold edge_recombination_crossover; apply halts_bind; [apply halts_massert|]; intros _ _.
  destruct (_ <? 2); [apply halts_ret|]; apply halts_bind.
  { unfold build_neighbors, neighbors_of.
    assert (K : forall (l : list G) n, halts (mapM (fun i =>
      gene <- idx l i ;; prev <- idx l (if negb (i =? 0) then i - 1 else n - 1) ;;
      nxt <- idx l (if negb (i + 1 =? n) then i + 1 else 0) ;; Ret (gene, (prev, nxt))) (seq 0 (length l)))).
    { intros l n; apply halts_mapM; intros i _.
      do 3 (apply halts_bind; [apply halts_idx|intros ? _]); apply halts_ret. }
    do 2 (apply halts_bind; [apply K|intros ? _]); apply halts_ret. }
  intros m _; apply halts_bind; [|intros; apply halts_ret].
  generalize (@nil G) as visited; generalize (length p1 - 1) as k; intros k; revert pivot m.
  induction k as [|k IH]; intros cur m visited; cbn [erx_loop]; [apply halts_ret|].
  apply halts_bind; [|intros; apply halts_bind; [apply IH|intros; apply halts_ret]].
  unfold edge_next; apply halts_bind; [apply halts_nmap_get|intros ? _].
  apply halts_bind; [apply halts_pick_from|intros ? _].
  apply halts_bind; [apply halts_mapM; intros; apply halts_bind; [apply halts_nmap_get|intros; apply halts_ret]|intros ks _].
  destruct (min_by_key ks) as [[g k']|]; [apply halts_ret|apply halts_unwrap].
Qed.

(** ** CX *)

Lemma cx_cycle_any p1 p2 fp fuel (o : list G) v i o' v' :
  length o = length v ->
  (forall j, nth_error v j = Some true -> nth_error o j = nth_error p1 j \/ nth_error o j = nth_error p2 j) ->
  may (cx_cycle eqb fuel p1 p2 fp o v i) (o', v') ->
  length o' = length o /\ length v' = length v /\
  (forall j, nth_error v' j = Some true -> nth_error o' j = nth_error p1 j \/ nth_error o' j = nth_error p2 j) /\
  (forall j, nth_error v j = Some true -> nth_error v' j = Some true) /\
  (i < length v -> 0 < fuel -> nth_error v' i = Some true).
Proof.
  revert o v i; induction fuel as [|f IH]; cbn [cx_cycle]; intros o v i Hl Hv H; [destruct H|].
  apply may_bind in H as (x & Hx & H); apply may_idx in Hx.
  destruct x; [cbn in H; injection H as <- <-; repeat split; auto|].
  apply may_bind in H as (v1 & Hv1 & H); apply may_set in Hv1 as [Hi ->].
  apply may_bind in H as (g & Hg & H); apply may_bind in H as (o1 & Ho1 & H); apply may_set in Ho1 as [Hi' ->].
  apply may_bind in H as (i' & _ & H).
  assert (Hg' : nth_error p1 i = Some g \/ nth_error p2 i = Some g).
  { destruct fp; apply may_idx in Hg; auto. }
  apply IH in H as (R1 & R2 & R3 & R4 & R5); rewrite ?upd_length in *; auto.
  - split; auto; split; auto; split; auto; split.
    + intros j Hj; apply R4; destruct (Nat.eq_dec j i) as [->|Hne].
      * apply nth_error_upd_eq; auto.
      * rewrite nth_error_upd_ne; auto.
    + intros _ _; apply R4, nth_error_upd_eq; auto.
  - intros j Hj; destruct (Nat.eq_dec j i) as [->|Hne].
    + rewrite nth_error_upd_eq by auto; destruct Hg' as [-> | ->]; auto.
    + rewrite nth_error_upd_ne in Hj by auto; rewrite nth_error_upd_ne by auto; auto.
Qed.

Lemma cx_any p1 p2 (r : list G) :
  may (cycle_crossover eqb p1 p2) r ->
  length r = length p1 /\ length p2 = length p1 /\
  forall i, nth_error r i = nth_error p1 i \/ nth_error r i = nth_error p2 i.
Proof.
  unfold cycle_crossover; intros H.
  apply may_bind in H as ([] & Hl & H); apply may_massert, Nat.eqb_eq in Hl.
  destruct (Nat.ltb_spec (length p1) 2) as [H2|H2]; [cbn in H; subst; auto|].
  apply may_bind in H as (g0 & _ & H).
  enough (K : forall fuel fp o v s, length o = length p1 -> length v = length p1 -> s < length p1 ->
    (forall j, nth_error v j = Some true -> nth_error o j = nth_error p1 j \/ nth_error o j = nth_error p2 j) ->
    may (cx_loop eqb fuel p1 p2 fp o v s) r ->
    length r = length p1 /\ forall i, i < length p1 -> nth_error r i = nth_error p1 i \/ nth_error r i = nth_error p2 i).
  { apply K in H; rewrite ?repeat_length; auto; [|lia|].
    - destruct H as [H3 H4]; split; auto; split; auto; intros i.
      destruct (Nat.lt_ge_cases i (length p1)) as [Hi|Hi]; auto.
      left; rewrite !(proj2 (nth_error_None _ _)); auto; lia.
    - intros j Hj; apply nth_error_In, repeat_spec in Hj; discriminate. }
  clear H; induction fuel as [|f IH]; cbn [cx_loop]; intros fp o v s Ho Hv Hs Hi H; [destruct H|].
  rewrite (proj2 (Nat.ltb_lt _ _)) in H by auto.
  apply may_bind in H as ([o' v'] & Hc & H).
  apply cx_cycle_any in Hc as (R1 & R2 & R3 & R4 & R5); auto; [|congruence].
  destruct (first_false v') as [s'|] eqn:E.
  - apply first_false_some in E as [E _]; apply IH in H; auto; try congruence.
    apply nth_error_some_lt in E; congruence.
  - cbn in H; subst o'; split; [congruence|]; intros i Hlt; apply R3.
    apply first_false_none; auto; congruence.
Qed.

Lemma cx_cycle_halts p1 p2 fp fuel (o : list G) v i :
  unvisited v < fuel -> halts (cx_cycle eqb fuel p1 p2 fp o v i).
Proof.
  revert o v i; induction fuel as [|f IH]; cbn [cx_cycle]; intros o v i Hf; [lia|].
  apply halts_bind; [apply halts_idx|]; intros x Hx; apply may_idx in Hx.
  destruct x; [apply halts_ret|].
  apply halts_bind; [apply halts_set|]; intros v' Hv'; apply may_set in Hv' as [_ ->].
  apply halts_bind; [destruct fp; apply halts_idx|]; intros g _.
  apply halts_bind; [apply halts_set|]; intros o' _.
  apply halts_bind; [destruct fp; apply halts_unwrap|]; intros i' _.
  apply IH; pose proof (unvisited_upd v i Hx); lia.
Qed.

Lemma cx_cycle_unvisited p1 p2 fp fuel (o : list G) v i o' v' :
  may (cx_cycle eqb fuel p1 p2 fp o v i) (o', v') ->
  length v' = length v /\ unvisited v' <= unvisited v /\ (nth_error v i = Some false -> unvisited v' < unvisited v).
Proof.
  revert o v i; induction fuel as [|f IH]; cbn [cx_cycle]; intros o v i H; [destruct H|].
  apply may_bind in H as (x & Hx & H); apply may_idx in Hx.
  destruct x; [cbn in H; injection H as <- <-; repeat split; auto; rewrite Hx; discriminate|].
  apply may_bind in H as (v1 & Hv1 & H); apply may_set in Hv1 as [Hi ->].
  apply may_bind in H as (g & _ & H); apply may_bind in H as (o1 & _ & H); apply may_bind in H as (i' & _ & H).
  apply IH in H as (R1 & R2 & _); rewrite upd_length in R1; pose proof (unvisited_upd v i Hx); repeat split; auto; lia.
Qed.

Lemma cx_halts p1 p2 : halts (cycle_crossover eqb p1 p2).
Proof.
  unfold cycle_crossover; apply halts_bind; [apply halts_massert|]; intros _ _.
  destruct (Nat.ltb_spec (length p1) 2) as [H2|H2]; [apply halts_ret|].
  apply halts_bind; [apply halts_idx|]; intros g0 _.
  assert (K : forall fuel fp o v s, length v = length p1 -> nth_error v s = Some false -> unvisited v < fuel ->
    halts (cx_loop eqb fuel p1 p2 fp o v s)).
  { induction fuel as [|f IH]; cbn [cx_loop]; intros fp o v s Hv Hs Hf; [lia|].
    destruct (_ <? _); [|apply halts_ret].
    apply halts_bind; [apply cx_cycle_halts; pose proof (unvisited_le v); lia|]; intros [o' v'] H.
    apply cx_cycle_unvisited in H as (R1 & _ & R3); apply R3 in Hs.
    destruct (first_false v') as [s'|] eqn:E; [|apply halts_ret].
    apply first_false_some in E as [E _]; apply IH; auto; lia. }
  apply K; [apply repeat_length| |].
  - destruct (length p1); [lia|reflexivity].
  - pose proof (unvisited_le (repeat false (length p1))); rewrite repeat_length in *; lia.
Qed.
End Any.
