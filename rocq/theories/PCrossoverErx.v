(** * PCrossoverErx: proofs about ERX. *)
From Coq Require Import List Bool Arith NArith Lia Permutation.
From Verif Require Import Rnd LRnd MOperators MCrossover Spec POperatorsNeighbors LGenes.
Import ListNotations.

Lemma erx_free_ext {G} (p1 p2 u u' : list G) c x :
  (forall y, In y u <-> In y u') -> erx_free p1 p2 u c x <-> erx_free p1 p2 u' c x.
Proof. intros H; unfold erx_free; rewrite H; tauto. Qed.

Lemma erx_degree_ext {G} (p1 p2 u u' : list G) c d :
  (forall y, In y u <-> In y u') -> erx_degree p1 p2 u c d -> erx_degree p1 p2 u' c d.
Proof.
  intros H (l & H1 & H2 & H3); exists l; split; auto; split; auto.
  intros x; rewrite H3; apply erx_free_ext; auto.
Qed.

Lemma erx_rule_ext {G} (p1 p2 u u' : list G) c x :
  (forall y, In y u <-> In y u') -> erx_rule p1 p2 u c x -> erx_rule p1 p2 u' c x.
Proof.
  intros H [(H1 & d & Hd & Hm)|[H1 H2]].
  - left; split; [eapply erx_free_ext; eauto; intros y; symmetry; auto|].
    exists d; split; [eapply erx_degree_ext; eauto|].
    intros y Hy; destruct (Hm y) as (dy & Hdy & Hle); [eapply erx_free_ext; eauto|].
    exists dy; split; auto; eapply erx_degree_ext; eauto.
  - right; split; [|eapply first_not_in_ext; eauto].
    intros y Hy; apply (H1 y); eapply erx_free_ext; eauto.
Qed.

Section Erx.
Context {G : Type} (eqb : G -> G -> bool).
Hypothesis Heq : eq_ok eqb.

Lemma set_insert_in x y s : In y (set_insert eqb x s) <-> y = x \/ In y s.
Proof.
  unfold set_insert; destruct (mem eqb x s) eqn:E.
  - apply (mem_In eqb Heq) in E; split; auto; intros [->|H]; auto.
  - rewrite in_app_iff; cbn; intuition.
Qed.

Lemma set_insert_nodup x s : NoDup s -> NoDup (set_insert eqb x s).
Proof.
  intros H; unfold set_insert; destruct (mem eqb x s) eqn:E; auto.
  apply (mem_notIn eqb Heq) in E.
  eapply Permutation_NoDup; [apply Permutation_cons_append|]; constructor; auto.
Qed.

Lemma set_remove_in x y s : In y (set_remove eqb x s) <-> y <> x /\ In y s.
Proof.
  unfold set_remove; rewrite filter_In, negb_true_iff, (eqb_neq eqb Heq); tauto.
Qed.

Lemma set_remove_nodup x s : NoDup s -> NoDup (set_remove eqb x s).
Proof. apply NoDup_filter. Qed.

(** What the neighbour map [m] stores: for every gene [g] satisfying [K], a
    duplicate-free list of the genes related to [g] by [R]. *)
Definition nmap_ok (K : G -> Prop) (R : G -> G -> Prop) (m : @nmap G) : Prop :=
  forall g, K g -> exists s, nmap_get eqb m g = Ret s /\ NoDup s /\ forall x, In x s <-> R g x.

Lemma nmap_get_extend m g a b h :
  nmap_get eqb (nmap_extend eqb m g a b) h =
  if eqb g h then Ret (match nmap_get eqb m h with Ret s => set_insert eqb b (set_insert eqb a s) | _ => set_insert eqb b (set_insert eqb a []) end)
  else nmap_get eqb m h.
Proof.
  destruct (eqb g h) eqn:E.
  - apply Heq in E; subst h; induction m as [|[k s] m IH]; cbn.
    + rewrite (eqb_refl eqb Heq); auto.
    + destruct (eqb k g) eqn:Ek; cbn; rewrite Ek; auto.
  - induction m as [|[k s] m IH]; cbn.
    + rewrite E; auto.
    + destruct (eqb k g) eqn:Ek; cbn.
      * apply Heq in Ek; subst k; rewrite E; auto.
      * rewrite IH; auto.
Qed.

Lemma nmap_get_cases m h : (exists s, nmap_get eqb m h = Ret s) \/ nmap_get eqb m h = Fail Panic.
Proof.
  induction m as [|[k s] m IH]; cbn; auto; destruct (eqb k h); eauto.
Qed.

Definition nmap_has (m : @nmap G) (g : G) (s : list G) : Prop :=
  nmap_get eqb m g = Ret s \/ (nmap_get eqb m g = Fail Panic /\ s = []).

Lemma nmap_has_ex m g : exists s, nmap_has m g s.
Proof. destruct (nmap_get_cases m g) as [[s H]|H]; [exists s; left|exists []; right]; auto. Qed.

Lemma fold_extend es m g s :
  nmap_has m g s -> NoDup s ->
  exists s', nmap_has (fold_left (fun m e => nmap_extend eqb m (fst e) (fst (snd e)) (snd (snd e))) es m) g s'
    /\ NoDup s'
    /\ (forall x, In x s' <-> In x s \/ exists a b, In (g, (a, b)) es /\ (x = a \/ x = b))
    /\ ((exists ab, In (g, ab) es) -> nmap_get eqb (fold_left (fun m e => nmap_extend eqb m (fst e) (fst (snd e)) (snd (snd e))) es m) g = Ret s')
    /\ (nmap_get eqb m g = Ret s -> nmap_get eqb (fold_left (fun m e => nmap_extend eqb m (fst e) (fst (snd e)) (snd (snd e))) es m) g = Ret s').
Proof.
  revert m s; induction es as [|[h [a b]] es IH]; intros m s Hs Hn.
  - exists s; cbn; split; auto; split; auto; split; [|split; auto].
    + intros x; split; auto; intros [H|(a & b & [] & _)]; auto.
    + intros [ab []].
  - cbn [fold_left fst snd].
    destruct (eqb h g) eqn:E.
    + apply Heq in E; subst h.
      destruct (IH (nmap_extend eqb m g a b) (set_insert eqb b (set_insert eqb a s))) as (s' & H1 & H2 & H3 & H4 & H5).
      { left; rewrite nmap_get_extend, (eqb_refl eqb Heq); destruct Hs as [->|[-> ->]]; auto. }
      { apply set_insert_nodup, set_insert_nodup; auto. }
      assert (HR : nmap_get eqb (nmap_extend eqb m g a b) g = Ret (set_insert eqb b (set_insert eqb a s))).
      { rewrite nmap_get_extend, (eqb_refl eqb Heq); destruct Hs as [->|[-> ->]]; auto. }
      exists s'; split; auto; split; auto; split; [|split; auto].
      intros x; rewrite H3, !set_insert_in; split.
      * intros [[->|[->|H]]|(a' & b' & H & Hx)]; auto.
        -- right; exists a, b; split; auto; left; auto.
        -- right; exists a, b; split; auto; left; auto.
        -- right; exists a', b'; split; auto; right; auto.
      * intros [H|(a' & b' & [H|H] & Hx)]; auto.
        -- injection H as <- <-; tauto.
        -- right; exists a', b'; auto.
    + assert (Eg : nmap_get eqb (nmap_extend eqb m h a b) g = nmap_get eqb m g)
        by (rewrite nmap_get_extend, E; auto).
      destruct (IH (nmap_extend eqb m h a b) s) as (s' & H1 & H2 & H3 & H4 & H5); auto.
      { unfold nmap_has; rewrite Eg; auto. }
      exists s'; split; auto; split; auto; split; [|split].
      * intros x; rewrite H3; split; (intros [H|(a' & b' & H & Hx)]; [auto|right; exists a', b'; split; auto]).
        -- right; auto.
        -- destruct H as [H|H]; auto; injection H as -> -> ->; rewrite (eqb_refl eqb Heq) in E; discriminate.
      * intros [ab [H|H]]; [injection H as -> _; rewrite (eqb_refl eqb Heq) in E; discriminate|].
        apply H4; exists ab; auto.
      * intros H; apply H5; rewrite Eg; auto.
Qed.

(** The entries for one genome. *)
Lemma neighbors_of_ok (genome : list G) :
  1 <= length genome ->
  exists es, neighbors_of genome (length genome) = Ret es /\
    (forall g, In g genome -> exists ab, In (g, ab) es) /\
    forall g x, (exists a b, In (g, (a, b)) es /\ (x = a \/ x = b)) <-> cyc_adj genome g x.
Proof.
  intros Hn.
  assert (Hg0 : exists g : G, True) by (destruct genome as [|g t]; [cbn in Hn; lia|exists g; auto]).
  destruct Hg0 as [g0 _].
  set (n := length genome) in *.
  set (prv := fun i => if negb (i =? 0) then i - 1 else n - 1).
  set (nxt := fun i => if negb (i + 1 =? n) then i + 1 else 0).
  set (at_ := fun i => nth i genome g0).
  assert (Hat : forall i, i < n -> nth_error genome i = Some (at_ i)) by (intros i Hi; apply nth_error_nth'; auto).
  assert (Hprv : forall i, i < n -> prv i < n) by (intros i Hi; unfold prv; destruct (i =? 0); cbn; lia).
  assert (Hnxt : forall i, i < n -> nxt i < n).
  { intros i Hi; unfold nxt; destruct (Nat.eqb_spec (i + 1) n); cbn; lia. }
  assert (Hmod : forall i, i < n -> (i + 1) mod n = nxt i).
  { intros i Hi; unfold nxt; destruct (Nat.eqb_spec (i + 1) n) as [E|E]; cbn.
    - rewrite E; apply Nat.mod_same; lia.
    - apply Nat.mod_small; lia. }
  assert (Hpn : forall i, i < n -> nxt (prv i) = i).
  { intros i Hi; unfold nxt, prv; destruct (Nat.eqb_spec i 0) as [->|E]; cbn [negb].
    - replace (n - 1 + 1) with n by lia; rewrite Nat.eqb_refl; auto.
    - replace (i - 1 + 1) with i by lia; destruct (Nat.eqb_spec i n); cbn; lia. }
  assert (Hnp : forall i, i < n -> prv (nxt i) = i).
  { intros i Hi; unfold nxt, prv; destruct (Nat.eqb_spec (i + 1) n) as [E|E]; cbn [negb].
    - cbn; lia.
    - destruct (Nat.eqb_spec (i + 1) 0); cbn; lia. }
  exists (map (fun i => (at_ i, (at_ (prv i), at_ (nxt i)))) (seq 0 n)).
  split; [|split].
  - unfold neighbors_of; fold n.
    assert (Hall : forall i, In i (seq 0 n) -> i < n) by (intros i Hi; apply in_seq in Hi; lia).
    revert Hall; generalize (seq 0 n) as l; induction l as [|i l IH]; intros Hall; auto.
    cbn [mapM map]; fold (prv i) (nxt i).
    assert (Hi : i < n) by (apply Hall; left; auto).
    rewrite (idx_some _ _ _ (Hat i Hi)), (idx_some _ _ _ (Hat _ (Hprv i Hi))), (idx_some _ _ _ (Hat _ (Hnxt i Hi))).
    cbn [bind]; rewrite IH; auto; intros j Hj; apply Hall; right; auto.
  - intros g Hg; apply In_nth_error in Hg as [i Hi].
    pose proof (nth_error_some_lt _ _ _ Hi) as Hlt; fold n in Hlt.
    rewrite Hat in Hi by auto; injection Hi as <-.
    eexists; apply in_map_iff; exists i; split; [reflexivity|apply in_seq; lia].
  - intros g x; split.
    + intros (a & b & H & Hx); apply in_map_iff in H as (i & [= <- <- <-] & Hi).
      apply in_seq in Hi; assert (Hi' : i < n) by lia.
      destruct Hx as [->| ->].
      * right; exists (prv i); fold n; rewrite Hmod, Hpn by auto; auto.
      * left; exists i; fold n; rewrite Hmod by auto; auto.
    + intros [(i & H1 & H2)|(i & H1 & H2)]; fold n in H2;
      pose proof (nth_error_some_lt _ _ _ H1) as Hi; fold n in Hi;
      rewrite Hmod in H2 by auto; rewrite Hat in H1, H2 by auto;
      injection H1 as <-; injection H2 as <-.
      * exists (at_ (prv i)), (at_ (nxt i)); split; auto.
        apply in_map_iff; exists i; split; auto; apply in_seq; lia.
      * exists (at_ (prv (nxt i))), (at_ (nxt (nxt i))); split; [|rewrite Hnp; auto].
        apply in_map_iff; exists (nxt i); split; auto; apply in_seq; specialize (Hnxt i Hi); lia.
Qed.

Variables p1 p2 : list G.
Hypothesis Hnd : NoDup p1.
Hypothesis HP : Permutation p1 p2.

Let Hlen : length p2 = length p1.
Proof. symmetry; apply Permutation_length; auto. Qed.

Lemma build_neighbors_ok :
  1 <= length p1 ->
  exists m, build_neighbors eqb p1 p2 = Ret m /\
    nmap_ok (fun g => In g p1) (erx_free p1 p2 []) m.
Proof.
  intros Hn; unfold build_neighbors.
  destruct (neighbors_of_ok p1) as (e1 & E1 & K1 & A1); auto.
  destruct (neighbors_of_ok p2) as (e2 & E2 & K2 & A2); [lia|].
  rewrite E1; cbn [bind]; rewrite <- Hlen, E2; cbn [bind].
  eexists; split; [reflexivity|].
  intros g Hg.
  destruct (fold_extend (e1 ++ e2) [] g []) as (s' & H1 & H2 & H3 & H4 & _); [right; auto|constructor|].
  exists s'; split; [|split; auto].
  - apply H4; destruct (K1 g Hg) as [ab H]; exists ab; apply in_or_app; auto.
  - intros x; rewrite H3; unfold erx_free; rewrite <- A1, <- A2; split.
    + intros [[]|(a & b & H & Hx)]; split; auto; apply in_app_or in H as [H|H]; [left|right]; exists a, b; auto.
    + intros [[(a & b & H & Hx)|(a & b & H & Hx)] _]; right; exists a, b; split; auto; apply in_or_app; auto.
Qed.

Lemma nmap_remove_ok used m cur :
  nmap_ok (fun g => In g p1) (erx_free p1 p2 used) m ->
  nmap_ok (fun g => In g p1) (erx_free p1 p2 (cur :: used))
    (map (fun e => (fst e, set_remove eqb cur (snd e))) m).
Proof.
  intros H g Hg; destruct (H g Hg) as (s & Hs & Hn & Hx).
  exists (set_remove eqb cur s); split; [|split].
  - clear -Hs Heq; induction m as [|[k t] m IH]; cbn in *; [discriminate|].
    destruct (eqb k g); auto; injection Hs as <-; auto.
  - apply set_remove_nodup; auto.
  - intros x; rewrite set_remove_in, Hx; unfold erx_free; cbn; intuition.
Qed.

Lemma min_by_key_spec (l : list (G * nat)) g k :
  min_by_key l = Some (g, k) -> In (g, k) l /\ forall e, In e l -> k <= snd e.
Proof.
  revert g k; induction l as [|[h j] l IH]; cbn [min_by_key In]; intros g k; [discriminate|].
  destruct (min_by_key l) as [[g1 k1]|] eqn:E.
  - destruct (IH g1 k1 eq_refl) as [H1 H2].
    destruct (Nat.ltb_spec k1 j) as [Hlt|Hge]; intros Heq'; injection Heq' as <- <-; split; auto.
    + intros e [<-|H]; cbn; [lia|auto].
    + intros e [<-|H]; cbn; [lia|]. specialize (H2 _ H); lia.
  - intros Heq'; injection Heq' as <- <-; split; auto; intros e [<-|H]; cbn; [lia|].
    destruct l as [|[h' j'] l]; [destruct H|]; cbn [min_by_key] in E; destruct (min_by_key l) as [[? ?]|]; [destruct (_ <? _)|]; discriminate.
Qed.

Lemma min_by_key_none (l : list (G * nat)) : min_by_key l = None -> l = [].
Proof.
  destruct l as [|[h j] l]; auto; cbn [min_by_key]; destruct (min_by_key l) as [[? ?]|]; [destruct (_ <? _)|]; discriminate.
Qed.

Lemma cyc_adj_In l (a b : G) : cyc_adj l a b -> In b l.
Proof. intros [(i & H1 & H2)|(i & H1 & H2)]; eapply nth_error_In; eauto. Qed.

Lemma edge_next_spec m used cur :
  In cur p1 -> incl used p1 -> length used < length p1 ->
  nmap_ok (fun g => In g p1) (erx_free p1 p2 used) m ->
  must (edge_next eqb p1 m used cur) (fun nx => ~ In nx used /\ In nx p1 /\ erx_rule p1 p2 used cur nx).
Proof.
  intros Hc Hincl Hl Hm; unfold edge_next.
  destruct (Hm cur Hc) as (s & Es & Hns & Hxs); rewrite Es; cbn [bind].
  apply must_bind, must_pick_from; split.
  { intros E; assert (In s (perms s)) by (apply in_perms; auto); rewrite E in H; destruct H. }
  intros order Ho; apply in_perms in Ho.
  assert (Hfil : filter (fun g => negb (mem eqb g used)) order = order).
  { clear -Ho Hxs Heq.
    assert (forall x, In x order -> mem eqb x used = false).
    { intros x Hx; apply (mem_notIn eqb Heq).
      assert (In x s) by (eapply Permutation_in; [symmetry|]; eauto).
      apply Hxs in H; apply H. }
    clear Ho Hxs; induction order as [|x order IH]; cbn; auto.
    rewrite H by (left; auto); cbn; f_equal; apply IH; intros; apply H; right; auto. }
  rewrite Hfil; clear Hfil.
  assert (Hin1 : forall x, In x order -> In x p1).
  { intros x Hx; assert (Hs : In x s) by (eapply Permutation_in; [symmetry|]; eauto).
    apply Hxs in Hs as [[Ha|Ha] _]; apply cyc_adj_In in Ha; auto.
    eapply Permutation_in; [symmetry|]; eauto. }
  assert (Hdeg : forall x, In x order -> exists d, (ns <- nmap_get eqb m x ;; Ret (x, length ns)) = Ret (x, d) /\ erx_degree p1 p2 used x d).
  { intros x Hx; destruct (Hm x (Hin1 x Hx)) as (t & Et & Hnt & Hxt).
    exists (length t); rewrite Et; split; auto; exists t; auto. }
  apply must_bind.
  assert (Hkeyed : exists keyed, mapM (fun g => ns <- nmap_get eqb m g ;; Ret (g, length ns)) order = Ret keyed /\
     (forall g d, In (g, d) keyed -> In g order /\ erx_degree p1 p2 used g d) /\
     (forall g, In g order -> exists d, In (g, d) keyed)).
  { clear -Hdeg; induction order as [|x order IH].
    - exists []; split; auto; split; intros g; [intros d []|intros []].
    - destruct IH as (k & Ek & H1 & H2); [intros; apply Hdeg; right; auto|].
      destruct (Hdeg x) as (d & Ed & Hd); [left; auto|].
      exists ((x, d) :: k); cbn [mapM]; rewrite Ed; cbn [bind]; rewrite Ek; cbn [bind]; split; auto; split.
      + intros g e [E|H]; [injection E as <- <-; split; auto; left; auto|]. destruct (H1 _ _ H); split; auto; right; auto.
      + intros g [<-|H]; [exists d; left; auto|]. destruct (H2 _ H) as [e He]; exists e; right; auto. }
  destruct Hkeyed as (keyed & Ek & Hk1 & Hk2); rewrite Ek; cbn [must].
  assert (Hord : forall y, In y order <-> erx_free p1 p2 used cur y).
  { intros y; rewrite <- Hxs; split; apply Permutation_in; [symmetry|]; auto. }
  destruct (min_by_key keyed) as [[g k]|] eqn:Emin.
  - apply min_by_key_spec in Emin as [Hi Hmin]; cbn [must].
    destruct (Hk1 _ _ Hi) as [Hg Hd].
    split; [apply Hord in Hg; apply Hg|]; split; [auto|].
    left; split; [apply Hord; auto|]; exists k; split; auto.
    intros y Hy; apply Hord in Hy; destruct (Hk2 _ Hy) as [dy Hdy]; exists dy; split; [apply (Hk1 _ _ Hdy)|apply (Hmin _ Hdy)].
  - apply min_by_key_none in Emin; subst keyed.
    destruct (first_unvisited_exists eqb Heq p1 used Hnd Hl) as [x Hx]; rewrite Hx; cbn.
    apply (find_first_not_in eqb Heq) in Hx.
    pose proof Hx as (l1 & l2 & El & Hx1 & _); split; auto; split.
    + rewrite El; apply in_or_app; right; left; auto.
    + right; split; auto; intros y Hy; apply Hord in Hy; destruct (Hk2 _ Hy) as [dy []].
Qed.

Lemma erx_loop_spec k m visited cur :
  incl (cur :: visited) p1 -> NoDup (cur :: visited) -> k + length (cur :: visited) <= length p1 ->
  nmap_ok (fun g => In g p1) (erx_free p1 p2 visited) m ->
  must (erx_loop eqb p1 k m visited cur) (fun rest =>
    length rest = k /\ incl rest p1 /\ NoDup (cur :: rest) /\
    (forall x, In x (cur :: rest) -> ~ In x visited) /\
    forall i c x, nth_error (cur :: rest) i = Some c -> nth_error rest i = Some x ->
      erx_rule p1 p2 (visited ++ firstn (S i) (cur :: rest)) c x).
Proof.
  revert m visited cur; induction k as [|k IH]; intros m visited cur Hi Hn Hk Hm.
  - cbn [erx_loop must]; split; auto; split; [intros x []|]; split; [repeat constructor; auto|]; split.
    + intros x [<-|[]]; inversion Hn; auto.
    + intros i c x _ H; destruct i; discriminate.
  - cbn [erx_loop]; cbv zeta; apply must_bind.
    pose proof (nmap_remove_ok visited m cur Hm) as Hm'.
    eapply must_mono; [|apply edge_next_spec; [| | |exact Hm']].
    + intros nx (Hu & Hin & Hr); apply must_bind; eapply must_mono; [|apply IH; [| | |exact Hm']].
      * intros rest (Hl & Hinc & Hnd' & Hdis & Hrule); cbn [must].
        split; [cbn; auto|]; split; [intros x [<-|Hx]; auto|]; split; [|split].
        -- constructor; auto; intros H; apply (Hdis cur); auto; left; auto.
        -- intros x [<-|Hx]; [inversion Hn; auto|]. intros Hv; apply (Hdis x); auto; right; auto.
        -- intros [|i] c x Hc Hx.
           ++ cbn in Hc, Hx; injection Hc as <-; injection Hx as <-.
              eapply erx_rule_ext; [|exact Hr]; intros y; rewrite in_app_iff; cbn; tauto.
           ++ cbn [nth_error] in Hc, Hx; eapply erx_rule_ext; [|apply (Hrule i c x); auto].
              intros y; cbn [firstn]; rewrite !in_app_iff; cbn [In]; tauto.
      * intros x [<-|Hx]; auto.
      * constructor; auto.
      * cbn in *; lia.
    + apply Hi; left; auto.
    + auto.
    + cbn in *; lia.
Qed.

Lemma erx_spec pivot :
  In pivot p1 ->
  must (edge_recombination_crossover eqb p1 p2 pivot) (fun r =>
    Permutation p1 r /\ hd_error r = Some pivot /\
    forall i c x, nth_error r i = Some c -> nth_error r (S i) = Some x ->
      erx_rule p1 p2 (firstn (S i) r) c x).
Proof.
  intros Hp; unfold edge_recombination_crossover.
  rewrite <- Hlen, Nat.eqb_refl; cbn [massert bind]; rewrite Hlen.
  destruct (Nat.ltb_spec (length p1) 2) as [H|H].
  - clear HP Hlen; destruct p1 as [|y [|z t]]; cbn in Hp, H; [tauto| |lia].
    destruct Hp as [<-|[]]; cbn; split; auto; split; auto.
    intros i c x _ Hx; destruct i; discriminate.
  - destruct build_neighbors_ok as (m & Em & Hm); [lia|]; rewrite Em; cbn [bind].
    apply must_bind; eapply must_mono; [|apply erx_loop_spec; [| | |exact Hm]].
    + intros rest (Hl & Hinc & Hnd' & _ & Hrule); cbn [must]; split; [|split; [reflexivity|]].
      * apply incl_Permutation; auto; [|cbn; lia]. intros x [<-|Hx]; auto.
      * intros i c x Hc Hx; apply (Hrule i c x); auto.
    + intros x [<-|[]]; auto.
    + repeat constructor; auto.
    + cbn; lia.
Qed.

End Erx.

(** A pivot that is no gene of the parents makes ERX panic. *)
Lemma nmap_get_fold_none {G} (eqb : G -> G -> bool) (Heq : eq_ok eqb) es m g :
  nmap_get eqb m g = Fail Panic -> (forall ab, ~ In (g, ab) es) ->
  nmap_get eqb (fold_left (fun m e => nmap_extend eqb m (fst e) (fst (snd e)) (snd (snd e))) es m) g = Fail Panic.
Proof.
  revert m; induction es as [|[h [a b]] es IH]; intros m Hm Hes; auto.
  cbn [fold_left fst snd]; apply IH.
  - rewrite (nmap_get_extend eqb Heq); destruct (eqb h g) eqn:E; auto.
    apply Heq in E; subst h; exfalso; apply (Hes (a, b)); left; auto.
  - intros ab H; apply (Hes ab); right; auto.
Qed.

Lemma erx_bad_pivot {G} (eqb : G -> G -> bool) p1 p2 pivot :
  eq_ok eqb -> length p1 = length p2 -> 2 <= length p1 -> ~ In pivot p1 -> ~ In pivot p2 ->
  must_fail (edge_recombination_crossover eqb p1 p2 pivot) Panic.
Proof.
  intros Heq Hl H2 Hp1 Hp2; unfold edge_recombination_crossover.
  rewrite Hl, Nat.eqb_refl; cbn [massert bind]; rewrite <- Hl.
  rewrite (proj2 (Nat.ltb_ge _ _)) by auto.
  unfold build_neighbors.
  destruct (neighbors_of_ok p1) as (e1 & E1 & K1 & A1); [lia|].
  destruct (neighbors_of_ok p2) as (e2 & E2 & K2 & A2); [lia|].
  rewrite E1; cbn [bind]; rewrite Hl, E2; cbn [bind]; rewrite <- Hl.
  destruct (length p1 - 1) as [|k] eqn:E; [lia|].
  apply must_fail_bind_l; cbn [erx_loop]; cbv zeta; apply must_fail_bind_l.
  unfold edge_next.
  assert (Hmap : forall (m : @nmap G) f, nmap_get eqb m pivot = Fail Panic ->
            nmap_get eqb (map (fun e => (fst e, f (snd e))) m) pivot = Fail Panic).
  { clear; induction m as [|[h s] m IH]; intros f; cbn; auto; destruct (eqb h pivot); [discriminate|auto]. }
  rewrite Hmap; [reflexivity|].
  assert (Hadj : forall (l : list G) x, cyc_adj l pivot x -> In pivot l).
  { intros l x [(i & H1 & H3)|(i & H1 & H3)]; eapply nth_error_In; eauto. }
  apply nmap_get_fold_none; auto.
  intros [a b] H; apply in_app_or in H as [H|H]; [apply Hp1|apply Hp2]; eapply Hadj; [apply A1|apply A2];
    exists a, b; split; eauto.
Qed.
