(** * PCrossoverPmx: proofs about PMX. *)
From Coq Require Import List Bool Arith NArith Lia Permutation.
From Verif Require Import Rnd LRnd MOperators MCrossover Spec POperatorsNeighbors LGenes.
Import ListNotations.

Lemma nth_error_segment {A} (l : list A) a b i :
  a <= b -> b <= length l -> nth_error (segment l a b) i = if i <? b - a then nth_error l (a + i) else None.
Proof.
  intros H1 H2; unfold segment.
  destruct (Nat.ltb_spec i (b - a)) as [H|H].
  - rewrite <- (firstn_skipn a l) at 2.
    rewrite nth_error_app2; rewrite firstn_length_le by lia; [|lia].
    replace (a + i - a) with i by lia.
    rewrite <- (firstn_skipn (b - a) (skipn a l)) at 2.
    rewrite nth_error_app1; auto. rewrite firstn_length_le; auto. rewrite skipn_length; lia.
  - apply nth_error_None; rewrite firstn_length_le; [lia|]. rewrite skipn_length; lia.
Qed.

Lemma segment_length {A} (l : list A) a b : a <= b -> b <= length l -> length (segment l a b) = b - a.
Proof. intros H1 H2; unfold segment; rewrite firstn_length_le; auto; rewrite skipn_length; lia. Qed.

Lemma segment_split {A} (l : list A) a b :
  a <= b -> l = firstn a l ++ segment l a b ++ skipn b l.
Proof.
  intros H; unfold segment; replace b with ((b - a) + a) at 2 by lia.
  rewrite <- skipn_skipn', firstn_skipn, firstn_skipn; auto.
Qed.

Lemma segment_nodup {A} (l : list A) a b : a <= b -> NoDup l -> NoDup (segment l a b).
Proof.
  intros H Hn; rewrite (segment_split l a b H) in Hn.
  apply NoDup_app_r, NoDup_app_l in Hn; auto.
Qed.

Lemma segment_in {A} (l : list A) a b x :
  a <= b -> b <= length l -> In x (segment l a b) <-> exists i, a <= i < b /\ nth_error l i = Some x.
Proof.
  intros H1 H2; split.
  - intros H; apply In_nth_error in H as [i Hi]; rewrite nth_error_segment in Hi by auto.
    destruct (Nat.ltb_spec i (b - a)); [|discriminate]; exists (a + i); split; auto; lia.
  - intros (i & Hi & Hx); apply (nth_error_In _ (i - a)); rewrite nth_error_segment by auto.
    destruct (Nat.ltb_spec (i - a) (b - a)); [|lia]; replace (a + (i - a)) with i by lia; auto.
Qed.

Section Maps.
Context {G : Type} (eqb : G -> G -> bool).
Hypothesis Heq : eq_ok eqb.
Variables s1 s2 : list G.
Hypothesis Hn1 : NoDup s1.
Hypothesis Hn2 : NoDup s2.
Hypothesis Hls : length s2 = length s1.

(** One replacement step, and [k] of them. *)
Definition pstep (g h : G) : Prop := exists i, nth_error s1 i = Some g /\ nth_error s2 i = Some h.
Fixpoint psteps (k : nat) (g h : G) : Prop :=
  match k with O => g = h | S k' => exists m, psteps k' g m /\ pstep m h end.

Lemma pstep_inj g g' h : pstep g h -> pstep g' h -> g = g'.
Proof.
  intros (i & H1 & H2) (j & H3 & H4).
  assert (i = j) by (apply (NoDup_nth_inj s2 i j h); auto); subst j; rewrite H1 in H3; injection H3; auto.
Qed.

Lemma pstep_fun g h h' : pstep g h -> pstep g h' -> h = h'.
Proof.
  intros (i & H1 & H2) (j & H3 & H4).
  assert (i = j) by (apply (NoDup_nth_inj s1 i j g); auto); subst j; rewrite H2 in H4; injection H4; auto.
Qed.

Lemma pstep_in g h : pstep g h -> In g s1 /\ In h s2.
Proof. intros (i & H1 & H2); split; eapply nth_error_In; eauto. Qed.

Lemma psteps_inj k1 k2 g1 g2 r :
  ~ In g1 s2 -> ~ In g2 s2 -> psteps k1 g1 r -> psteps k2 g2 r -> k1 = k2 /\ g1 = g2.
Proof.
  intros H1 H2; revert k2 r; induction k1 as [|k1 IH]; intros [|k2] r; cbn.
  - intros -> ->; auto.
  - intros -> (m & _ & Hm); apply pstep_in in Hm; tauto.
  - intros (m & _ & Hm) ->; apply pstep_in in Hm; tauto.
  - intros (m & Hm & Hs) (m' & Hm' & Hs').
    assert (m = m') by (eapply pstep_inj; eauto); subst m'.
    destruct (IH k2 m) as [-> ->]; auto.
Qed.

(** All points of a trajectory of length k+1 lie in s1 when the last does not stop. *)
Lemma psteps_traj k g r :
  psteps k g r -> In r s1 -> exists l, length l = S k /\ incl l s1 /\
    forall i x, nth_error l i = Some x -> psteps i g x.
Proof.
  revert r; induction k as [|k IH]; cbn; intros r H Hr.
  - subst r; exists [g]; split; auto; split; [intros x [<-|[]]; auto|].
    intros [|i] x Hx; cbn in *; [injection Hx as <-; auto|destruct i; discriminate].
  - destruct H as (m & Hm & Hs).
    destruct (IH m Hm) as (l & Hl & Hi & Hx); [apply pstep_in in Hs; tauto|].
    exists (l ++ [r]); split; [rewrite app_length; cbn; lia|]; split.
    + intros x Hin; apply in_app_or in Hin as [Hin|[<-|[]]]; auto.
    + intros i x Hi'; destruct (Nat.lt_ge_cases i (S k)) as [Hlt|Hge].
      * rewrite nth_error_app1 in Hi' by lia; auto.
      * rewrite nth_error_app2 in Hi' by lia; rewrite Hl in Hi'.
        destruct (i - S k) eqn:Ei; cbn in Hi'; [|destruct n; discriminate].
        injection Hi' as <-; replace i with (S k) by lia; cbn; exists m; auto.
Qed.

Lemma psteps_bound k g r : ~ In g s2 -> psteps k g r -> In r s1 -> k < length s1.
Proof.
  intros Hg Hk Hr; destruct (psteps_traj k g r Hk Hr) as (l & Hl & Hi & Hx).
  assert (NoDup l).
  { apply NoDup_nth_error; intros i j Hlt E.
    destruct (nth_error_lt l i Hlt) as [x Ex].
    apply (psteps_inj i j g g x); auto; apply Hx; congruence. }
  pose proof (NoDup_incl_length H Hi); lia.
Qed.

Lemma psteps_front k g h r : pstep g h -> psteps k h r -> psteps (S k) g r.
Proof.
  revert r; induction k as [|k IH]; cbn; intros r Hs H.
  - subst; exists g; auto.
  - destruct H as (m & Hm & Hr); exists m; split; auto; apply IH; auto.
Qed.

Lemma psteps_maps k g r : psteps k g r -> ~ In r s1 -> pmx_maps s1 s2 g r.
Proof.
  intros H Hr.
  assert (forall k g m, psteps k g m -> pmx_maps s1 s2 m r -> pmx_maps s1 s2 g r).
  { induction k0 as [|k0 IH]; cbn; intros g0 m; [intros ->; auto|].
    intros (m' & H1 & (i & H2 & H3)) H4; eapply IH; eauto; econstructor; eauto. }
  eapply H0; eauto; constructor; auto.
Qed.

Lemma maps_psteps g r : pmx_maps s1 s2 g r -> ~ In r s1 /\ exists k, psteps k g r.
Proof.
  induction 1 as [g Hg|g i h r H1 H2 H [IH1 [k IH2]]].
  - split; auto; exists 0; reflexivity.
  - split; auto; exists (S k); eapply psteps_front; eauto; exists i; auto.
Qed.

Lemma pmx_maps_inj g1 g2 r :
  ~ In g1 s2 -> ~ In g2 s2 -> pmx_maps s1 s2 g1 r -> pmx_maps s1 s2 g2 r -> g1 = g2.
Proof.
  intros H1 H2 Hr1 Hr2; apply maps_psteps in Hr1 as (_ & k1 & Hk1); apply maps_psteps in Hr2 as (_ & k2 & Hk2).
  eapply psteps_inj; [exact H1|exact H2|eauto|eauto].
Qed.

Lemma pmx_maps_fun g r r' : pmx_maps s1 s2 g r -> pmx_maps s1 s2 g r' -> r = r'.
Proof.
  induction 1 as [g Hg|g i h r H1 H2 H IH]; intros H'; inversion H'; subst; auto.
  - exfalso; apply Hg; eapply nth_error_In; eauto.
  - exfalso; apply H0; eapply nth_error_In; eauto.
  - apply IH; assert (i = i0) by (apply (NoDup_nth_inj s1 i i0 g); auto); subst i0; rewrite H2 in H3; injection H3 as <-; auto.
Qed.

Lemma pmx_maps_in g r : pmx_maps s1 s2 g r -> r = g \/ In r s2.
Proof.
  induction 1 as [g Hg|g i h r H1 H2 H [->|IH]]; auto; right; eapply nth_error_In; eauto.
Qed.

Lemma pmx_resolve_spec fuel g0 k g :
  ~ In g0 s2 -> psteps k g0 g -> length s1 < k + fuel ->
  must (pmx_resolve eqb fuel s1 s2 g) (fun r => pmx_maps s1 s2 g0 r).
Proof.
  intros Hg0; revert k g; induction fuel as [|fuel IH]; intros k g Hk Hf.
  - cbn; destruct (in_dec (gene_dec eqb Heq) g s1) as [Hi|Hi].
    + pose proof (psteps_bound k g0 g Hg0 Hk Hi); lia.
    + destruct k as [|k]; [lia|]. cbn in Hk; destruct Hk as (m & Hm & Hs).
      assert (k < length s1) by (eapply psteps_bound; eauto; apply pstep_in in Hs; tauto). lia.
  - cbn [pmx_resolve]; destruct (find_position eqb g s1) as [pos|] eqn:E.
    + apply (find_position_some eqb Heq) in E as [E _].
      destruct (nth_error_lt s2 pos) as [h Hh]; [rewrite Hls; eapply nth_error_some_lt; eauto|].
      rewrite (idx_some _ _ _ Hh); cbn [bind]; apply (IH (S k)); [|lia].
      cbn; exists g; split; auto; exists pos; auto.
    + cbn; apply (find_position_none eqb Heq) in E; eapply psteps_maps; eauto.
Qed.

End Maps.

Section Pmx.
Context {G : Type} (eqb : G -> G -> bool).
Hypothesis Heq : eq_ok eqb.
Variables p1 p2 : list G.
Hypothesis Hnd : NoDup p1.
Hypothesis HP : Permutation p1 p2.

Let Hlen : length p2 = length p1.
Proof. symmetry; apply Permutation_length; auto. Qed.

Let Hnd2 : NoDup p2.
Proof. eapply Permutation_NoDup; eauto. Qed.

(** What PMX must return. *)
Definition pmx_result (a b : nat) (r : list G) : Prop :=
  length r = length p1 /\
  (forall i, a <= i < b -> nth_error r i = nth_error p1 i) /\
  (forall i g, ~ (a <= i < b) -> nth_error p2 i = Some g ->
     exists x, nth_error r i = Some x /\ pmx_maps (segment p1 a b) (segment p2 a b) g x).

Lemma pmx_result_perm a b r : a <= b -> b <= length p1 -> pmx_result a b r -> Permutation p1 r.
Proof.
  intros Hab Hb (Hl & Hin & Hout).
  assert (Hb2 : b <= length p2) by lia.
  pose proof (segment_nodup p1 a b Hab Hnd) as N1; pose proof (segment_nodup p2 a b Hab Hnd2) as N2.
  assert (Hout' : forall i x, ~ (a <= i < b) -> nth_error r i = Some x ->
     exists g, nth_error p2 i = Some g /\ ~ In g (segment p2 a b) /\ pmx_maps (segment p1 a b) (segment p2 a b) g x).
  { intros i x Hi Hx; destruct (nth_error_lt p2 i) as [g Hg]; [apply nth_error_some_lt in Hx; lia|].
    exists g; split; auto; split.
    - intros H; apply segment_in in H as (j & Hj & Hjg); auto.
      assert (i = j) by (apply (NoDup_nth_inj p2 i j g Hnd2); auto); lia.
    - destruct (Hout i g Hi Hg) as (x' & Hx' & Hm); rewrite Hx in Hx'; injection Hx' as <-; auto. }
  assert (Hseg : forall i x, a <= i < b -> nth_error r i = Some x -> In x (segment p1 a b)).
  { intros i x Hi Hx; rewrite Hin in Hx by auto; apply segment_in; auto; exists i; auto. }
  apply incl_Permutation; auto.
  - apply NoDup_nth_error; intros i j Hi E; rewrite Hl in Hi.
    destruct (nth_error_lt r i) as [x Hx]; [lia|]; rewrite Hx in E; symmetry in E.
    destruct (Nat.lt_ge_cases i a) as [Hia|Hia];
    [assert (Ni : ~ (a <= i < b)) by lia|destruct (Nat.lt_ge_cases i b) as [Hib|Hib];
      [assert (Yi : a <= i < b) by lia|assert (Ni : ~ (a <= i < b)) by lia]];
    (destruct (Nat.lt_ge_cases j a) as [Hja|Hja];
    [assert (Nj : ~ (a <= j < b)) by lia|destruct (Nat.lt_ge_cases j b) as [Hjb|Hjb];
      [assert (Yj : a <= j < b) by lia|assert (Nj : ~ (a <= j < b)) by lia]]);
    repeat match goal with
    | H : ~ (a <= ?k < b), E : nth_error r ?k = Some ?x |- _ =>
        let g := fresh "g" in let A := fresh in let B := fresh in let C := fresh in
        destruct (Hout' k x H E) as (g & A & B & C); clear H
    | H : a <= ?k < b, E : nth_error r ?k = Some ?x |- _ =>
        let A := fresh in let B := fresh in
        pose proof (Hseg k x H E) as A; pose proof (Hin k H) as B; rewrite E in B; clear H
    end;
    try (match goal with
    | H : pmx_maps _ _ ?g x, H' : pmx_maps _ _ ?g' x |- _ =>
        assert (g = g') by (eapply pmx_maps_inj; [exact N2| | |exact H|exact H']; auto);
        subst; eapply (NoDup_nth_inj p2); [exact Hnd2| |]; eassumption
    end);
    try (match goal with
    | H : pmx_maps _ _ ?g x, H' : In x _ |- _ =>
        exfalso; apply (maps_psteps (segment p1 a b) (segment p2 a b)) in H; tauto
    end);
    try (eapply (NoDup_nth_inj p1); [exact Hnd|symmetry; eassumption|symmetry; eassumption]).
  - intros x Hx; apply In_nth_error in Hx as [i Hi].
    destruct (Nat.lt_ge_cases i a) as [Hia|Hia]; [|destruct (Nat.lt_ge_cases i b) as [Hib|Hib]].
    2: { rewrite Hin in Hi by lia; eapply nth_error_In; eauto. }
    all: destruct (Hout' i x) as (g & Hg & _ & Hm); auto; try lia;
      apply (Permutation_in x (Permutation_sym HP)); apply pmx_maps_in in Hm as [->|Hm];
      [eapply nth_error_In; eauto|apply segment_in in Hm as (j & _ & Hj); auto; eapply nth_error_In; eauto].
Qed.

Lemma pmx_spec fuel a b :
  a <= b -> b <= length p1 -> b - a < fuel ->
  must (partially_mapped_crossover eqb fuel p1 p2 (a, b)) (fun r => Permutation p1 r /\ pmx_result a b r).
Proof.
  intros Hab Hb Hf; assert (Hb2 : b <= length p2) by lia.
  enough (H : must (partially_mapped_crossover eqb fuel p1 p2 (a, b)) (pmx_result a b)).
  { eapply must_mono; [|exact H]; intros r Hr; split; [exact (pmx_result_perm a b r Hab Hb Hr)|exact Hr]. }
  unfold partially_mapped_crossover.
  rewrite <- Hlen, Nat.eqb_refl; cbn [massert bind]; rewrite Hlen.
  destruct (Nat.ltb_spec (length p1) 2) as [H|H].
  - cbn; split; auto; split; auto.
    intros i g Hi Hg; assert (E : p1 = p2) by (apply perm_short; auto).
    rewrite <- E in Hg |- *; exists g; split; auto; constructor.
    intros Hs; apply segment_in in Hs as (j & Hj & Hjg); auto.
    assert (i = j) by (apply (NoDup_nth_inj p1 i j g Hnd); auto); lia.
  - destruct (nth_error_lt p1 0) as [g0 Hg0]; [lia|].
    rewrite (idx_some _ _ _ Hg0); cbn [bind].
    rewrite (slice_ok p1 a b) by auto; cbn [bind]; fold (segment p1 a b).
    rewrite copy_range_ok; [cbn [bind]|auto|rewrite repeat_length; auto|rewrite segment_length; auto].
    rewrite (slice_ok p2 a b) by auto; cbn [bind]; fold (segment p2 a b).
    set (off := firstn a (repeat g0 (length p1)) ++ segment p1 a b ++ skipn b (repeat g0 (length p1))).
    assert (Hoff : length off = length p1).
    { unfold off; rewrite !app_length, segment_length by auto.
      rewrite firstn_length_le by (rewrite repeat_length; lia); rewrite skipn_length, repeat_length; lia. }
    assert (Hofs : forall i, a <= i < b -> nth_error off i = nth_error p1 i).
    { intros i Hi; unfold off.
      assert (Lf : length (firstn a (repeat g0 (length p1))) = a) by (rewrite firstn_length_le; auto; rewrite repeat_length; lia).
      rewrite nth_error_app2 by lia; rewrite nth_error_app1 by (rewrite Lf, segment_length; auto; lia).
      rewrite Lf, nth_error_segment by auto.
      destruct (Nat.ltb_spec (i - a) (b - a)); [|lia]; f_equal; lia. }
    eapply must_mono; [|apply must_mapM with (Q := fun i x =>
       (a <= i < b -> nth_error p1 i = Some x) /\
       (forall g, ~ (a <= i < b) -> nth_error p2 i = Some g -> pmx_maps (segment p1 a b) (segment p2 a b) g x))].
    + intros r Hr.
      assert (Hlr : length r = length p1) by (apply Forall2_len in Hr; rewrite seq_length in Hr; lia).
      assert (Hat : forall i x, nth_error r i = Some x ->
         (a <= i < b -> nth_error p1 i = Some x) /\
         (forall g, ~ (a <= i < b) -> nth_error p2 i = Some g -> pmx_maps (segment p1 a b) (segment p2 a b) g x)).
      { intros i x Hx; pose proof (nth_error_some_lt _ _ _ Hx) as Hi.
        eapply Forall2_nth in Hr; [exact Hr| |exact Hx].
        rewrite Hoff; rewrite nth_error_seq' by lia; auto. }
      split; auto; split.
      * intros i Hi; destruct (nth_error_lt r i) as [x Hx]; [lia|].
        rewrite Hx; symmetry; apply (Hat i x); auto.
      * intros i g Hi Hg; destruct (nth_error_lt r i) as [x Hx]; [apply nth_error_some_lt in Hg; lia|].
        exists x; split; auto; apply (Hat i x); auto.
    + intros i Hi; apply in_seq in Hi; rewrite Hoff in Hi.
      unfold in_range; destruct (Nat.leb_spec a i) as [Hai|Hai]; destruct (Nat.ltb_spec i b) as [Hib|Hib]; cbn [andb negb].
      1: { destruct (nth_error_lt p1 i) as [x Hx]; [lia|]; rewrite (idx_some off i x) by (rewrite Hofs; auto); cbn.
           split; auto; intros g Hn; lia. }
      all: destruct (nth_error_lt p2 i) as [g Hg]; [lia|]; rewrite (idx_some _ _ _ Hg); cbn [bind];
        eapply must_mono; [|apply (pmx_resolve_spec eqb Heq (segment p1 a b) (segment p2 a b)) with (g0 := g) (k := 0)];
        [intros x Hx; split; [lia|]; intros g' _ Hg'; rewrite Hg in Hg'; injection Hg' as <-; auto
        |apply segment_nodup; auto|rewrite !segment_length; auto
        |intros Hs; apply segment_in in Hs as (j & Hj & Hjg); auto; assert (i = j) by (apply (NoDup_nth_inj p2 i j g Hnd2); auto); lia
        |reflexivity|rewrite segment_length; auto].
Qed.

End Pmx.

Lemma pmx_bad_range {G} (eqb : G -> G -> bool) fuel p1 p2 a b :
  length p1 = length p2 -> 2 <= length p1 -> b < a \/ length p1 < b ->
  must_fail (partially_mapped_crossover eqb fuel p1 p2 (a, b)) Panic.
Proof.
  intros Hl H2 Hr; unfold partially_mapped_crossover.
  rewrite Hl, Nat.eqb_refl; cbn [massert bind]; rewrite <- Hl.
  rewrite (proj2 (Nat.ltb_ge _ _)) by auto.
  destruct (nth_error_lt p1 0) as [g0 Hg0]; [lia|]; rewrite (idx_some _ _ _ Hg0); cbn [bind].
  apply must_fail_bind_l; unfold slice.
  destruct Hr as [Hr|Hr].
  - rewrite (proj2 (Nat.leb_gt a b)) by auto; reflexivity.
  - rewrite (proj2 (Nat.leb_gt b (length p1))) by auto; rewrite andb_false_r; reflexivity.
Qed.

(** Identical parents. *)
Lemma pmx_same {G} (eqb : G -> G -> bool) fuel (p : list G) a b :
  eq_ok eqb -> NoDup p -> a <= b -> b <= length p -> b - a < fuel ->
  must (partially_mapped_crossover eqb fuel p p (a, b)) (fun r => r = p).
Proof.
  intros Heq Hnd Hab Hb Hf; eapply must_mono; [|apply (pmx_spec eqb Heq p p Hnd (Permutation_refl p)); auto].
  intros r (_ & Hl & Hin & Hout); apply list_ext; intros i.
  destruct (Nat.lt_ge_cases i (length p)) as [Hi|Hi].
  - assert (D : a <= i < b \/ ~ (a <= i < b)) by lia; destruct D as [D|D]; auto.
    destruct (nth_error_lt p i Hi) as [g Hg]; destruct (Hout i g D Hg) as (x & Hx & Hm).
    rewrite Hx, Hg; f_equal; inversion Hm as [|? j h ? H1 H2]; subst; auto.
    exfalso; assert (Hs : In g (segment p a b)) by (eapply nth_error_In; eauto).
    apply segment_in in Hs as (k & Hk & Hkg); auto.
    assert (i = k) by (apply (NoDup_nth_inj p i k g Hnd); auto); lia.
  - rewrite (proj2 (nth_error_None p i)), (proj2 (nth_error_None r i)) by lia; auto.
Qed.

(** With repeated genes the mapping loop may never end. *)
Lemma pmx_diverges (fuel : nat) :
  must_fail (partially_mapped_crossover Nat.eqb fuel [0; 1] [0; 0] (0, 1)) NoFuel.
Proof.
  unfold partially_mapped_crossover; cbn.
  assert (H : forall f, must_fail (pmx_resolve Nat.eqb f [0] [0] 0) NoFuel).
  { induction f as [|f IH]; cbn; auto. }
  apply must_fail_bind_l, must_fail_bind_l, H.
Qed.
