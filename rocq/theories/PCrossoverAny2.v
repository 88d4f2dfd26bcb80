(** * PCrossoverAny2: PMX and OX on arbitrary parents. *)
From Coq Require Import List Bool Arith NArith Lia Permutation.
From Verif Require Import Rnd LRnd MOperators MCrossover Spec SpecC POperatorsNeighbors LGenes
  PCrossoverPmx PCrossoverOx PCrossoverAny.
Import ListNotations.

Section Pmx.
Context {G : Type} (eqb : G -> G -> bool).
Hypothesis Heq : eq_ok eqb.

(** The chain together with its number of replacements. *)
Inductive chainn (s1 s2 : list G) : nat -> G -> G -> Prop :=
| cn_stop g : ~ In g s1 -> chainn s1 s2 0 g g
| cn_step k g i h r :
    nth_error s1 i = Some g -> (forall j, j < i -> nth_error s1 j <> Some g) ->
    nth_error s2 i = Some h -> chainn s1 s2 k h r -> chainn s1 s2 (S k) g r.

Lemma chain_chainn s1 s2 g r : pmx_chain s1 s2 g r <-> exists k, chainn s1 s2 k g r.
Proof.
  split.
  - induction 1 as [g H|g i h r H1 H2 H3 H (k & IH)]; [exists 0; constructor; auto|].
    exists (S k); econstructor; eauto.
  - intros (k & H); induction H; [constructor; auto|econstructor; eauto].
Qed.

Lemma first_pos_fun (s : list G) i j g :
  nth_error s i = Some g -> (forall k, k < i -> nth_error s k <> Some g) ->
  nth_error s j = Some g -> (forall k, k < j -> nth_error s k <> Some g) -> i = j.
Proof.
  intros H1 H2 H3 H4; destruct (Nat.lt_trichotomy i j) as [H|[H|H]]; auto.
  - exfalso; apply (H4 i); auto.
  - exfalso; apply (H2 j); auto.
Qed.

Lemma chainn_fun s1 s2 k k' g r r' : chainn s1 s2 k g r -> chainn s1 s2 k' g r' -> k = k' /\ r = r'.
Proof.
  intros H; revert k' r'; induction H as [g H|k g i h r H1 H2 H3 H IH]; intros k' r' H'.
  - inversion H' as [|? ? i h ? A]; subst; auto; exfalso; apply H; eapply nth_error_In; eauto.
  - inversion H' as [? A|k1 ? i' h' ? A1 A2 A3 A4]; subst.
    + exfalso; apply A; eapply nth_error_In; eauto.
    + assert (i = i') by exact (first_pos_fun s1 i i' g H1 H2 A1 A2); subst i'.
      rewrite H3 in A3; injection A3 as <-; destruct (IH _ _ A4); auto.
Qed.

Lemma chainn_bound s1 s2 k g r : chainn s1 s2 k g r -> k <= length s1.
Proof.
  intros H; assert (K : exists l, length l = k /\ NoDup l /\ incl l s1 /\ forall x, In x l -> exists j, 0 < j <= k /\ chainn s1 s2 j x r).
  { induction H as [g H|k g i h r H1 H2 H3 H (l & L1 & L2 & L3 & L4)].
    - exists []; repeat split; try constructor; intros x [].
    - exists (g :: l); split; [cbn; lia|]; split; [|split].
      + constructor; auto; intros Hi; apply L4 in Hi as (j & Hj & Hc).
        assert (Hc' : chainn s1 s2 (S k) g r) by (econstructor; eauto).
        destruct (chainn_fun _ _ _ _ _ _ _ Hc Hc'); lia.
      + intros x [<-|Hx]; auto; eapply nth_error_In; eauto.
      + intros x [<-|Hx]; [exists (S k); split; [lia|econstructor; eauto]|].
        destruct (L4 x Hx) as (j & Hj & Hc); exists j; split; auto; lia. }
  destruct K as (l & <- & L2 & L3 & _); apply NoDup_incl_length; auto.
Qed.

Lemma resolve_chain fuel s1 s2 g r : may (pmx_resolve eqb fuel s1 s2 g) r -> pmx_chain s1 s2 g r.
Proof.
  revert g; induction fuel as [|f IH]; cbn [pmx_resolve]; intros g H; [destruct H|].
  destruct (find_position eqb g s1) as [i|] eqn:E.
  - apply may_bind in H as (h & Hh & H); apply may_idx in Hh.
    apply (find_position_some eqb Heq) in E as [E1 E2]; econstructor; eauto.
  - cbn in H; subst; constructor; apply (find_position_none eqb Heq); auto.
Qed.

Lemma find_position_first g s i :
  nth_error s i = Some g -> (forall j, j < i -> nth_error s j <> Some g) -> find_position eqb g s = Some i.
Proof.
  intros H1 H2; destruct (find_position_in eqb Heq g s) as (j & Hj & _); [eapply nth_error_In; eauto|].
  rewrite Hj; f_equal; apply (find_position_some eqb Heq) in Hj as [A B]; exact (first_pos_fun s j i g A B H1 H2).
Qed.

Lemma chainn_resolve s1 s2 k g r fuel : chainn s1 s2 k g r -> k < fuel -> pmx_resolve eqb fuel s1 s2 g = Ret r.
Proof.
  intros H; revert fuel; induction H as [g H|k g i h r H1 H2 H3 H IH]; intros [|f] Hf; try lia; cbn [pmx_resolve].
  - rewrite (proj2 (find_position_none eqb Heq _ _)); auto.
  - rewrite (find_position_first _ _ _ H1 H2), (idx_some _ _ _ H3); cbn [bind]; apply IH; lia.
Qed.

Lemma resolve_cases fuel s1 s2 g :
  length s1 = length s2 ->
  (exists r, pmx_resolve eqb fuel s1 s2 g = Ret r) \/ pmx_resolve eqb fuel s1 s2 g = Fail NoFuel.
Proof.
  intros Hl; revert g; induction fuel as [|f IH]; cbn [pmx_resolve]; intros g; auto.
  destruct (find_position eqb g s1) as [i|] eqn:E; [|eauto].
  apply (find_position_some eqb Heq) in E as [E _]; apply nth_error_some_lt in E.
  destruct (nth_error_lt s2 i) as [h Hh]; [lia|]; rewrite (idx_some _ _ _ Hh); cbn [bind]; auto.
Qed.

Lemma mapM_fail {A B} (f : A -> M B) l e :
  (forall a, In a l -> (exists x, f a = Ret x) \/ f a = Fail e) -> (exists a, In a l /\ f a = Fail e) ->
  mapM f l = Fail e.
Proof.
  induction l as [|h t IH]; intros H (a & Ha & E); [destruct Ha|]; cbn [mapM].
  destruct (H h (or_introl eq_refl)) as [(x & Hx)|Hx]; rewrite Hx; cbn [bind]; auto.
  rewrite IH; auto.
  - intros b Hb; apply H; right; auto.
  - destruct Ha as [->|Ha]; [rewrite Hx in E; discriminate|exists a; auto].
Qed.

(** The state of PMX before the genes outside the range are placed. *)
Lemma pmx_start fuel (p1 p2 : list G) a b :
  length p1 = length p2 -> 2 <= length p1 -> a <= b -> b <= length p1 ->
  exists off, length off = length p1 /\ (forall i, a <= i < b -> nth_error off i = nth_error p1 i) /\
  partially_mapped_crossover eqb fuel p1 p2 (a, b) =
  mapM (fun i => if negb (in_range a b i)
                 then g <- idx p2 i ;; pmx_resolve eqb fuel (segment p1 a b) (segment p2 a b) g
                 else idx off i) (seq 0 (length p1)).
Proof.
  intros Hlen H Hab Hb; unfold partially_mapped_crossover.
  rewrite Hlen, Nat.eqb_refl; cbn [massert bind]; rewrite <- Hlen.
  rewrite (proj2 (Nat.ltb_ge _ _)) by auto.
  destruct (nth_error_lt p1 0) as [g0 Hg0]; [lia|].
  rewrite (idx_some _ _ _ Hg0); cbn [bind].
  rewrite (slice_ok p1 a b) by auto; cbn [bind]; fold (segment p1 a b).
  rewrite copy_range_ok; [cbn [bind]|auto|rewrite repeat_length; auto|rewrite segment_length; auto].
  rewrite (slice_ok p2 a b) by lia; cbn [bind]; fold (segment p2 a b).
  set (off := firstn a (repeat g0 (length p1)) ++ segment p1 a b ++ skipn b (repeat g0 (length p1))).
  assert (Hoff : length off = length p1).
  { unfold off; rewrite !app_length, segment_length by auto.
    rewrite firstn_length_le by (rewrite repeat_length; lia); rewrite skipn_length, repeat_length; lia. }
  exists off; split; auto; split; [|rewrite Hoff; auto].
  intros i Hi; unfold off.
  assert (Lf : length (firstn a (repeat g0 (length p1))) = a) by (rewrite firstn_length_le; auto; rewrite repeat_length; lia).
  rewrite nth_error_app2 by lia; rewrite nth_error_app1 by (rewrite Lf, segment_length; auto; lia).
  rewrite Lf, nth_error_segment by auto.
  destruct (Nat.ltb_spec (i - a) (b - a)); [|lia]; f_equal; lia.
Qed.

Lemma in_range_spec a b i : in_range a b i = true <-> a <= i < b.
Proof. unfold in_range; rewrite andb_true_iff, Nat.leb_le, Nat.ltb_lt; tauto. Qed.
Lemma not_in_range a b i : in_range a b i = false <-> ~ (a <= i < b).
Proof. rewrite <- in_range_spec; destruct (in_range a b i); intuition discriminate. Qed.

(** What PMX can return. *)
Lemma pmx_any fuel (p1 p2 : list G) a b r :
  length p1 = length p2 -> 2 <= length p1 -> a <= b -> b <= length p1 ->
  may (partially_mapped_crossover eqb fuel p1 p2 (a, b)) r ->
  length r = length p1 /\
  (forall i, a <= i < b -> nth_error r i = nth_error p1 i) /\
  (forall i g, ~ (a <= i < b) -> nth_error p2 i = Some g ->
     exists x, nth_error r i = Some x /\ pmx_chain (segment p1 a b) (segment p2 a b) g x).
Proof.
  intros Hl H2 Hab Hb H; destruct (pmx_start fuel p1 p2 a b Hl H2 Hab Hb) as (off & O1 & O2 & E).
  rewrite E in H; apply may_mapM in H.
  assert (Hlr : length r = length p1) by (apply Forall2_len in H; rewrite seq_length in H; lia).
  assert (Hat : forall i x, nth_error r i = Some x ->
    may (if negb (in_range a b i)
         then g <- idx p2 i ;; pmx_resolve eqb fuel (segment p1 a b) (segment p2 a b) g else idx off i) x).
  { intros i x Hx; pose proof (nth_error_some_lt _ _ _ Hx) as Hi.
    eapply Forall2_nth in H; [exact H| |exact Hx]; rewrite nth_error_seq' by lia; auto. }
  split; auto; split.
  - intros i Hi; destruct (nth_error_lt r i) as [x Hx]; [lia|]; pose proof (Hat i x Hx) as K.
    rewrite (proj2 (in_range_spec a b i) Hi) in K; cbn [negb] in K; apply may_idx in K; rewrite Hx, <- K; auto.
  - intros i g Hi Hg; destruct (nth_error_lt r i) as [x Hx]; [apply nth_error_some_lt in Hg; lia|].
    exists x; split; auto; pose proof (Hat i x Hx) as K.
    rewrite (proj2 (not_in_range a b i) Hi) in K; cbn [negb] in K.
    apply may_bind in K as (g' & Hg' & K); apply may_idx in Hg'; rewrite Hg in Hg'; injection Hg' as <-.
    eapply resolve_chain; eauto.
Qed.

Lemma pmx_ends fuel (p1 p2 : list G) a b :
  length p1 = length p2 -> 2 <= length p1 -> a <= b -> b <= length p1 -> b - a < fuel ->
  (forall i g, ~ (a <= i < b) -> nth_error p2 i = Some g ->
     exists x, pmx_chain (segment p1 a b) (segment p2 a b) g x) ->
  must (partially_mapped_crossover eqb fuel p1 p2 (a, b)) (fun _ => True).
Proof.
  intros Hl H2 Hab Hb Hf H; destruct (pmx_start fuel p1 p2 a b Hl H2 Hab Hb) as (off & O1 & O2 & E).
  rewrite E; eapply must_mono; [|apply must_mapM with (Q := fun _ _ => True)]; auto.
  intros i Hi; apply in_seq in Hi.
  destruct (in_range a b i) eqn:Er; cbn [negb].
  - apply in_range_spec in Er; destruct (nth_error_lt off i) as [x Hx]; [lia|]; rewrite (idx_some _ _ _ Hx); cbn; auto.
  - apply not_in_range in Er; destruct (nth_error_lt p2 i) as [g Hg]; [lia|]; rewrite (idx_some _ _ _ Hg); cbn [bind].
    destruct (H i g Er Hg) as (x & Hx); apply chain_chainn in Hx as (k & Hk).
    rewrite (chainn_resolve _ _ _ _ _ _ Hk); cbn; auto.
    apply chainn_bound in Hk; rewrite segment_length in Hk by auto; lia.
Qed.

Lemma pmx_hangs fuel (p1 p2 : list G) a b :
  length p1 = length p2 -> 2 <= length p1 -> a <= b -> b <= length p1 ->
  (exists i g, ~ (a <= i < b) /\ nth_error p2 i = Some g /\
     forall x, ~ pmx_chain (segment p1 a b) (segment p2 a b) g x) ->
  must_fail (partially_mapped_crossover eqb fuel p1 p2 (a, b)) NoFuel.
Proof.
  intros Hl H2 Hab Hb (i & g & Hi & Hg & Hn); destruct (pmx_start fuel p1 p2 a b Hl H2 Hab Hb) as (off & O1 & O2 & E).
  assert (Hs : length (segment p1 a b) = length (segment p2 a b)) by (rewrite !segment_length; lia).
  rewrite E, mapM_fail with (e := NoFuel); [reflexivity| |].
  - intros j Hj; apply in_seq in Hj; destruct (in_range a b j) eqn:Er; cbn [negb].
    + apply in_range_spec in Er; destruct (nth_error_lt off j) as [x Hx]; [lia|]; rewrite (idx_some _ _ _ Hx); eauto.
    + destruct (nth_error_lt p2 j) as [h Hh]; [lia|]; rewrite (idx_some _ _ _ Hh); cbn [bind].
      apply resolve_cases; auto.
  - exists i; split; [apply in_seq; apply nth_error_some_lt in Hg; lia|].
    rewrite (proj2 (not_in_range a b i) Hi); cbn [negb]; rewrite (idx_some _ _ _ Hg); cbn [bind].
    destruct (resolve_cases fuel _ _ g Hs) as [(r & Er)|Er]; auto.
    exfalso; apply (Hn r), (resolve_chain fuel); rewrite Er; reflexivity.
Qed.

(** Exactly when it ends. *)
Lemma pmx_ends_iff (p1 p2 : list G) a b :
  length p1 = length p2 -> 2 <= length p1 -> a <= b -> b <= length p1 ->
  (exists fuel, must (partially_mapped_crossover eqb fuel p1 p2 (a, b)) (fun _ => True)) <->
  (forall i g, ~ (a <= i < b) -> nth_error p2 i = Some g ->
     exists x, pmx_chain (segment p1 a b) (segment p2 a b) g x).
Proof.
  intros Hl H2 Hab Hb; split.
  - intros (fuel & H) i g Hi Hg; destruct (must_exists _ _ H) as (r & Hr).
    apply pmx_any in Hr as (_ & _ & Hr); auto; destruct (Hr i g Hi Hg) as (x & _ & Hx); eauto.
  - intros H; exists (S (b - a)); apply pmx_ends; auto.
Qed.
End Pmx.

(** ** OX *)
Section Ox.
Context {G : Type} (eqb : G -> G -> bool).
Hypothesis Heq : eq_ok eqb.
Variables p1 p2 : list G.
Hypothesis Hlen : length p1 = length p2.
Variables a b : nat.
Hypothesis Hab : a < b.
Hypothesis Hb : b <= length p1.

Let n := length p1.
Let seg := segment p1 a b.
Let out g := negb (mem eqb g seg).
Let c t := (b + t) mod n.

Let c_lt t : c t < n.
Proof. exact (ox_c_lt p1 p1 (Permutation_refl _) a b Hab Hb t). Qed.
Let c_next t : c (S t) = if c t + 1 =? n then 0 else c t + 1.
Proof. exact (ox_c_next p1 p1 (Permutation_refl _) a b Hab Hb t). Qed.
Let c_small t : t < n -> c t = if t <? n - b then b + t else b + t - n.
Proof. exact (ox_c_small p1 p1 (Permutation_refl _) a b Hab Hb t). Qed.
Let c_stop k : k <= n - (b - a) -> (c k =? a) = (k =? n - (b - a)).
Proof. exact (ox_stop p1 p1 (Permutation_refl _) a b Hab Hb k). Qed.

(** [st]: the genes of parent 2 read so far. *)
Definition reads (st : list G) : Prop := forall j g, nth_error st j = Some g -> nth_error p2 (c j) = Some g.

(** Partial result: the kept ones among the genes read so far are placed. *)
Definition placed (w g : list G) : Prop :=
  length g = n /\ (forall i, a <= i < b -> nth_error g i = nth_error p1 i) /\
  (forall t, t < length w -> nth_error g (c t) = nth_error w t).

Lemma placed_seg w g : placed w g -> segment g a b = seg.
Proof.
  intros (H1 & H2 & _); apply list_ext; intros i; unfold seg.
  rewrite !nth_error_segment by (try rewrite H1; unfold n; lia).
  destruct (Nat.ltb_spec i (b - a)); auto; apply H2; lia.
Qed.

Lemma reads_snoc st g : reads st -> nth_error p2 (c (length st)) = Some g -> reads (st ++ [g]).
Proof.
  intros H Hg j x Hx; destruct (Nat.lt_ge_cases j (length st)) as [Hj|Hj].
  - rewrite nth_error_app1 in Hx by auto; auto.
  - assert (j = length st) by (apply nth_error_some_lt in Hx; rewrite app_length in Hx; cbn in Hx; lia); subst j.
    rewrite nth_error_app2, Nat.sub_diag in Hx by auto; cbn in Hx; congruence.
Qed.

Lemma placed_snoc w gn g :
  placed w gn -> length w < n - (b - a) -> placed (w ++ [g]) (upd gn (c (length w)) g).
Proof.
  intros (H1 & H2 & H3) Hk; split; [rewrite upd_length; auto|]; split.
  - intros i Hi; rewrite nth_error_upd_ne; auto.
    rewrite c_small by lia; destruct (Nat.ltb_spec (length w) (n - b)); unfold n in *; lia.
  - intros t Ht; rewrite app_length in Ht; cbn in Ht; destruct (Nat.eq_dec t (length w)) as [->|Htk].
    + rewrite nth_error_upd_eq by (rewrite H1; apply c_lt).
      rewrite nth_error_app2, Nat.sub_diag by auto; auto.
    + rewrite nth_error_upd_ne; [rewrite nth_error_app1 by lia; apply H3; lia|].
      rewrite !c_small by lia.
      destruct (Nat.ltb_spec (length w) (n - b)); destruct (Nat.ltb_spec t (n - b)); unfold n in *; lia.
Qed.

(** One iteration of the loop. *)
Lemma ox_step f st gn :
  reads st -> placed (filter out st) gn -> length (filter out st) < n - (b - a) ->
  exists g, nth_error p2 (c (length st)) = Some g /\ reads (st ++ [g]) /\
  (out g = true -> placed (filter out (st ++ [g])) (upd gn (c (length (filter out st))) g) /\
     length (filter out (st ++ [g])) = S (length (filter out st)) /\
     ox_loop eqb (S f) p2 n a b gn (c (length (filter out st))) (c (length st)) =
     ox_loop eqb f p2 n a b (upd gn (c (length (filter out st))) g) (c (length (filter out (st ++ [g])))) (c (length (st ++ [g])))) /\
  (out g = false -> placed (filter out (st ++ [g])) gn /\ length (filter out (st ++ [g])) = length (filter out st) /\
     ox_loop eqb (S f) p2 n a b gn (c (length (filter out st))) (c (length st)) =
     ox_loop eqb f p2 n a b gn (c (length (filter out (st ++ [g])))) (c (length (st ++ [g])))).
Proof.
  intros Hr Hp Hk.
  destruct (nth_error_lt p2 (c (length st))) as [g Hg]; [rewrite <- Hlen; apply c_lt|].
  exists g; split; auto; split; [apply reads_snoc; auto|].
  assert (Es : slice gn a b = Ret seg).
  { pose proof Hp as (H1 & _); rewrite slice_ok by (try rewrite H1; unfold n; lia).
    fold (segment gn a b); rewrite (placed_seg _ _ Hp); auto. }
  assert (Ed : (c (length (filter out st)) =? a) = false).
  { rewrite c_stop by lia; apply Nat.eqb_neq; lia. }
  assert (El : length (st ++ [g]) = S (length st)) by (rewrite app_length; cbn; lia).
  rewrite filter_app; cbn [filter]; split; intros Ho; rewrite Ho.
  - split; [apply placed_snoc; auto|]; split; [rewrite app_length; cbn; lia|].
    cbn [ox_loop]; rewrite Ed, Es; cbn [bind]; rewrite (idx_some _ _ _ Hg); cbn [bind].
    unfold out in Ho; rewrite Ho.
    rewrite set_ok by (destruct Hp as (-> & _); apply c_lt); cbn [bind].
    rewrite <- !c_next, El, app_length; cbn [length]; rewrite Nat.add_1_r; auto.
  - rewrite app_nil_r; split; auto; split; auto.
    cbn [ox_loop]; rewrite Ed, Es; cbn [bind]; rewrite (idx_some _ _ _ Hg); cbn [bind].
    unfold out in Ho; rewrite Ho, <- !c_next, El; auto.
Qed.

Lemma ox_any_loop f st gn r :
  reads st -> placed (filter out st) gn -> length (filter out st) <= n - (b - a) ->
  may (ox_loop eqb f p2 n a b gn (c (length (filter out st))) (c (length st))) r ->
  exists st', reads st' /\ length (filter out st') = n - (b - a) /\ placed (filter out st') r.
Proof.
  revert st gn; induction f as [|f IH]; intros st gn Hr Hp Hk H; [destruct H|].
  destruct (Nat.eq_dec (length (filter out st)) (n - (b - a))) as [E|E].
  - cbn [ox_loop] in H; rewrite c_stop, E, Nat.eqb_refl in H by lia; cbn in H; subst; exists st; auto.
  - destruct (ox_step f st gn Hr Hp) as (g & Hg & Hr' & S1 & S2); [lia|].
    destruct (out g) eqn:Eo.
    + destruct (S1 eq_refl) as (A1 & A2 & A3); rewrite A3 in H; apply IH in H; auto; lia.
    + destruct (S2 eq_refl) as (A1 & A2 & A3); rewrite A3 in H; apply IH in H; auto; lia.
Qed.

(** How far the next kept gene is. *)
Lemma ox_ends_loop j0 g0 : nth_error p2 j0 = Some g0 -> ~ In g0 seg ->
  forall f st gn d, reads st -> placed (filter out st) gn -> length (filter out st) <= n - (b - a) ->
  d < n -> c (length st + d) = j0 ->
  (n - (b - a) - length (filter out st)) * n + d < f ->
  must (ox_loop eqb f p2 n a b gn (c (length (filter out st))) (c (length st))) (fun _ => True).
Proof.
  intros Hj0 Hg0; induction f as [|f IH]; intros st gn d Hr Hp Hk Hd Hc Hf; [exfalso; exact (Nat.nlt_0_r _ Hf)|].
  destruct (Nat.eq_dec (length (filter out st)) (n - (b - a))) as [E|E].
  - cbn [ox_loop]; rewrite c_stop, E, Nat.eqb_refl by lia; cbn; auto.
  - destruct (ox_step f st gn Hr Hp) as (g & Hg & Hr' & S1 & S2); [lia|].
    assert (Hl' : length (st ++ [g]) = S (length st)) by (rewrite app_length; cbn; lia).
    destruct (out g) eqn:Eo.
    + destruct (S1 eq_refl) as (A1 & A2 & A3); rewrite A3.
      apply IH with (d := if d =? 0 then n - 1 else d - 1); auto; try lia.
      * destruct (Nat.eqb_spec d 0); lia.
      * destruct (Nat.eqb_spec d 0) as [->|Hd0].
        -- rewrite <- Hc; unfold c; rewrite Hl'.
           replace (b + (S (length st) + (n - 1))) with (b + (length st + 0) + 1 * n) by lia.
           apply Nat.mod_add; lia.
        -- rewrite <- Hc; f_equal; lia.
      * rewrite A2.
        assert (Hm : n - (b - a) - length (filter out st) = S (n - (b - a) - S (length (filter out st)))) by lia.
        rewrite Hm in Hf; cbn [Nat.mul] in Hf.
        generalize dependent ((n - (b - a) - S (length (filter out st))) * n); intros x Hx.
        destruct (Nat.eqb_spec d 0); lia.
    + destruct (S2 eq_refl) as (A1 & A2 & A3); rewrite A3.
      destruct (Nat.eq_dec d 0) as [->|Hd0].
      * exfalso; rewrite Nat.add_0_r in Hc; rewrite Hc, Hj0 in Hg; injection Hg as <-.
        apply negb_false_iff, (mem_In eqb Heq) in Eo; auto.
      * apply IH with (d := d - 1); auto; try lia.
        rewrite <- Hc; f_equal; lia.
Qed.

Lemma ox_hangs_loop : (forall g, In g p2 -> In g seg) ->
  forall f st gn, reads st -> placed (filter out st) gn -> length (filter out st) < n - (b - a) ->
  must_fail (ox_loop eqb f p2 n a b gn (c (length (filter out st))) (c (length st))) NoFuel.
Proof.
  intros Hall; induction f as [|f IH]; intros st gn Hr Hp Hk; [reflexivity|].
  destruct (ox_step f st gn Hr Hp Hk) as (g & Hg & Hr' & S1 & S2).
  assert (Eo : out g = false).
  { apply negb_false_iff, (mem_In eqb Heq), Hall; eapply nth_error_In; eauto. }
  destruct (S2 Eo) as (A1 & A2 & A3); rewrite A3; apply IH; auto; lia.
Qed.

Lemma ox_begin fuel : 2 <= n ->
  exists gn, placed [] gn /\
  order_crossover eqb fuel p1 p2 (a, b) = ox_loop eqb fuel p2 n a b gn (c 0) (c 0).
Proof.
  intros H; unfold order_crossover.
  rewrite Hlen, Nat.eqb_refl; cbn [massert bind]; rewrite <- Hlen; fold n.
  rewrite (proj2 (Nat.ltb_ge _ _)) by auto.
  destruct (nth_error_lt p1 0) as [g0 Hg0]; [unfold n in *; lia|].
  rewrite (idx_some _ _ _ Hg0); cbn [bind].
  rewrite (slice_ok p1 a b) by lia; cbn [bind]; fold (segment p1 a b).
  rewrite copy_range_ok; [cbn [bind]|lia|rewrite repeat_length; auto|rewrite segment_length; lia].
  replace (if negb (b =? n) then b else 0) with (c 0).
  2: { rewrite c_small by lia; rewrite Nat.add_0_r.
       destruct (Nat.eqb_spec b n); destruct (Nat.ltb_spec 0 (n - b)); cbn; unfold n in *; lia. }
  eexists; split; [|reflexivity]; split; [|split].
  - rewrite !app_length, segment_length by lia.
    rewrite firstn_length_le by (rewrite repeat_length; unfold n; lia); rewrite skipn_length, repeat_length; unfold n; lia.
  - intros i Hi.
    assert (Lf : length (firstn a (repeat g0 n)) = a) by (rewrite firstn_length_le; auto; rewrite repeat_length; unfold n; lia).
    rewrite nth_error_app2 by lia; rewrite nth_error_app1 by (rewrite Lf, segment_length; lia).
    rewrite Lf, nth_error_segment by lia.
    destruct (Nat.ltb_spec (i - a) (b - a)); [|lia]; f_equal; lia.
  - cbn; intros t Ht; lia.
Qed.

Lemma ox_any_raw fuel r : 2 <= n ->
  may (order_crossover eqb fuel p1 p2 (a, b)) r ->
  exists st, reads st /\ length (filter out st) = n - (b - a) /\ placed (filter out st) r.
Proof.
  intros H2 H; destruct (ox_begin fuel H2) as (gn & Hp & E); rewrite E in H.
  apply (ox_any_loop fuel [] gn r); auto; [|cbn; lia].
  intros [|j] g Hg; discriminate.
Qed.

Lemma ox_ends fuel : 2 <= n -> n * n < fuel ->
  (b - a = n \/ exists g, In g p2 /\ ~ In g seg) ->
  must (order_crossover eqb fuel p1 p2 (a, b)) (fun _ => True).
Proof.
  intros H2 Hf H; destruct (ox_begin fuel H2) as (gn & Hp & E); rewrite E.
  destruct H as [H|(g & Hg & Hs)].
  - destruct fuel as [|f]; [lia|]; cbn [ox_loop]; rewrite c_stop by lia.
    rewrite (proj2 (Nat.eqb_eq 0 _)) by lia; cbn; auto.
  - apply In_nth_error in Hg as (j & Hj).
    assert (Hjn : j < n) by (apply nth_error_some_lt in Hj; unfold n; lia).
    destruct (Nat.eq_dec b n) as [Eb|Eb].
    + apply (ox_ends_loop j g Hj Hs fuel [] gn j); auto; cbn [filter length]; try lia.
      * intros [|j'] g' Hg'; discriminate.
      * cbn; unfold c; rewrite Eb; replace (n + j) with (j + 1 * n) by lia; rewrite Nat.mod_add by lia; apply Nat.mod_small; auto.
      * assert ((n - (b - a) - 0) * n <= (n - 1) * n) by (apply Nat.mul_le_mono_r; lia).
        assert ((n - 1) * n + n = n * n) by (rewrite <- (Nat.mul_1_l n) at 3; rewrite <- Nat.mul_add_distr_r; f_equal; lia).
        lia.
    + assert (Hbn : b < n) by (unfold n in *; lia).
      apply (ox_ends_loop j g Hj Hs fuel [] gn (if b <=? j then j - b else j + n - b)); auto; cbn [filter length]; try lia.
      * intros [|j'] g' Hg'; discriminate.
      * destruct (Nat.leb_spec b j); lia.
      * cbn; unfold c; destruct (Nat.leb_spec b j).
        -- replace (b + (j - b)) with j by lia; apply Nat.mod_small; auto.
        -- replace (b + (j + n - b)) with (j + 1 * n) by lia; rewrite Nat.mod_add by lia; apply Nat.mod_small; auto.
      * assert ((n - (b - a) - 0) * n <= (n - 1) * n) by (apply Nat.mul_le_mono_r; lia).
        assert ((n - 1) * n + n = n * n) by (rewrite <- (Nat.mul_1_l n) at 3; rewrite <- Nat.mul_add_distr_r; f_equal; lia).
        destruct (Nat.leb_spec b j); lia.
Qed.

Lemma ox_hangs fuel : b - a < n -> (forall g, In g p2 -> In g seg) ->
  must_fail (order_crossover eqb fuel p1 p2 (a, b)) NoFuel.
Proof.
  intros Hn Hall; assert (H2 : 2 <= n) by lia.
  destruct (ox_begin fuel H2) as (gn & Hp & E); rewrite E.
  apply (ox_hangs_loop Hall fuel [] gn); auto; cbn [filter length]; try lia.
  intros [|j'] g' Hg'; discriminate.
Qed.

(** The genes read are a prefix of parent 2 repeated. *)
Lemma nth_error_repeated {A} (l : list A) m i :
  i < m * length l -> nth_error (repeated l m) i = nth_error l (i mod length l).
Proof.
  revert i; induction m as [|m IH]; intros i Hi; [cbn in Hi; lia|].
  unfold repeated; cbn [repeat concat]; fold (repeated l m).
  destruct (Nat.lt_ge_cases i (length l)) as [H|H].
  - rewrite nth_error_app1, Nat.mod_small by auto; auto.
  - rewrite nth_error_app2 by auto; rewrite IH by (cbn in Hi; lia); f_equal.
    replace i with (i - length l + 1 * length l) at 2 by lia; rewrite Nat.mod_add; auto; lia.
Qed.

Lemma repeated_length {A} (l : list A) m : length (repeated l m) = m * length l.
Proof. unfold repeated; induction m as [|m IH]; cbn; auto; rewrite app_length, IH; auto. Qed.

Lemma repeated_add {A} (l : list A) m k : repeated l (m + k) = repeated l m ++ repeated l k.
Proof. unfold repeated; rewrite repeat_app, concat_app; auto. Qed.

Lemma filter_repeated {A} (f : A -> bool) (l : list A) m : filter f (repeated l m) = repeated (filter f l) m.
Proof. unfold repeated; induction m as [|m IH]; cbn; auto; rewrite filter_app, IH; auto. Qed.

Lemma reads_prefix st m : reads st -> length st <= m * n -> st = firstn (length st) (repeated (rotated p2 b) m).
Proof.
  intros Hr Hm; assert (Hn : 0 < n) by (unfold n; lia).
  assert (Hl : length (rotated p2 b) = n) by (rewrite rotated_length; unfold n; lia).
  apply list_ext; intros i; destruct (Nat.lt_ge_cases i (length st)) as [Hi|Hi].
  - rewrite nth_error_firstn', nth_error_repeated by (try rewrite Hl; lia).
    rewrite Hl, nth_error_rotated by (try rewrite <- Hlen; fold n; auto; apply Nat.mod_upper_bound; lia).
    rewrite <- Hlen; fold n; rewrite Nat.add_mod_idemp_r by lia; fold (c i).
    destruct (nth_error_lt st i Hi) as [g Hg]; rewrite Hg; symmetry; apply Hr; auto.
  - rewrite !(proj2 (nth_error_None _ _)); auto.
    rewrite firstn_length; lia.
Qed.

Lemma ox_any fuel r keep m : 2 <= n -> may (order_crossover eqb fuel p1 p2 (a, b)) r ->
  (forall g, keep g = true <-> ~ In g (segment p1 a b)) -> n - (b - a) <= m ->
  length r = n /\ (forall i, a <= i < b -> nth_error r i = nth_error p1 i) /\
  rotated r b = firstn (n - (b - a)) (repeated (filter keep (rotated p2 b)) m) ++ segment p1 a b.
Proof.
  intros H2 H Hkeep Hm; apply ox_any_raw in H as (st & Hr & Hk & (H1 & Hin & Hpl)); auto.
  split; auto; split; auto.
  assert (Ek : forall l, filter keep l = filter out l).
  { intros l; apply filter_ext; intros g; unfold out; destruct (keep g) eqn:E.
    - apply Hkeep in E; symmetry; apply negb_true_iff, (mem_notIn eqb Heq); auto.
    - symmetry; apply negb_false_iff, (mem_In eqb Heq); unfold seg.
      destruct (in_dec (gene_dec eqb Heq) g (segment p1 a b)) as [Hi|Hi]; auto.
      apply Hkeep in Hi; rewrite Hi in E; discriminate. }
  rewrite Ek.
  assert (Hn : 0 < n) by lia.
  assert (Ew : filter out st = firstn (n - (b - a)) (repeated (filter out (rotated p2 b)) m)).
  { pose proof (reads_prefix st (m + length st) Hr) as Hpre.
    rewrite <- Hk.
    assert (Hle : length st <= (m + length st) * n).
    { rewrite Nat.mul_add_distr_r; transitivity (length st * n); [|lia].
      rewrite <- (Nat.mul_1_r (length st)) at 1; apply Nat.mul_le_mono_l; lia. }
    specialize (Hpre Hle).
    pose proof (firstn_skipn (length st) (repeated (rotated p2 b) (m + length st))) as Hs.
    rewrite <- Hpre in Hs.
    pose proof (f_equal (filter out) Hs) as Hs'; rewrite filter_app, filter_repeated in Hs'.
    destruct (Nat.eq_dec (length (filter out st)) 0) as [E0|E0].
    { destruct (filter out st); [reflexivity|discriminate]. }
    assert (HL : 1 <= length (filter out (rotated p2 b))).
    { destruct (filter out (rotated p2 b)) as [|x L] eqn:EL; [|cbn; lia].
      exfalso; apply (f_equal (@length G)) in Hs'; rewrite app_length, repeated_length in Hs'; cbn [length] in Hs'.
      rewrite Nat.mul_0_r in Hs'; lia. }
    apply (f_equal (firstn (length (filter out st)))) in Hs'.
    rewrite firstn_app, Nat.sub_diag, firstn_O, app_nil_r, firstn_all in Hs'.
    etransitivity; [exact Hs'|]; rewrite repeated_add, firstn_app.
    replace (length (filter out st) - length (repeated (filter out (rotated p2 b)) m)) with 0.
    - rewrite firstn_O, app_nil_r; auto.
    - rewrite repeated_length; assert (m * 1 <= m * length (filter out (rotated p2 b))) by (apply Nat.mul_le_mono_l; auto); lia. }
  rewrite <- Ew; fold seg.
  apply list_ext; intros i; destruct (Nat.lt_ge_cases i n) as [Hi|Hi].
  - rewrite nth_error_rotated by (rewrite H1; unfold n in *; lia).
    rewrite H1; fold (c i).
    destruct (Nat.lt_ge_cases i (n - (b - a))) as [H|H].
    + rewrite nth_error_app1 by lia; apply Hpl; lia.
    + rewrite nth_error_app2 by lia; rewrite Hk.
      unfold seg; rewrite nth_error_segment by lia.
      rewrite c_small by auto.
      destruct (Nat.ltb_spec i (n - b)); [unfold n in *; lia|].
      destruct (Nat.ltb_spec (i - (n - (b - a))) (b - a)); [|unfold n in *; lia].
      replace (a + (i - (n - (b - a)))) with (b + i - n) by (unfold n in *; lia).
      apply Hin; unfold n in *; lia.
  - rewrite !(proj2 (nth_error_None _ _)); auto.
    + rewrite app_length, Hk; unfold seg; rewrite segment_length by lia; unfold n in *; lia.
    + rewrite rotated_length, H1; auto.
Qed.

(** Exactly when it ends. *)
Lemma ox_ends_iff : 2 <= n ->
  (exists fuel, must (order_crossover eqb fuel p1 p2 (a, b)) (fun _ => True)) <->
  (b - a = n \/ exists g, In g p2 /\ ~ In g seg).
Proof.
  intros H2; split.
  - intros (fuel & H).
    destruct (Nat.eq_dec (b - a) n) as [E|E]; auto; right.
    destruct (filter out p2) as [|g l] eqn:El.
    + exfalso; assert (Hall : forall g, In g p2 -> In g seg).
      { intros g Hg; destruct (mem eqb g seg) eqn:Em; [apply (mem_In eqb Heq); auto|].
        assert (Hf : In g (filter out p2)) by (apply filter_In; unfold out; rewrite Em; auto); rewrite El in Hf; destruct Hf. }
      destruct (must_exists _ _ H) as (r & Hr).
      pose proof (ox_hangs fuel ltac:(unfold n in *; lia) Hall) as Hf.
      apply must_fail_may_fail in Hf; exact (must_no_fail _ _ _ H Hf).
    + exists g; assert (Hg : In g (filter out p2)) by (rewrite El; left; auto).
      apply filter_In in Hg as [Hg Ho]; split; auto; apply negb_true_iff in Ho; apply (mem_notIn eqb Heq); auto.
  - intros H; exists (S (n * n)); apply ox_ends; auto.
Qed.
End Ox.
