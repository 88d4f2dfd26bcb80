(** * PCommon: common neighbours as a measure of the distance of two tours (C117). *)
From Coq Require Import List Bool Arith NArith Lia Permutation.
From Verif Require Import Rnd LRnd MOperators MMutation Spec SpecC SpecD SpecM LGenes POperatorsRandom POperatorsNeighbors
  PCrossoverOx PCrossoverSame PMutation PMutationProb PConnect PSteps.
Import ListNotations.

Lemma filter_map_length {A B} (h : A -> B) f (l : list A) :
  length (filter f (map h l)) = length (filter (fun x => f (h x)) l).
Proof. induction l as [|a l IH]; cbn; auto; destruct (f (h a)); cbn; auto. Qed.

Lemma filter_split {A} f (l : list A) : length (filter f l) + length (filter (fun x => negb (f x)) l) = length l.
Proof. induction l as [|a l IH]; cbn; auto; destruct (f a); cbn; lia. Qed.

(** ** Tours read from another position or backwards *)
Section Turn.
Context {G : Type}.

Lemma cyc_next_rotated (g : list G) k a b : k <= length g -> cyc_next g a b -> cyc_next (rotated g k) a b.
Proof.
  intros Hk (i & Ha & Hb); pose proof (nth_error_some_lt _ _ _ Ha) as Hi.
  set (n := length g) in *; assert (Hn : n <> 0) by lia.
  assert (E : (k + (i + (n - k)) mod n) mod n = i).
  { rewrite Nat.add_mod_idemp_r by auto; replace (k + (i + (n - k))) with (i + 1 * n) by lia.
    rewrite Nat.mod_add by auto; apply Nat.mod_small; auto. }
  exists ((i + (n - k)) mod n); rewrite rotated_length; fold n.
  assert (Hq : (i + (n - k)) mod n < n) by (apply Nat.mod_upper_bound; auto).
  rewrite !nth_error_rotated; fold n; try lia; [|apply Nat.mod_upper_bound; auto].
  split; [rewrite E; auto|].
  rewrite Nat.add_mod_idemp_r by auto.
  replace (k + ((i + (n - k)) mod n + 1)) with (k + (i + (n - k)) mod n + 1) by lia.
  rewrite <- Nat.add_mod_idemp_l by auto; rewrite E; auto.
Qed.

Lemma rotated_back (g : list G) k : k <= length g -> rotated (rotated g k) (length g - k) = g.
Proof.
  intros Hk; unfold rotated; rewrite skipn_app, firstn_app, skipn_length.
  rewrite (skipn_all2 (skipn k g)) by (rewrite skipn_length; lia).
  rewrite (firstn_all2 (skipn k g)) by (rewrite skipn_length; lia).
  rewrite Nat.sub_diag; cbn [skipn firstn app]; rewrite app_nil_r; apply firstn_skipn.
Qed.

Lemma cyc_next_turned (g : list G) k a b : k <= length g -> cyc_next (rotated g k) a b <-> cyc_next g a b.
Proof.
  intros Hk; split; [|apply cyc_next_rotated; auto].
  intros H; rewrite <- (rotated_back g k Hk); apply cyc_next_rotated; auto; rewrite rotated_length; lia.
Qed.

Lemma cyc_next_rev1 (g : list G) a b : cyc_next g a b -> cyc_next (rev g) b a.
Proof.
  intros (i & Ha & Hb); pose proof (nth_error_some_lt _ _ _ Ha) as Hi.
  rewrite nx_mod in Hb by auto; unfold nx in Hb.
  destruct (Nat.eqb_spec (S i) (length g)) as [E|E].
  - exists (length g - 1); rewrite rev_length.
    replace (length g - 1 + 1) with (length g) by lia; rewrite Nat.mod_same by lia.
    rewrite !nth_error_rev by lia; split.
    + rewrite Nat.sub_diag; auto.
    + rewrite <- Ha; f_equal; lia.
  - exists (length g - 2 - i); rewrite rev_length, Nat.mod_small by lia.
    rewrite !nth_error_rev by lia; split.
    + rewrite <- Hb; f_equal; lia.
    + rewrite <- Ha; f_equal; lia.
Qed.

Lemma cyc_adj_turned (g : list G) r a b : turned g r \/ turned (rev g) r -> cyc_adj g a b -> cyc_adj r a b.
Proof.
  intros [(k & Hk & ->)|(k & Hk & ->)]; unfold cyc_adj; rewrite !cyc_next_turned by auto; auto.
  intros [H|H]; apply cyc_next_rev1 in H; auto.
Qed.

Lemma turned_rev_back (g r : list G) a b : turned g r \/ turned (rev g) r -> cyc_adj r a b -> cyc_adj g a b.
Proof.
  intros [(k & Hk & ->)|(k & Hk & ->)]; unfold cyc_adj; rewrite !cyc_next_turned by auto; auto.
  intros [H|H]; apply cyc_next_rev1 in H; rewrite rev_involutive in H; auto.
Qed.

(** A path through all genes of a tour along neighbours is the tour. *)
Lemma path_is_tour (p r : list G) : NoDup p -> Permutation p r -> (forall a b, consec r a b -> cyc_adj p a b) ->
  turned p r \/ turned (rev p) r.
Proof.
  intros Hnd HP H; destruct r as [|x r].
  { apply Permutation_sym, Permutation_nil in HP; subst p; left; exists 0; auto. }
  assert (Hx : In x p) by (eapply Permutation_in; [apply Permutation_sym; eauto|left; auto]).
  apply In_nth_error in Hx as (k & Hk); pose proof (nth_error_some_lt _ _ _ Hk) as Hlt.
  destruct (path_turned p Hnd (x :: r) k) as [E|E]; auto.
  - eapply Permutation_NoDup; eauto.
  - symmetry; apply Permutation_length; auto.
  - rewrite Nat.mod_small by auto; cbn; auto.
  - left; exists k; split; auto; lia.
  - right; exists (length p - 1 - k); split; auto; rewrite rev_length; lia.
Qed.

End Turn.

Section Common.
Context {G : Type} (eqb ltb : G -> G -> bool).
Hypothesis Heq : eq_ok eqb.
Hypothesis Ht : lt_total ltb.
Hypothesis Hirr : forall a, ltb a a = false.

(** The step at each position, as a pair. *)
Definition step_pair (d : G) (g : list G) (k : nat) : G * G := neighbor ltb (nth k g d) (nth ((k + 1) mod length g) g d).

Lemma windows2_seq (d : G) (g : list G) :
  windows2 g = map (fun k => (nth k g d, nth (k + 1) g d)) (seq 0 (length g - 1)).
Proof.
  induction g as [|a [|b g] IH]; auto.
  change (windows2 (a :: b :: g)) with ((a, b) :: windows2 (b :: g)); rewrite IH.
  replace (length (a :: b :: g) - 1) with (S (length (b :: g) - 1)) by (cbn; lia).
  cbn [seq map]; f_equal; rewrite <- seq_shift, map_map; apply map_ext; intros k; cbn; auto.
Qed.

Lemma neighbor_pairs_seq (d : G) (g : list G) : g <> [] ->
  neighbor_pairs ltb g = Ret (map (step_pair d g) (seq 0 (length g))).
Proof.
  intros Hne; assert (Hn : length g <> 0) by (destruct g; cbn; [congruence|lia]).
  destruct (last_some g Hne) as (xl & Hl1 & Hl2).
  destruct (hd_error g) as [x0|] eqn:H0; [|destruct g; [congruence|discriminate]].
  unfold neighbor_pairs; rewrite Hl1, H0; cbn [unwrap bind]; f_equal.
  rewrite (windows2_seq d), map_map.
  replace (seq 0 (length g)) with (seq 0 (length g - 1) ++ [length g - 1]).
  - rewrite map_app; f_equal.
    + apply map_ext_in; intros k Hk; apply in_seq in Hk; unfold step_pair; cbn [fst snd].
      rewrite Nat.mod_small by lia; auto.
    + cbn [map]; unfold step_pair; f_equal.
      replace (length g - 1 + 1) with (length g) by lia; rewrite Nat.mod_same by auto.
      rewrite (nth_error_nth _ _ d Hl2); destruct g as [|y g]; [congruence|]; cbn in H0 |- *; congruence.
  - change [length g - 1] with [0 + (length g - 1)]; rewrite <- (seq_S (length g - 1) 0); f_equal; lia.
Qed.

Lemma step_kept d (g g' : list G) k : k < length g -> 3 <= length g' ->
  (exists a b, cyc_next g' a b /\ step_pair d g k = neighbor ltb a b) <->
  (forall a b, nth_error g k = Some a -> nth_error g ((k + 1) mod length g) = Some b -> cyc_adj g' a b).
Proof.
  intros Hk H3.
  assert (Hk2 : (k + 1) mod length g < length g) by (apply Nat.mod_upper_bound; lia).
  split.
  - intros (a & b & Hab & E) x y Hx Hy; unfold step_pair in E.
    rewrite (nth_error_nth _ _ d Hx), (nth_error_nth _ _ d Hy) in E.
    destruct (neighbor_cases ltb x y) as [E1|E1]; destruct (neighbor_cases ltb a b) as [E2|E2];
      rewrite E1, E2 in E; injection E as -> ->; unfold cyc_adj; auto.
  - intros H; specialize (H (nth k g d) (nth ((k + 1) mod length g) g d)).
    assert (Hadj : cyc_adj g' (nth k g d) (nth ((k + 1) mod length g) g d)) by (apply H; apply nth_error_nth'; auto).
    pose proof (neighbor_ordered eqb ltb Heq (nth k g d) (nth ((k + 1) mod length g) g d) Ht Hirr) as Ho.
    unfold step_pair; destruct (neighbor ltb (nth k g d) (nth ((k + 1) mod length g) g d)) as [x y] eqn:E; cbn [fst snd] in Ho.
    destruct (neighbor_complete eqb ltb Heq g' x y Ht Ho) as (a & b & Hab & E2); [|eauto].
    destruct (neighbor_cases ltb (nth k g d) (nth ((k + 1) mod length g) g d)) as [E1|E1];
      rewrite E1 in E; injection E as <- <-; auto; destruct Hadj; unfold cyc_adj; auto.
Qed.

(** The pairs of a tour of three or more different genes differ. *)
Lemma step_pairs_NoDup d (g : list G) : NoDup g -> 3 <= length g ->
  NoDup (map (step_pair d g) (seq 0 (length g))).
Proof.
  intros Hnd H3.
  apply NoDup_nth_error; intros i j Hi E; rewrite map_length, seq_length in Hi.
  destruct (Nat.lt_ge_cases j (length g)) as [Hj|Hj].
  2: { rewrite (proj2 (nth_error_None _ j)) in E by (rewrite map_length, seq_length; auto).
       apply nth_error_None in E; rewrite map_length, seq_length in E; lia. }
  rewrite !nth_error_map, !nth_error_seq' in E by auto; cbn [option_map Nat.add] in E; injection E as E.
  unfold step_pair in E.
  assert (Hi2 : (i + 1) mod length g < length g) by (apply Nat.mod_upper_bound; lia).
  assert (Hj2 : (j + 1) mod length g < length g) by (apply Nat.mod_upper_bound; lia).
  assert (K : forall u v, u < length g -> v < length g -> nth u g d = nth v g d -> u = v).
  { intros u v Hu Hv; apply (proj1 (NoDup_nth g d)); auto. }
  rewrite nx_mod in Hi2 by auto; rewrite nx_mod in Hj2 by auto; rewrite !nx_mod in E by auto.
  destruct (neighbor_cases ltb (nth i g d) (nth (nx (length g) i) g d)) as [E1|E1];
  destruct (neighbor_cases ltb (nth j g d) (nth (nx (length g) j) g d)) as [E2|E2];
    rewrite E1, E2 in E; injection E as E3 E4; apply K in E3, E4; auto.
  - exfalso; revert E3 E4; unfold nx in *;
    destruct (Nat.eqb_spec (S i) (length g)); destruct (Nat.eqb_spec (S j) (length g)); lia.
  - exfalso; revert E3 E4; unfold nx in *;
    destruct (Nat.eqb_spec (S i) (length g)); destruct (Nat.eqb_spec (S j) (length g)); lia.
Qed.

Definition stays (d : G) (g g' : list G) (k : nat) : bool :=
  existsb (fun q => pair_eqb eqb q (step_pair d g k)) (map (step_pair d g') (seq 0 (length g'))).

Lemma common_seq d (g g' : list G) : 3 <= length g -> length g = length g' ->
  common_neighbors eqb ltb g g' =
    Ret (filter (fun p => existsb (fun q => pair_eqb eqb q p) (map (step_pair d g') (seq 0 (length g'))))
           (map (step_pair d g) (seq 0 (length g)))).
Proof.
  intros H3 Hl; unfold common_neighbors.
  rewrite (proj2 (Nat.ltb_ge (length g) 2)), (proj2 (Nat.leb_gt (length g') 2)) by lia; cbn [orb].
  rewrite (proj2 (Nat.leb_le (length g) (length g'))) by lia.
  rewrite !(neighbor_pairs_seq d) by (intros ->; cbn in *; lia); auto.
Qed.

Lemma stays_iff d (g g' : list G) k : k < length g -> 3 <= length g' ->
  stays d g g' k = true <->
  (forall a b, nth_error g k = Some a -> nth_error g ((k + 1) mod length g) = Some b -> cyc_adj g' a b).
Proof.
  intros Hk H3; rewrite <- (step_kept d) by auto; unfold stays; rewrite existsb_exists.
  destruct (neighbor_pairs_ok ltb g') as (ps & E & HP); [intros ->; cbn in *; lia|].
  rewrite (neighbor_pairs_seq d) in E by (intros ->; cbn in *; lia); injection E as <-.
  split.
  - intros (q & Hq & E); apply pair_eqb_eq in E; auto; subst q; apply HP in Hq; auto.
  - intros H; exists (step_pair d g k); split; [apply HP; auto|apply pair_eqb_eq; auto].
Qed.

(** The number of common pairs is the number of steps that stay. *)
Lemma common_count d (g g' : list G) : 3 <= length g -> length g = length g' ->
  must (common_neighbors eqb ltb g g') (fun r => length r = length (filter (stays d g g') (seq 0 (length g)))).
Proof. intros H3 Hl; rewrite (common_seq d) by auto; cbn; rewrite filter_map_length; reflexivity. Qed.

Lemma keeps_count d m (g g' : list G) : 3 <= length g -> length g = length g' ->
  keeps_but m g g' <-> length g <= length (filter (stays d g g') (seq 0 (length g))) + m.
Proof.
  intros H3 Hl; pose proof (filter_split (stays d g g') (seq 0 (length g))) as HS; rewrite seq_length in HS.
  split.
  - intros (ks & Hks & H).
    enough (length (filter (fun x => negb (stays d g g' x)) (seq 0 (length g))) <= length ks) by lia.
    apply NoDup_incl_length; [apply NoDup_filter, seq_NoDup|].
    intros k Hk; apply filter_In in Hk as [Hk1 Hk2]; apply in_seq in Hk1; apply negb_true_iff in Hk2.
    destruct (in_dec Nat.eq_dec k ks) as [|Hn]; auto; exfalso.
    rewrite (proj2 (stays_iff d g g' k ltac:(lia) ltac:(lia))) in Hk2; [discriminate|]; intros a b; apply H; auto.
  - intros H; exists (filter (fun x => negb (stays d g g' x)) (seq 0 (length g))); split; [lia|].
    intros k a b Hk Ha Hb; pose proof (nth_error_some_lt _ _ _ Ha) as Hlt.
    apply (proj1 (stays_iff d g g' k Hlt ltac:(lia))); auto.
    destruct (stays d g g' k) eqn:E; auto; exfalso; apply Hk, filter_In; split; [apply in_seq; lia|rewrite E; auto].
Qed.

(** ** The statements *)
Lemma c117_steps m (g g' : list G) : 3 <= length g -> length g = length g' ->
  must (common_neighbors eqb ltb g g') (fun r => keeps_but m g g' <-> length g <= length r + m).
Proof.
  intros H3 Hl; destruct g as [|d g0] eqn:E; [cbn in H3; lia|]; rewrite <- E in *.
  eapply must_mono; [|apply (common_count d); auto]; intros r ->; apply keeps_count; auto.
Qed.

Lemma c117_once (g g' : list G) : NoDup g -> Permutation g g' -> 3 <= length g ->
  must (common_neighbors eqb ltb g g') (fun r => NoDup r /\ length r <= length g).
Proof.
  intros Hnd HP H3; destruct g as [|d g0] eqn:E; [cbn in H3; lia|]; rewrite <- E in *.
  pose proof (Permutation_length HP) as Hl.
  rewrite (common_seq d) by auto; cbn; split.
  - apply NoDup_filter, step_pairs_NoDup; auto.
  - rewrite filter_map_length.
    pose proof (filter_split (fun x => existsb (fun q => pair_eqb eqb q (step_pair d g x)) (map (step_pair d g') (seq 0 (length g')))) (seq 0 (length g))) as HS.
    rewrite seq_length in HS; lia.
Qed.

Lemma c117_symmetric (g g' : list G) : NoDup g -> Permutation g g' -> 3 <= length g ->
  must (common_neighbors eqb ltb g g') (fun r => must (common_neighbors eqb ltb g' g) (fun r' => Permutation r r')).
Proof.
  intros Hnd HP H3; pose proof (Permutation_length HP) as Hl.
  assert (Hnd' : NoDup g') by (eapply Permutation_NoDup; eauto).
  eapply must_mono; [|apply must_and; [apply (c117_once g g'); auto|apply common_neighbors_exact; auto; lia]].
  intros r [[N1 _] R1].
  eapply must_mono; [|apply must_and; [apply (c117_once g' g); auto; [apply Permutation_sym; auto|lia]|apply common_neighbors_exact; auto; lia]].
  intros r' [[N2 _] R2].
  apply NoDup_Permutation; auto; intros [a b]; rewrite R1, R2; tauto.
Qed.

Lemma common_ret (g g' : list G) : exists r, common_neighbors eqb ltb g g' = Ret r.
Proof.
  destruct (Nat.lt_ge_cases (length g) 2); [rewrite common_neighbors_small by auto; eauto|].
  destruct (Nat.le_gt_cases (length g') 2); [rewrite common_neighbors_small by auto; eauto|].
  destruct (common_neighbors_raw eqb ltb Heq g g') as (r & E & _); eauto.
Qed.

(** All steps but the one at position [j] stay: the tours are the same. *)
Lemma almost_same (g g' : list G) j : NoDup g' -> Permutation g' g -> j < length g ->
  (forall k a b, k <> j -> nth_error g k = Some a -> nth_error g ((k + 1) mod length g) = Some b -> cyc_adj g' a b) ->
  keeps_but 0 g g'.
Proof.
  intros Hnd HP Hj H; pose proof (Permutation_length HP) as Hl.
  set (t := rotated g (S j)).
  assert (HT : turned g' t \/ turned (rev g') t).
  { apply path_is_tour; auto.
    - eapply Permutation_trans; [exact HP|]; apply rotated_perm.
    - intros a b (i & Ha & Hb).
      pose proof (nth_error_some_lt _ _ _ Hb) as Hi; unfold t in Hi; rewrite rotated_length in Hi.
      unfold t in Ha, Hb; rewrite nth_error_rotated in Ha, Hb by lia.
      apply (H ((S j + i) mod length g)); auto.
      + intros E; destruct (Nat.lt_ge_cases (S j + i) (length g)) as [Hs|Hs].
        * rewrite Nat.mod_small in E by auto; lia.
        * replace (S j + i) with (S j + i - length g + 1 * length g) in E by lia.
          rewrite Nat.mod_add, Nat.mod_small in E by lia; lia.
      + rewrite Nat.add_mod_idemp_l by lia; rewrite <- Hb; f_equal; f_equal; lia. }
  exists []; split; auto; intros k a b _ Ha Hb.
  apply (turned_rev_back g' t a b HT).
  left; apply cyc_next_rotated; [lia|]; exists k; auto.
Qed.

Lemma c117_same_tour (g g' : list G) : NoDup g -> Permutation g g' -> 3 <= length g ->
  must (common_neighbors eqb ltb g g') (fun r => length r = length g <-> turned g g' \/ turned (rev g) g').
Proof.
  intros Hnd HP H3; pose proof (Permutation_length HP) as Hl.
  assert (Hnd' : NoDup g') by (eapply Permutation_NoDup; eauto).
  pose proof (c117_steps 0 g g' H3 Hl) as S1; pose proof (c117_once g g' Hnd HP H3) as O1.
  pose proof (c117_symmetric g g' Hnd HP H3) as Y.
  pose proof (c117_steps 0 g' g ltac:(lia) ltac:(lia)) as S2.
  destruct (common_ret g g') as [r Er]; destruct (common_ret g' g) as [r' Er'].
  rewrite Er in *; rewrite Er' in *; cbn in *.
  apply Permutation_length in Y; destruct O1 as [_ O1].
  split.
  - intros E; assert (K : keeps_but 0 g' g) by (apply S2; lia).
    destruct K as (ks & Hks & K); assert (ks = []) by (destruct ks; cbn in Hks; [auto|lia]); subst ks.
    apply path_is_tour; auto.
    intros a b (i & Ha & Hb); apply (K i); auto.
    pose proof (nth_error_some_lt _ _ _ Hb); rewrite Nat.mod_small by lia; rewrite Nat.add_1_r; auto.
  - intros HT; enough (length g <= length r + 0) by lia; apply S1.
    exists []; split; auto; intros k a b _ Ha Hb.
    apply (cyc_adj_turned g g'); auto; left; exists k; auto.
Qed.

Lemma c117_no_single (g g' : list G) : NoDup g -> Permutation g g' -> 3 <= length g ->
  must (common_neighbors eqb ltb g g') (fun r => length r <> length g - 1).
Proof.
  intros Hnd HP H3; pose proof (Permutation_length HP) as Hl.
  assert (Hnd' : NoDup g') by (eapply Permutation_NoDup; eauto).
  pose proof (c117_steps 0 g g' H3 Hl) as S0; pose proof (c117_steps 1 g g' H3 Hl) as S1.
  destruct (common_ret g g') as [r Er]; rewrite Er in *; cbn in *.
  intros E; assert (K : keeps_but 1 g g') by (apply S1; lia).
  enough (keeps_but 0 g g') as K0 by (apply S0 in K0; lia).
  destruct K as (ks & Hks & K).
  assert (HJ : exists j, j < length g /\ forall k, k < length g -> k <> j -> ~ In k ks).
  { destruct ks as [|j [|]]; cbn in Hks; try lia.
    - exists 0; split; [lia|]; intros k _ _ [].
    - destruct (Nat.lt_ge_cases j (length g)) as [Hj|Hj].
      + exists j; split; auto; intros k _ Hk [->|[]]; auto.
      + exists 0; split; [lia|]; intros k Hk _ [->|[]]; lia. }
  destruct HJ as (j & Hj & HJ).
  apply (almost_same g g' j); auto; [apply Permutation_sym; auto|].
  intros k a b Hk Ha Hb; apply (K k); auto; apply HJ; auto; eapply nth_error_some_lt; eauto.
Qed.

Lemma nodup_app {A} (u v : list A) : NoDup u -> NoDup v -> (forall x, In x u -> ~ In x v) -> NoDup (u ++ v).
Proof.
  induction u as [|x u IH]; cbn; auto; intros Nu Nv H; inversion Nu; subst; constructor.
  - rewrite in_app_iff; intros [K|K]; [auto|apply (H x); auto].
  - apply IH; auto.
Qed.

(** Lists of a finite set. *)
Lemma overlap {A} (dec : forall x y : A, {x = y} + {x <> y}) (u v w z : list A) :
  NoDup u -> NoDup v -> incl u w -> incl v w -> (forall x, In x u -> In x v -> In x z) ->
  length u + length v <= length w + length z.
Proof.
  intros Nu Nv Iu Iv Iz.
  pose proof (filter_split (fun x => if in_dec dec x v then true else false) u) as HS.
  set (f := fun x => if in_dec dec x v then true else false) in *.
  assert (H1 : length (filter f u) <= length z).
  { apply NoDup_incl_length; [apply NoDup_filter; auto|]; intros x Hx; apply filter_In in Hx as [Hx Hf].
    unfold f in Hf; destruct (in_dec dec x v); [apply Iz; auto|discriminate]. }
  assert (H2 : length (v ++ filter (fun x => negb (f x)) u) <= length w).
  { apply NoDup_incl_length.
    - apply nodup_app; auto; [apply NoDup_filter; auto|].
      intros x Hv Hx; apply filter_In in Hx as [_ Hf]; unfold f in Hf; destruct (in_dec dec x v); [discriminate|auto].
    - apply incl_app; auto; intros x Hx; apply filter_In in Hx as [Hx _]; auto. }
  rewrite app_length in H2; lia.
Qed.

Lemma c117_triangle (g1 g2 g3 : list G) : NoDup g1 -> Permutation g1 g2 -> Permutation g2 g3 -> 3 <= length g1 ->
  must (common_neighbors eqb ltb g1 g2) (fun r12 => must (common_neighbors eqb ltb g2 g3) (fun r23 =>
    must (common_neighbors eqb ltb g1 g3) (fun r13 => length r12 + length r23 <= length g1 + length r13))).
Proof.
  intros Hnd P12 P23 H3.
  assert (Hnd2 : NoDup g2) by (eapply Permutation_NoDup; eauto).
  pose proof (Permutation_length P12) as L12; pose proof (Permutation_length P23) as L23.
  pose proof (c117_once g1 g2 Hnd P12 H3) as O12; pose proof (c117_once g2 g3 Hnd2 P23 ltac:(lia)) as O23.
  pose proof (common_neighbors_raw eqb ltb Heq g1 g2 ltac:(lia) ltac:(lia)) as (r12 & E12 & R12).
  pose proof (common_neighbors_raw eqb ltb Heq g2 g3 ltac:(lia) ltac:(lia)) as (r23 & E23 & R23).
  pose proof (common_neighbors_raw eqb ltb Heq g1 g3 ltac:(lia) ltac:(lia)) as (r13 & E13 & R13).
  rewrite E12 in *; rewrite E23 in *; rewrite E13 in *; cbn in *.
  destruct g2 as [|d g0] eqn:E; [cbn in *; lia|]; rewrite <- E in *.
  destruct (neighbor_pairs_ok ltb g2) as (ps & Ep & HP); [rewrite E; congruence|].
  rewrite (neighbor_pairs_seq d) in Ep by (rewrite E; congruence); injection Ep as <-.
  rewrite L12; rewrite <- (seq_length (length g2) 0), <- (map_length (step_pair d g2)).
  apply overlap; try tauto.
  - intros [a b] [c e]; destruct (gene_dec eqb Heq a c) as [->|]; [destruct (gene_dec eqb Heq b e) as [->|]; [left; auto|]|];
    right; congruence.
  - intros x Hx; apply R12 in Hx; apply HP; tauto.
  - intros x Hx; apply R23 in Hx; apply HP; tauto.
  - intros x Hx Hy; apply R12 in Hx; apply R23 in Hy; apply R13; tauto.
Qed.

Lemma c117_mutations (s : mutation_strategy) k (g g' : list G) : s <> Duplicate -> NoDup g -> 3 <= length g ->
  mutated s k g g' ->
  must (common_neighbors eqb ltb g g') (fun r => length g <= length r + k * steps_broken s (length g)).
Proof.
  intros Hs Hnd H3 HM; revert Hnd H3; induction HM as [g|k g g1 g' H1 HM IH]; intros Hnd H3.
  - eapply must_mono; [|apply (c117_steps 0); auto]; cbn; intros r Hr; exact (proj1 Hr (keeps_all g 0)).
  - assert (P1 : Permutation g g1) by (pose proof (must_may _ _ _ (mutate_perm_length g s Hs) H1) as [P1 _]; auto).
    assert (P2 : Permutation g1 g') by (eapply mutated_permutation; eauto).
    pose proof (Permutation_length P1) as L1.
    assert (Hnd1 : NoDup g1) by (eapply Permutation_NoDup; eauto).
    specialize (IH Hnd1 ltac:(lia)).
    pose proof (must_may _ _ _ (c116_kept s g) H1) as K.
    pose proof (c117_steps (steps_broken s (length g)) g g1 H3 L1) as S1.
    pose proof (c117_triangle g g1 g' Hnd P1 P2 H3) as T.
    destruct (common_ret g g1) as [r1 E1]; destruct (common_ret g1 g') as [r2 E2]; destruct (common_ret g g') as [r3 E3].
    rewrite E1 in *; rewrite E2 in *; rewrite E3 in *; cbn in *.
    apply S1 in K; rewrite <- L1 in IH; lia.
Qed.

End Common.

Lemma c117_example :
  NoDup [1; 2; 3; 4; 5] /\ Permutation [1; 2; 3; 4; 5] [4; 3; 2; 1; 5] /\ Permutation [4; 3; 2; 1; 5] [1; 3; 5; 2; 4] /\
  turned (rev [1; 2; 3; 4; 5]) [4; 3; 2; 1; 5] /\
  common_neighbors Nat.eqb Nat.ltb [1; 2; 3; 4; 5] [4; 3; 2; 1; 5] = Ret [(1, 2); (2, 3); (3, 4); (4, 5); (1, 5)] /\
  common_neighbors Nat.eqb Nat.ltb [1; 2; 3; 4; 5] [1; 3; 5; 2; 4] = Ret [] /\
  common_neighbors Nat.eqb Nat.ltb [1; 2; 3; 4; 5] [1; 4; 3; 2; 5] = Ret [(2, 3); (3, 4); (1, 5)] /\
  mutated Inversion 1 [1; 2; 3; 4; 5] [1; 4; 3; 2; 5].
Proof.
  assert (N1 : NoDup [1; 2; 3; 4; 5]) by (repeat constructor; cbn; lia).
  split; [exact N1|].
  split; [apply NoDup_Permutation; [exact N1|repeat constructor; cbn; lia|intros x; cbn; lia]|].
  split; [apply NoDup_Permutation; [repeat constructor; cbn; lia..|intros x; cbn; lia]|].
  split; [exists 1; split; [cbn; lia|reflexivity]|].
  split; [vm_compute; reflexivity|split; [vm_compute; reflexivity|split; [vm_compute; reflexivity|]]].
  apply (mutated_more _ _ _ [1; 4; 3; 2; 5]); [|constructor].
  apply (run_may _ _ [1; 1]%N _ (c116_kept Inversion _)); vm_compute; reflexivity.
Qed.
