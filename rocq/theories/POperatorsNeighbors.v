(** * POperatorsNeighbors: proofs about common_neighbors and common_partitions. *)
From Coq Require Import List Bool Arith NArith Lia Permutation.
From Verif Require Import Rnd LRnd MOperators Spec.
Import ListNotations.

Section Proofs.
Context {G : Type} (eqb : G -> G -> bool) (ltb : G -> G -> bool).
Hypothesis Heq : eq_ok eqb.

Lemma eqb_eq a b : eqb a b = true <-> a = b.
Proof. apply Heq. Qed.

Lemma eqb_refl a : eqb a a = true.
Proof. apply Heq; auto. Qed.

Lemma eqb_neq a b : eqb a b = false <-> a <> b.
Proof using Heq.
  split; intros H.
  - intros E; apply Heq in E; rewrite H in E; discriminate.
  - destruct (eqb a b) eqn:E; [apply Heq in E; contradiction|reflexivity].
Qed.

Lemma gene_dec (a b : G) : {a = b} + {a <> b}.
Proof using Heq. destruct (eqb a b) eqn:E; [left; apply Heq; auto|right; apply eqb_neq; auto]. Qed.

Lemma mem_In x l : mem eqb x l = true <-> In x l.
Proof.
  unfold mem; rewrite existsb_exists; split.
  - intros (y & Hy & E); apply Heq in E; subst; auto.
  - intros H; exists x; split; auto; apply eqb_refl.
Qed.

Lemma mem_notIn x l : mem eqb x l = false <-> ~ In x l.
Proof. rewrite <- mem_In; destruct (mem eqb x l); split; congruence. Qed.

Lemma windows2_in (l : list G) a b : In (a, b) (windows2 l) <-> consec l a b.
Proof.
  unfold consec; induction l as [|x [|y t] IH].
  - cbn; split; [tauto|]; intros (i & H & _); destruct i; discriminate.
  - cbn; split; [tauto|]; intros (i & _ & H); destruct i as [|[|i]]; discriminate.
  - change (windows2 (x :: y :: t)) with ((x, y) :: windows2 (y :: t)); cbn [In]; rewrite IH; split.
    + intros [[= <- <-]|(i & Ha & Hb)]; [exists 0; auto|exists (S i); auto].
    + intros ([|i] & Ha & Hb); cbn in *.
      * left; congruence.
      * right; exists i; auto.
Qed.

Lemma last_some (l : list G) : l <> [] -> exists x, last (map Some l) None = Some x /\ nth_error l (length l - 1) = Some x.
Proof.
  induction l as [|a [|b t] IH]; intros H; [congruence| |].
  - exists a; auto.
  - destruct IH as (x & H1 & H2); [discriminate|].
    exists x; split; [exact H1|].
    cbn [length] in *; replace (S (S (length t)) - 1) with (S (length t)) by lia.
    replace (S (length t) - 1) with (length t) in H2 by lia; exact H2.
Qed.

Lemma last_None (l : list G) : last (map Some l) None = None -> l = [].
Proof.
  destruct l as [|a l]; auto; intros H.
  destruct (last_some (a :: l)) as (x & Hx & _); [discriminate|congruence].
Qed.

Lemma cyc_next_char (l : list G) x0 xl a b :
  hd_error l = Some x0 -> nth_error l (length l - 1) = Some xl ->
  cyc_next l a b <-> consec l a b \/ (a = xl /\ b = x0).
Proof.
  intros H0 Hl; unfold cyc_next, consec; split.
  - intros (i & Ha & Hb); pose proof (nth_error_some_lt _ _ _ Ha) as Hi.
    destruct (Nat.eq_dec (i + 1) (length l)) as [E|E].
    + rewrite E, Nat.mod_same in Hb by lia.
      right; split.
      * replace (length l - 1) with i in Hl by lia; congruence.
      * destruct l; [discriminate|]; cbn in *; congruence.
    + left; exists i; split; auto.
      rewrite Nat.mod_small in Hb by lia; rewrite Nat.add_1_r in Hb; auto.
  - intros [(i & Ha & Hb)|[-> ->]].
    + exists i; split; auto.
      pose proof (nth_error_some_lt _ _ _ Hb); rewrite Nat.mod_small by lia.
      rewrite Nat.add_1_r; auto.
    + exists (length l - 1); split; auto.
      destruct l as [|y t]; [discriminate|]; cbn [hd_error] in H0.
      replace (length (y :: t) - 1 + 1) with (length (y :: t)) by (cbn; lia).
      rewrite Nat.mod_same by (cbn; lia); cbn; congruence.
Qed.

Lemma neighbor_cases a b : neighbor ltb a b = (a, b) \/ neighbor ltb a b = (b, a).
Proof. unfold neighbor; destruct (ltb a b); auto. Qed.

(** The pair list of a genome. *)
Lemma neighbor_pairs_ok (l : list G) : l <> [] ->
  exists ps, neighbor_pairs ltb l = Ret ps /\
    forall p, In p ps <-> exists a b, cyc_next l a b /\ p = neighbor ltb a b.
Proof.
  intros Hne; destruct (last_some l Hne) as (xl & Hl1 & Hl2).
  destruct (hd_error l) as [x0|] eqn:H0; [|destruct l; [congruence|discriminate]].
  unfold neighbor_pairs; rewrite Hl1, H0; cbn [unwrap bind].
  eexists; split; [reflexivity|].
  intros p; rewrite in_app_iff, in_map_iff; cbn [In]; split.
  - intros [([a b] & <- & H)|[<-|[]]].
    + exists a, b; split; auto; eapply cyc_next_char; eauto; left; apply windows2_in; auto.
    + exists xl, x0; split; auto; eapply cyc_next_char; eauto.
  - intros (a & b & H & ->); eapply cyc_next_char in H as [H|[-> ->]]; eauto.
    left; exists (a, b); split; auto; apply windows2_in; auto.
Qed.

Lemma pair_eqb_eq p q : pair_eqb eqb p q = true <-> p = q.
Proof.
  destruct p as [a b], q as [c d]; unfold pair_eqb; cbn [fst snd].
  rewrite andb_true_iff, !eqb_eq; split; [intros [-> ->]; auto|intros [= -> ->]; auto].
Qed.

Lemma common_neighbors_raw g1 g2 :
  2 <= length g1 -> 3 <= length g2 ->
  exists r, common_neighbors eqb ltb g1 g2 = Ret r /\
    forall p, In p r <->
      (exists a b, cyc_next g1 a b /\ p = neighbor ltb a b) /\
      (exists a b, cyc_next g2 a b /\ p = neighbor ltb a b).
Proof.
  intros H1 H2; unfold common_neighbors.
  rewrite (proj2 (Nat.ltb_ge (length g1) 2)), (proj2 (Nat.leb_gt (length g2) 2)) by lia; cbn [orb].
  destruct (neighbor_pairs_ok g1) as (p1 & E1 & HP1); [destruct g1; cbn in *; [lia|congruence]|].
  destruct (neighbor_pairs_ok g2) as (p2 & E2 & HP2); [destruct g2; cbn in *; [lia|congruence]|].
  assert (Hex : forall (l : list (G*G)) p, existsb (fun q => pair_eqb eqb q p) l = true <-> In p l).
  { intros l p; rewrite existsb_exists; split.
    - intros (q & Hq & E); apply pair_eqb_eq in E; subst; auto.
    - intros Hp; exists p; split; auto; apply pair_eqb_eq; auto. }
  destruct (length g1 <=? length g2).
  - rewrite E1, E2; cbn [bind]; eexists; split; [reflexivity|].
    intros p; rewrite filter_In, Hex, HP1, HP2; tauto.
  - rewrite E1, E2; cbn [bind]; eexists; split; [reflexivity|].
    intros p; rewrite filter_In, Hex, HP1, HP2; tauto.
Qed.

Lemma common_neighbors_small g1 g2 :
  length g1 < 2 \/ length g2 <= 2 -> common_neighbors eqb ltb g1 g2 = Ret [].
Proof.
  intros H; unfold common_neighbors.
  destruct (Nat.ltb_spec (length g1) 2), (Nat.leb_spec (length g2) 2); cbn [orb]; auto; lia.
Qed.

Lemma neighbor_sound (l : list G) p :
  (exists a b, cyc_next l a b /\ p = neighbor ltb a b) -> cyc_adj l (fst p) (snd p).
Proof.
  intros (a & b & H & ->); destruct (neighbor_cases a b) as [-> | ->]; cbn; unfold cyc_adj; auto.
Qed.

Lemma common_neighbors_sound g1 g2 :
  must (common_neighbors eqb ltb g1 g2)
    (fun r => forall a b, In (a, b) r -> cyc_adj g1 a b /\ cyc_adj g2 a b).
Proof.
  destruct (Nat.lt_ge_cases (length g1) 2) as [H1|H1];
  [rewrite common_neighbors_small by auto; cbn; tauto|].
  destruct (Nat.le_gt_cases (length g2) 2) as [H2|H2];
  [rewrite common_neighbors_small by auto; cbn; tauto|].
  destruct (common_neighbors_raw g1 g2 H1 H2) as (r & -> & HR); cbn.
  intros a b Hab; apply HR in Hab as [Ha Hb]; split.
  - apply (neighbor_sound _ _ Ha).
  - apply (neighbor_sound _ _ Hb).
Qed.

Lemma neighbor_complete (l : list G) a b :
  lt_total ltb -> ltb b a = false -> cyc_adj l a b -> exists x y, cyc_next l x y /\ (a, b) = neighbor ltb x y.
Proof.
  intros Ht Hba [H|H].
  - exists a, b; split; auto; unfold neighbor.
    destruct (ltb a b) eqn:E; auto.
    destruct (gene_dec a b) as [->|Hne]; auto.
    rewrite (Ht a b Hne), Hba in E; discriminate.
  - exists b, a; split; auto; unfold neighbor; rewrite Hba; auto.
Qed.

Lemma neighbor_ordered x y : lt_total ltb -> (forall a, ltb a a = false) -> ltb (snd (neighbor ltb x y)) (fst (neighbor ltb x y)) = false.
Proof.
  intros Ht Hirr; unfold neighbor; destruct (ltb x y) eqn:E; cbn; auto.
  destruct (gene_dec y x) as [->|Hne]; auto.
  rewrite (Ht y x Hne), E; auto.
Qed.

Lemma common_neighbors_exact g1 g2 :
  lt_total ltb -> (forall a, ltb a a = false) ->
  2 <= length g1 -> 3 <= length g2 ->
  must (common_neighbors eqb ltb g1 g2)
    (fun r => forall a b, In (a, b) r <-> ltb b a = false /\ cyc_adj g1 a b /\ cyc_adj g2 a b).
Proof.
  intros Ht Hirr H1 H2; destruct (common_neighbors_raw g1 g2 H1 H2) as (r & -> & HR); cbn.
  intros a b; rewrite HR; split.
  - intros [Ha Hb]; repeat split.
    + destruct Ha as (x & y & _ & E); pose proof (neighbor_ordered x y Ht Hirr) as Ho.
      rewrite <- E in Ho; auto.
    + apply (neighbor_sound _ _ Ha).
    + apply (neighbor_sound _ _ Hb).
  - intros (Hlt & Ha & Hb); split; apply neighbor_complete; auto.
Qed.

(** *** Partitions *)

Lemma next_node_spec cn visited lst :
  match next_node eqb cn visited lst with
  | Some x => ~ In x visited /\ (In (lst, x) cn \/ In (x, lst) cn)
  | None => forall x, In (lst, x) cn \/ In (x, lst) cn -> In x visited
  end.
Proof.
  induction cn as [|[a b] t IH]; cbn; [tauto|].
  destruct (eqb a lst && negb (mem eqb b visited)) eqn:E1.
  - apply andb_true_iff in E1 as [Ea Eb]; apply Heq in Ea; subst.
    apply negb_true_iff, mem_notIn in Eb; auto.
  - destruct (eqb b lst && negb (mem eqb a visited)) eqn:E2.
    + apply andb_true_iff in E2 as [Ea Eb]; apply Heq in Ea; subst.
      apply negb_true_iff, mem_notIn in Eb; auto.
    + destruct (next_node eqb t visited lst) as [x|].
      * destruct IH as [Hx [H|H]]; auto.
      * intros x [[[= -> ->]|H]|[[= -> ->]|H]]; auto.
        -- rewrite eqb_refl in E1; cbn in E1; apply negb_false_iff, mem_In in E1; auto.
        -- rewrite eqb_refl in E2; cbn in E2; apply negb_false_iff, mem_In in E2; auto.
Qed.

(** Genes occurring in the pairs. *)
Definition cn_genes (cn : list (G * G)) : list G := flat_map (fun p => [fst p; snd p]) cn.

Lemma cn_genes_length cn : length (cn_genes cn) = 2 * length cn.
Proof. unfold cn_genes; induction cn as [|p t IH]; [reflexivity|]; cbn [flat_map app length]; rewrite IH; lia. Qed.

Lemma cn_genes_in cn a b : In (a, b) cn -> In a (cn_genes cn) /\ In b (cn_genes cn).
Proof.
  intros H; split; apply in_flat_map; exists (a, b); cbn; auto.
Qed.

(** Unvisited genes of a list, counted without repetition. *)
Definition unv (visited l : list G) : nat :=
  length (filter (fun g => negb (mem eqb g visited)) (nodup gene_dec l)).

Lemma unv_cons visited l x : ~ In x visited -> In x l -> unv (x :: visited) l < unv visited l.
Proof.
  intros Hx Hl; unfold unv.
  assert (Hl' : In x (nodup gene_dec l)) by (apply nodup_In; auto).
  revert Hl'; generalize (nodup gene_dec l) as d; intros d.
  assert (Hle : forall d', length (filter (fun g => negb (mem eqb g (x :: visited))) d') <=
                  length (filter (fun g => negb (mem eqb g visited)) d')).
  { induction d' as [|y d' IH]; cbn [filter length]; [lia|].
    destruct (mem eqb y visited) eqn:E; cbn [negb length].
    - apply mem_In in E; rewrite (proj2 (mem_In y (x :: visited))) by (right; auto); cbn; auto.
    - destruct (mem eqb y (x :: visited)); cbn [negb length]; lia. }
  induction d as [|y d IH]; intros Hd; [destruct Hd|]; cbn [filter].
  destruct Hd as [->|Hd].
  - rewrite (proj2 (mem_notIn x visited) Hx), (proj2 (mem_In x (x :: visited))) by (left; auto).
    cbn [negb length]; specialize (Hle d); lia.
  - specialize (IH Hd).
    destruct (mem eqb y visited) eqn:E; cbn [negb length].
    + apply mem_In in E; rewrite (proj2 (mem_In y (x :: visited))) by (right; auto); cbn; auto.
    + destruct (mem eqb y (x :: visited)); cbn [negb length]; lia.
Qed.

Lemma filter_length_le {A} (f : A -> bool) l : length (filter f l) <= length l.
Proof. induction l as [|a l IH]; cbn; [lia|]; destruct (f a); cbn; lia. Qed.

Lemma nodup_length_le (l : list G) : length (nodup gene_dec l) <= length l.
Proof. induction l as [|a l IH]; cbn; [lia|]; destruct (in_dec gene_dec a l); cbn; lia. Qed.

Lemma unv_le visited l : unv visited l <= length l.
Proof. unfold unv; etransitivity; [apply filter_length_le|apply nodup_length_le]. Qed.

Definition cn_rel (cn : list (G * G)) (a b : G) : Prop := In (a, b) cn \/ In (b, a) cn.

Lemma last_app_single (l : list G) x : last (map Some (l ++ [x])) None = Some x.
Proof. rewrite map_app; cbn; apply last_last. Qed.

Lemma consec_snoc (l : list G) x a b :
  consec (l ++ [x]) a b -> consec l a b \/ (last (map Some l) None = Some a /\ b = x).
Proof.
  intros (i & Ha & Hb).
  pose proof (nth_error_some_lt _ _ _ Hb) as Hi; rewrite app_length in Hi; cbn in Hi.
  destruct (Nat.eq_dec (S i) (length l)) as [E|E].
  - right; rewrite nth_error_app2 in Hb by lia.
    replace (S i - length l) with 0 in Hb by lia; cbn in Hb.
    rewrite nth_error_app1 in Ha by lia.
    destruct (last_some l) as (y & Hy1 & Hy2); [destruct l; cbn in *; [lia|discriminate]|].
    replace (length l - 1) with i in Hy2 by lia; split; congruence.
  - left; exists i; rewrite nth_error_app1 in Ha, Hb by lia; auto.
Qed.

(** Specification of [grow] *)
Lemma grow_spec fuel cn visited partition lst :
  last (map Some partition) None = Some lst ->
  unv visited (cn_genes cn) < fuel ->
  exists v' ext,
    grow eqb fuel cn visited partition = Ret (v', partition ++ ext) /\
    (forall x, In x v' <-> In x visited \/ In x ext) /\
    NoDup ext /\ (forall x, In x ext -> ~ In x visited /\ In x (cn_genes cn)) /\
    (forall a b, consec (lst :: ext) a b -> cn_rel cn a b) /\
    (forall z, last (map Some (partition ++ ext)) None = Some z -> forall b, cn_rel cn z b -> In b v').
Proof.
  revert visited partition lst; induction fuel as [|f IH]; intros visited partition lst Hlst Hf; [lia|].
  cbn [grow]; rewrite Hlst.
  pose proof (next_node_spec cn visited lst) as Hn.
  destruct (next_node eqb cn visited lst) as [x|].
  - destruct Hn as [Hx Hrel].
    assert (Hxg : In x (cn_genes cn)) by (destruct Hrel as [H|H]; apply cn_genes_in in H; tauto).
    destruct (IH (x :: visited) (partition ++ [x]) x) as (v' & ext & E & Hv & Hnd & Hext & Hc & Hmax).
    + apply last_app_single.
    + pose proof (unv_cons visited (cn_genes cn) x Hx Hxg); lia.
    + exists v', (x :: ext); rewrite <- app_assoc in E; cbn [app] in E; rewrite E.
      rewrite <- app_assoc in Hmax; cbn [app] in Hmax.
      repeat split; auto.
      * intros Hin; apply Hv in Hin; cbn in *; tauto.
      * intros Hin; apply Hv; cbn in *; tauto.
      * constructor; auto; intros Hin; apply Hext in Hin; cbn in *; tauto.
      * destruct H as [<-|H]; auto; apply Hext in H; cbn in *; tauto.
      * destruct H as [<-|H]; auto; apply Hext in H; tauto.
      * intros a b (i & Ha & Hb); destruct i as [|i]; cbn in Ha, Hb.
        -- injection Ha as ->; injection Hb as ->; auto.
        -- apply Hc; exists i; auto.
  - exists visited, []; rewrite app_nil_r.
    split; [reflexivity|]; split; [cbn; tauto|]; split; [constructor|]; split; [cbn; tauto|]; split.
    + intros a b (i & _ & Hb); destruct i as [|[|i]]; discriminate.
    + intros z Hz b Hb; rewrite Hlst in Hz; injection Hz as ->; apply Hn; auto.
Qed.

(** Specification of the outer loop *)
Lemma partitions_loop_spec cn nodes visited :
  (forall x, In x (cn_genes cn) -> In x (visited ++ nodes)) ->
  exists ps, partitions_loop eqb cn nodes visited = Ret ps /\
    NoDup (concat ps) /\
    (forall x, In x (concat ps) <-> In x nodes /\ ~ In x visited) /\
    (forall p, In p ps -> p <> []) /\
    (forall p a b, In p ps -> consec p a b -> cn_rel cn a b) /\
    (forall ps1 p ps2 z b, ps = ps1 ++ p :: ps2 -> last (map Some p) None = Some z ->
        cn_rel cn z b -> In b (visited ++ concat ps1 ++ p)) /\
    (forall ps1 h t ps2, ps = ps1 ++ (h :: t) :: ps2 ->
        exists l1 l2, nodes = l1 ++ h :: l2 /\ forall x, In x l1 -> In x (visited ++ concat ps1)).
Proof.
  revert visited; induction nodes as [|node rest IH]; intros visited Hcn.
  - exists []; cbn; repeat split; try tauto.
    + constructor.
    + intros ps1 p ps2 z b E; destruct ps1; discriminate.
    + intros ps1 h t ps2 E; destruct ps1; discriminate.
  - cbn [partitions_loop]; destruct (mem eqb node visited) eqn:Em.
    + apply mem_In in Em.
      destruct (IH visited) as (ps & E & Hnd & Hin & Hne & Hc & Hmax & Hhd).
      { intros x Hx; apply Hcn in Hx; rewrite in_app_iff in *; cbn in Hx.
        destruct Hx as [Hx|[<-|Hx]]; auto. }
      exists ps; rewrite E; repeat split; auto.
      * apply Hin in H; cbn; tauto.
      * apply Hin in H; tauto.
      * intros [[->|H] Hv]; [tauto|apply Hin; auto].
      * intros ps1 h t ps2 Hps; destruct (Hhd _ _ _ _ Hps) as (l1 & l2 & -> & Hl1).
        exists (node :: l1), l2; split; auto; intros x [->|Hx]; auto.
        rewrite in_app_iff; auto.
    + apply mem_notIn in Em.
      destruct (grow_spec (S (2 * length cn)) cn (node :: visited) [node] node) as
        (v' & ext & Eg & Hv & Hndx & Hext & Hcx & Hmaxx).
      { reflexivity. }
      { pose proof (unv_le (node :: visited) (cn_genes cn)); rewrite cn_genes_length in H; lia. }
      rewrite Eg; cbn [bind app].
      destruct (IH v') as (ps & E & Hnd & Hin & Hne & Hc & Hmax & Hhd).
      { intros x Hx; apply Hcn in Hx; rewrite in_app_iff in *; cbn in Hx; rewrite Hv; cbn; tauto. }
      rewrite E; cbn [bind]; exists ((node :: ext) :: ps); split; [reflexivity|].
      split; [|split; [|split; [|split; [|split]]]].
      * cbn; constructor.
        -- rewrite in_app_iff; intros [H|H].
           ++ apply Hext in H; cbn in H; tauto.
           ++ apply Hin in H as [_ H]; apply H, Hv; cbn; auto.
        -- clear - Hndx Hnd Hin Hv.
           assert (Hd : forall x, In x ext -> In x (concat ps) -> False).
           { intros x Hx Hx'; apply Hin in Hx' as [_ H]; apply H, Hv; auto. }
           clear Hv Hin; induction ext as [|y ext IHe]; cbn; auto.
           inversion Hndx; subst; constructor.
           ++ rewrite in_app_iff; intros [H|H]; [tauto|]; eapply Hd; cbn; eauto.
           ++ apply IHe; auto; intros x Hx; apply Hd; cbn; auto.
      * intros x; cbn [concat]; rewrite <- app_comm_cons; cbn [In]; rewrite in_app_iff, Hin, Hv; cbn [In]; split.
        -- intros [<-|[Hx|[Hx Hx']]]; auto.
           ++ destruct (Hext _ Hx) as [Hx1 Hx2]; cbn in Hx1; split; [|tauto].
              apply Hcn in Hx2; rewrite in_app_iff in Hx2; cbn in Hx2; tauto.
           ++ split; auto; tauto.
        -- intros [[->|Hx] Hx']; auto.
           destruct (gene_dec node x); auto.
           destruct (in_dec gene_dec x ext); auto.
           right; right; split; auto; tauto.
      * intros p [<-|Hp]; [discriminate|auto].
      * intros p a b [<-|Hp]; [exact (Hcx a b)|exact (Hc p a b Hp)].
      * intros [|p0 ps1] p ps2 z b Hps Hz Hb; cbn [app] in Hps.
        -- injection Hps as <- <-; cbn [concat app].
           specialize (Hmaxx z Hz b Hb); apply Hv in Hmaxx; cbn [In] in Hmaxx.
           rewrite in_app_iff; cbn; tauto.
        -- injection Hps as <- Hps; specialize (Hmax _ _ _ _ _ Hps Hz Hb).
           rewrite !in_app_iff in *; cbn [concat]; rewrite <- app_comm_cons; cbn [In]; rewrite in_app_iff, Hv in *; cbn [In] in *; tauto.
      * intros [|p0 ps1] h t ps2 Hps; cbn [app] in Hps.
        -- injection Hps as <- <- <-; exists [], rest; split; auto; cbn; tauto.
        -- injection Hps as <- Hps; destruct (Hhd _ _ _ _ Hps) as (l1 & l2 & -> & Hl1).
           exists (node :: l1), l2; split; auto.
           intros x [->|Hx]; [rewrite in_app_iff; cbn; auto|].
           specialize (Hl1 x Hx); rewrite in_app_iff, Hv in Hl1.
           cbn [concat]; rewrite <- app_comm_cons, in_app_iff; cbn [In]; rewrite in_app_iff; cbn [In] in Hl1; tauto.
Qed.

Lemma cyc_next_in (l : list G) a b : cyc_next l a b -> In a l /\ In b l.
Proof. intros (i & Ha & Hb); split; eapply nth_error_In; eauto. Qed.

Lemma cyc_adj_in (l : list G) a b : cyc_adj l a b -> In a l /\ In b l.
Proof. intros [H|H]; apply cyc_next_in in H; tauto. Qed.

Lemma cyc_adj_sym (l : list G) a b : cyc_adj l a b -> cyc_adj l b a.
Proof. unfold cyc_adj; tauto. Qed.

Lemma common_neighbors_ret g1 g2 : exists r, common_neighbors eqb ltb g1 g2 = Ret r.
Proof.
  destruct (Nat.lt_ge_cases (length g1) 2) as [H1|H1]; [rewrite common_neighbors_small by auto; eauto|].
  destruct (Nat.le_gt_cases (length g2) 2) as [H2|H2]; [rewrite common_neighbors_small by auto; eauto|].
  destruct (common_neighbors_raw g1 g2 H1 H2) as (r & -> & _); eauto.
Qed.

(** Everything about common_partitions, for arbitrary genomes. *)
Lemma common_partitions_raw g1 g2 :
  exists ps, common_partitions eqb ltb g1 g2 = Ret ps /\
    NoDup (concat ps) /\
    (forall x, In x (concat ps) <-> In x g1) /\
    (forall p, In p ps -> p <> []) /\
    (forall p a b, In p ps -> consec p a b -> cyc_adj g1 a b /\ cyc_adj g2 a b) /\
    (lt_total ltb -> 2 <= length g1 -> 3 <= length g2 ->
     forall ps1 p ps2 z b, ps = ps1 ++ p :: ps2 -> last (map Some p) None = Some z ->
        cyc_adj g1 z b -> cyc_adj g2 z b -> In b (concat ps1 ++ p)) /\
    (forall ps1 h t ps2, ps = ps1 ++ (h :: t) :: ps2 ->
        exists l1 l2, g1 = l1 ++ h :: l2 /\ forall x, In x l1 -> In x (concat ps1)).
Proof.
  unfold common_partitions.
  pose proof (common_neighbors_sound g1 g2) as Hs.
  destruct (common_neighbors_ret g1 g2) as (cn & E); rewrite E in *; cbn [bind must] in *.
  destruct (partitions_loop_spec cn g1 []) as (ps & Ep & Hnd & Hin & Hne & Hc & Hmax & Hhd).
  { intros x Hx; apply in_flat_map in Hx as ([a b] & Hab & Hx).
    apply Hs in Hab as [Hab _]; apply cyc_adj_in in Hab; cbn in *; intuition (subst; auto). }
  exists ps; rewrite Ep; split; [reflexivity|].
  split; [auto|]. split; [|split; [auto|split; [|split]]].
  - intros x; rewrite Hin; cbn; tauto.
  - intros p a b Hp Hab; destruct (Hc _ _ _ Hp Hab) as [H|H]; apply Hs in H; [tauto|].
    destruct H; split; apply cyc_adj_sym; auto.
  - intros Ht H1 H2 ps1 p ps2 z b Hps Hz Ha Hb.
    specialize (Hmax ps1 p ps2 z b Hps Hz); cbn in Hmax; apply Hmax.
    destruct (common_neighbors_raw g1 g2 H1 H2) as (r & Er & HR).
    rewrite Er in E; injection E as ->.
    unfold cn_rel; rewrite !HR.
    destruct (ltb b z) eqn:Elt.
    + right.
      destruct (gene_dec z b) as [->|Hne'].
      * destruct Ha as [Ha|Ha]; destruct Hb as [Hb|Hb]; split; exists b, b; split; auto; unfold neighbor; rewrite Elt; auto.
      * assert (ltb z b = false) by (rewrite (Ht z b Hne'), Elt; auto).
        split; apply neighbor_complete; auto using cyc_adj_sym.
    + left; split; apply neighbor_complete; auto.
  - intros ps1 h t ps2 Hps; destruct (Hhd _ _ _ _ Hps) as (l1 & l2 & Hg & Hl); exists l1, l2; split; auto.
Qed.

End Proofs.

(** ** The statements used in Properties_Operators.v *)

Lemma common_partitions_spec {G} (eqb ltb : G -> G -> bool) (g1 g2 : list G) :
  eq_ok eqb -> NoDup g1 ->
  must (common_partitions eqb ltb g1 g2) (fun ps =>
    Permutation g1 (concat ps) /\
    (forall p, In p ps -> p <> []) /\
    (forall p a b, In p ps -> consec p a b -> cyc_adj g1 a b /\ cyc_adj g2 a b)).
Proof.
  intros Heq Hnd; destruct (common_partitions_raw eqb ltb Heq g1 g2) as (ps & E & H1 & H2 & H3 & H4 & _).
  rewrite E; cbn [must]; split; [|split; auto].
  apply NoDup_Permutation; auto; intros x; rewrite H2; tauto.
Qed.

Lemma common_partitions_order {G} (eqb ltb : G -> G -> bool) (g1 g2 : list G) :
  eq_ok eqb -> lt_total ltb -> 2 <= length g1 -> 3 <= length g2 ->
  must (common_partitions eqb ltb g1 g2) (fun ps =>
    forall before p after, ps = before ++ p :: after ->
      (forall z b, last (map Some p) None = Some z -> cyc_adj g1 z b -> cyc_adj g2 z b ->
         In b (concat before ++ p)) /\
      (exists h t, p = h :: t /\ first_not_in g1 (concat before) h)).
Proof.
  intros Heq Hlt Hl1 Hl2; destruct (common_partitions_raw eqb ltb Heq g1 g2) as (ps & E & H1 & H2 & H3 & H4 & H5 & H6).
  rewrite E; cbn [must]; intros before p after ->; split; [eauto|].
  destruct p as [|h t]; [exfalso; apply (H3 []); auto; apply in_or_app; right; left; auto|].
  destruct (H6 before h t after eq_refl) as (l1 & l2 & -> & Hl).
  exists h, t; split; auto; exists l1, l2; split; auto; split; auto.
  rewrite concat_app in H1; cbn [concat app] in H1; apply NoDup_remove_2 in H1.
  intros Hi; apply H1, in_or_app; auto.
Qed.

Lemma consec_dec (l : list nat) a b :
  consec l a b -> existsb (fun i => match nth_error l i, nth_error l (S i) with
    | Some x, Some y => (x =? a) && (y =? b) | _, _ => false end) (seq 0 (length l)) = true.
Proof.
  intros (i & H1 & H2); apply existsb_exists; exists i; split.
  - apply in_seq; pose proof (nth_error_some_lt _ _ _ H1); lia.
  - rewrite H1, H2, !Nat.eqb_refl; auto.
Qed.

Lemma partition_order_witness :
  exists (g1 g2 p : list nat) rest a b,
    NoDup g1 /\ Permutation g1 g2 /\
    common_partitions Nat.eqb Nat.ltb g1 g2 = Ret (p :: rest) /\
    consec p a b /\ consec g1 b a /\ consec g2 b a /\ ~ consec g1 a b /\ ~ consec g2 a b.
Proof.
  exists [1; 2; 3; 4; 5], [1; 3; 2; 4; 5], [1; 5; 4], [[2; 3]], 5, 4.
  split; [repeat constructor; cbn; intuition discriminate|].
  split; [apply perm_skip, perm_swap|].
  split; [reflexivity|].
  split; [exists 1; auto|]. split; [exists 3; auto|]. split; [exists 3; auto|].
  split; intros H; apply consec_dec in H; discriminate.
Qed.

Lemma partition_maximal_witness :
  exists (g1 g2 p q : list nat) ps a b,
    NoDup g1 /\ Permutation g1 g2 /\
    common_partitions Nat.eqb Nat.ltb g1 g2 = Ret ps /\
    nth_error ps 0 = Some p /\ nth_error ps 2 = Some q /\
    hd_error p = Some a /\ last (map Some q) None = Some b /\
    cyc_adj g1 b a /\ cyc_adj g2 b a.
Proof.
  exists [1; 2; 3; 4; 5; 6], [6; 1; 2; 4; 3; 5], [1; 2], [5; 6], [[1; 2]; [3; 4]; [5; 6]], 1, 6.
  split; [repeat constructor; cbn; intuition discriminate|].
  split.
  { change [1; 2; 3; 4; 5; 6] with ([1; 2; 3; 4; 5] ++ [6]).
    etransitivity; [symmetry; apply Permutation_cons_append|].
    do 3 apply perm_skip; apply perm_swap. }
  split; [reflexivity|]. repeat (split; [reflexivity|]).
  split; left; [exists 5|exists 0]; auto.
Qed.
