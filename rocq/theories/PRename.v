(** * PRename: crossover and mutation do not depend on the names of the genes (C114). *)
From Coq Require Import List Bool Arith NArith Lia.
From Verif Require Import Rnd LRnd MOperators MCrossover MMutation Spec SpecO LAlike.
Import ListNotations.

Definition opt {A B} (Q : A -> B -> Prop) (o : option A) (o' : option B) : Prop :=
  match o, o' with Some a, Some b => Q a b | None, None => True | _, _ => False end.

Section Rename.
Context {G H : Type} (eqb ltb : G -> G -> bool) (eqb' ltb' : H -> H -> bool) (Q : G -> H -> Prop).
Hypothesis (HQ : forall a b a' b', Q a b -> Q a' b' -> eqb a a' = eqb' b b').

Notation L := (Forall2 Q).

Lemma rn_mem x y l l' : Q x y -> L l l' -> mem eqb x l = mem eqb' y l'.
Proof. intros Hx Hl; unfold mem; apply (F2_existsb Q); auto. Qed.
Lemma rn_find x y l l' : Q x y -> L l l' -> find_position eqb x l = find_position eqb' y l'.
Proof. intros Hx Hl; induction Hl as [|a b l l' Hab Hl IH]; cbn; auto; rewrite (HQ a b x y Hab Hx), IH; reflexivity. Qed.
Lemma rn_unvisited l l' v v' : L l l' -> L v v' -> opt Q (first_unvisited eqb l v) (first_unvisited eqb' l' v').
Proof. intros Hl Hv; apply F2_find; auto; intros a b Hab; rewrite (rn_mem a b v v'); auto. Qed.

(** ** SCX *)
Lemma rn_scx_next p1 q1 p2 q2 v v' c d : L p1 q1 -> L p2 q2 -> L v v' -> Q c d ->
  alike Q (scx_next eqb p1 p2 v c) (scx_next eqb' q1 q2 v' d).
Proof.
  intros H1 H2 Hv Hc; unfold scx_next; rewrite (rn_find c d p1 q1), (rn_find c d p2 q2), (Forall2_len _ _ _ H1); auto.
  eapply alike_bind; [apply alike_eq|]; intros a1 ? <-; eapply alike_bind; [apply alike_eq|]; intros a2 ? <-.
  eapply alike_bind; [apply alike_idx; eauto|]; intros n1 m1 E1; eapply alike_bind; [apply alike_idx; eauto|]; intros n2 m2 E2.
  rewrite (rn_mem n1 m1 v v'), (rn_mem n2 m2 v v'); auto.
  destruct (mem eqb' m1 v'), (mem eqb' m2 v'); cbn [andb]; try exact E1; try exact E2.
  - apply alike_unwrap; apply rn_unvisited; auto.
  - rewrite (rn_find n1 m1 p2 q2), (rn_find n2 m2 p1 q1); auto.
    eapply alike_bind; [apply alike_eq|]; intros b1 ? <-; eapply alike_bind; [apply alike_eq|]; intros b2 ? <-.
    apply alike_ret; destruct (b1 <? b2); auto.
Qed.
Lemma rn_scx_loop p1 q1 p2 q2 k : L p1 q1 -> L p2 q2 -> forall v v' c d, L v v' -> Q c d ->
  alike L (scx_loop eqb p1 p2 k v c) (scx_loop eqb' q1 q2 k v' d).
Proof.
  intros H1 H2; induction k as [|k IH]; intros v v' c d Hv Hc; cbn; auto.
  eapply alike_bind; [apply rn_scx_next; eauto|]; intros a b Hab; eapply alike_bind; [apply IH; auto|]; intros r r' Hr; cbn; auto.
Qed.
Lemma rn_scx p1 q1 p2 q2 c d : L p1 q1 -> L p2 q2 -> Q c d ->
  alike L (sequential_constructive_crossover eqb p1 p2 c) (sequential_constructive_crossover eqb' q1 q2 d).
Proof.
  intros H1 H2 Hc; unfold sequential_constructive_crossover; rewrite (Forall2_len _ _ _ H1), (Forall2_len _ _ _ H2).
  apply alike_massert; [reflexivity|]; intros _; apply alike_if; [reflexivity|exact H1|].
  eapply alike_bind; [apply rn_scx_loop; eauto|]; intros r r' Hr; cbn; auto.
Qed.

(** ** ERX *)
Definition rn_entry (e : G * list G) (e' : H * list H) : Prop := Q (fst e) (fst e') /\ L (snd e) (snd e').
Lemma rn_insert x y s s' : Q x y -> L s s' -> L (set_insert eqb x s) (set_insert eqb' y s').
Proof. intros Hx Hs; unfold set_insert; rewrite (rn_mem x y s s'); auto; destruct (mem _ _ _); auto; apply Forall2_app; auto. Qed.
Lemma rn_remove x y s s' : Q x y -> L s s' -> L (set_remove eqb x s) (set_remove eqb' y s').
Proof. intros Hx Hs; apply F2_filter; auto; intros a b Hab; rewrite (HQ a b x y); auto. Qed.
Lemma rn_extend m m' g h a b c d : Forall2 rn_entry m m' -> Q g h -> Q a b -> Q c d ->
  Forall2 rn_entry (nmap_extend eqb m g a c) (nmap_extend eqb' m' h b d).
Proof.
  intros Hm Hg Ha Hc; induction Hm as [|[k s] [k' s'] m m' [Hk Hs] Hm IH]; cbn in *.
  - constructor; auto; split; auto; apply rn_insert; auto; apply rn_insert; auto.
  - rewrite (HQ k k' g h); auto; destruct (eqb' k' h); constructor; auto; split; auto; cbn; apply rn_insert; auto; apply rn_insert; auto.
Qed.
Lemma rn_get m m' g h : Forall2 rn_entry m m' -> Q g h -> alike L (nmap_get eqb m g) (nmap_get eqb' m' h).
Proof.
  intros Hm Hg; induction Hm as [|[k s] [k' s'] m m' [Hk Hs] Hm IH]; cbn in *; auto.
  rewrite (HQ k k' g h); auto; destruct (eqb' k' h); auto.
Qed.
Lemma rn_neighbors l l' n : L l l' ->
  alike (Forall2 (fun e e' => Q (fst e) (fst e') /\ Q (fst (snd e)) (fst (snd e')) /\ Q (snd (snd e)) (snd (snd e')))) (neighbors_of l n) (neighbors_of l' n).
Proof.
  intros Hl; unfold neighbors_of; rewrite (Forall2_len _ _ _ Hl); eapply alike_mapM; [|apply F2_eq].
  intros i ? <-; eapply alike_bind; [apply alike_idx; eauto|]; intros a b Hab; eapply alike_bind; [apply alike_idx; eauto|]; intros a1 b1 H1.
  eapply alike_bind; [apply alike_idx; eauto|]; intros a2 b2 H2; cbn; auto.
Qed.
Lemma rn_build p1 q1 p2 q2 : L p1 q1 -> L p2 q2 -> alike (Forall2 rn_entry) (build_neighbors eqb p1 p2) (build_neighbors eqb' q1 q2).
Proof.
  intros H1 H2; unfold build_neighbors; rewrite (Forall2_len _ _ _ H1).
  eapply alike_bind; [apply rn_neighbors; eauto|]; intros a b Hab; eapply alike_bind; [apply rn_neighbors; eauto|]; intros c d Hcd.
  cbn [alike]; pose proof (Forall2_app Hab Hcd) as Hall; assert (Hn : Forall2 rn_entry [] []) by constructor; revert Hn.
  generalize (@nil (G * list G)) (@nil (H * list H)); induction Hall as [|x y u v (Hx & Hy & Hz) Hall IH]; intros m m' Hm; cbn; auto.
  apply IH, rn_extend; auto.
Qed.
Lemma rn_min_key l l' : Forall2 (fun x y => Q (fst x) (fst y) /\ snd x = snd y) l l' ->
  opt (fun x y => Q (fst x) (fst y) /\ snd x = snd y) (min_by_key l) (min_by_key l').
Proof.
  intros Hl; induction Hl as [|[g k] [h k'] l l' [Hg Hk] Hl IH]; [exact Logic.I|]; cbn [min_by_key fst snd] in *; subst k'.
  destruct (min_by_key l) as [[g1 k1]|], (min_by_key l') as [[h1 k1']|]; cbn in IH; try contradiction; [|cbn; auto].
  destruct IH as [Hq ->]; destruct (k1' <? k); cbn; auto.
Qed.
Lemma rn_edge_next p q m m' v v' c d : L p q -> Forall2 rn_entry m m' -> L v v' -> Q c d ->
  alike Q (edge_next eqb p m v c) (edge_next eqb' q m' v' d).
Proof.
  intros Hp Hm Hv Hc; unfold edge_next; eapply alike_bind; [apply rn_get; eauto|]; intros s s' Hs.
  eapply alike_bind; [apply alike_pick_from, F2_perms; eauto|]; intros o o' Ho.
  eapply (alike_bind (Forall2 (fun x y => Q (fst x) (fst y) /\ snd x = snd y))).
  - eapply (alike_mapM Q); [|apply F2_filter; [|exact Ho]].
    + intros a b Hab; eapply alike_bind; [apply rn_get; eauto|]; intros t t' Ht; cbn; rewrite (Forall2_len _ _ _ Ht); auto.
    + intros a b Hab; rewrite (rn_mem a b v v'); auto.
  - intros k k' Hk; pose proof (rn_min_key k k' Hk) as Hmin; destruct (min_by_key k) as [[g1 k1]|], (min_by_key k') as [[h1 k1']|]; cbn in Hmin; try contradiction.
    + apply Hmin.
    + apply alike_unwrap, rn_unvisited; auto.
Qed.
Lemma rn_erx_loop p q k : L p q -> forall m m' v v' c d, Forall2 rn_entry m m' -> L v v' -> Q c d ->
  alike L (erx_loop eqb p k m v c) (erx_loop eqb' q k m' v' d).
Proof.
  intros Hp; induction k as [|k IH]; intros m m' v v' c d Hm Hv Hc; cbn; auto.
  assert (Hm' : Forall2 rn_entry (map (fun e => (fst e, set_remove eqb c (snd e))) m) (map (fun e => (fst e, set_remove eqb' d (snd e))) m')).
  { eapply F2_map; [|exact Hm]; intros e e' [E1 E2]; split; auto; cbn; apply rn_remove; auto. }
  eapply alike_bind; [apply rn_edge_next; eauto|]; intros a b Hab; eapply alike_bind; [apply IH; eauto|]; intros r r' Hr; cbn; auto.
Qed.
Lemma rn_erx p1 q1 p2 q2 c d : L p1 q1 -> L p2 q2 -> Q c d ->
  alike L (edge_recombination_crossover eqb p1 p2 c) (edge_recombination_crossover eqb' q1 q2 d).
Proof.
  intros H1 H2 Hc; unfold edge_recombination_crossover; rewrite (Forall2_len _ _ _ H1), (Forall2_len _ _ _ H2).
  apply alike_massert; [reflexivity|]; intros _; apply alike_if; [reflexivity|exact H1|].
  eapply alike_bind; [apply rn_build; eauto|]; intros m m' Hm; eapply alike_bind; [apply rn_erx_loop; eauto|]; intros r r' Hr; cbn; auto.
Qed.

(** ** PMX, OX, CX, SPX *)
Lemma rn_resolve fuel s s' t t' : L s s' -> L t t' -> forall g h, Q g h -> alike Q (pmx_resolve eqb fuel s t g) (pmx_resolve eqb' fuel s' t' h).
Proof.
  intros Hs Ht; induction fuel as [|f IH]; intros g h Hg; cbn; auto; rewrite (rn_find g h s s'); auto.
  destruct (find_position eqb' h s'); auto; eapply alike_bind; [apply alike_idx; eauto|]; intros a b Hab; auto.
Qed.
Lemma rn_pmx fuel p1 q1 p2 q2 rg : L p1 q1 -> L p2 q2 -> alike L (partially_mapped_crossover eqb fuel p1 p2 rg) (partially_mapped_crossover eqb' fuel q1 q2 rg).
Proof.
  intros H1 H2; unfold partially_mapped_crossover; rewrite (Forall2_len _ _ _ H1), (Forall2_len _ _ _ H2).
  apply alike_massert; [reflexivity|]; intros _; apply alike_if; [reflexivity|exact H1|]; destruct rg as [a b].
  eapply alike_bind; [apply alike_idx; eauto|]; intros g h Hg; eapply alike_bind; [apply alike_slice; eauto|]; intros s s' Hs.
  eapply alike_bind; [apply alike_copy_range; [apply F2_repeat; eauto|eauto]|]; intros o o' Ho.
  eapply alike_bind; [apply alike_slice; eauto|]; intros u u' Hu; eapply alike_bind; [apply alike_slice; eauto|]; intros w w' Hw.
  rewrite (Forall2_len _ _ _ Ho); eapply alike_mapM; [|apply F2_eq]; intros i ? <-; apply alike_if; [reflexivity| |apply alike_idx; auto].
  eapply alike_bind; [apply alike_idx; eauto|]; intros x y Hxy; apply rn_resolve; auto.
Qed.
Lemma rn_ox_loop fuel p q n a b : L p q -> forall g h i j, L g h -> alike L (ox_loop eqb fuel p n a b g i j) (ox_loop eqb' fuel q n a b h i j).
Proof.
  intros Hp; induction fuel as [|f IH]; intros g h i j Hg; cbn; auto; apply alike_if; [reflexivity|exact Hg|].
  eapply alike_bind; [apply alike_slice; eauto|]; intros s s' Hs; eapply alike_bind; [apply alike_idx; eauto|]; intros x y Hxy.
  rewrite (rn_mem x y s s'); auto; apply alike_if; [reflexivity| |apply IH; auto].
  eapply alike_bind; [apply alike_set; eauto|]; intros u u' Hu; apply IH; auto.
Qed.
Lemma rn_ox fuel p1 q1 p2 q2 rg : L p1 q1 -> L p2 q2 -> alike L (order_crossover eqb fuel p1 p2 rg) (order_crossover eqb' fuel q1 q2 rg).
Proof.
  intros H1 H2; unfold order_crossover; rewrite (Forall2_len _ _ _ H1), (Forall2_len _ _ _ H2).
  apply alike_massert; [reflexivity|]; intros _; apply alike_if; [reflexivity|exact H1|]; destruct rg as [a b].
  eapply alike_bind; [apply alike_idx; eauto|]; intros g h Hg; eapply alike_bind; [apply alike_slice; eauto|]; intros s s' Hs.
  eapply alike_bind; [apply alike_copy_range; [apply F2_repeat; eauto|eauto]|]; intros o o' Ho; apply rn_ox_loop; auto.
Qed.
Lemma rn_cycle fuel p1 q1 p2 q2 fp : L p1 q1 -> L p2 q2 -> forall o o' v i, L o o' ->
  alike (fun x y => L (fst x) (fst y) /\ snd x = snd y) (cx_cycle eqb fuel p1 p2 fp o v i) (cx_cycle eqb' fuel q1 q2 fp o' v i).
Proof.
  intros H1 H2; induction fuel as [|f IH]; intros o o' v i Ho; cbn; auto.
  eapply alike_bind; [apply alike_eq|]; intros x ? <-; apply alike_if; [reflexivity|cbn; auto|].
  eapply alike_bind; [apply alike_eq|]; intros v1 ? <-.
  eapply (alike_bind Q); [apply alike_if; [reflexivity|apply alike_idx; auto|apply alike_idx; auto]|]; intros g h Hg.
  eapply alike_bind; [apply alike_set; eauto|]; intros u u' Hu.
  eapply (alike_bind eq).
  - apply alike_if; [reflexivity| |]; [rewrite (rn_find g h p2 q2)|rewrite (rn_find g h p1 q1)]; auto; apply alike_eq.
  - intros k ? <-; apply IH; auto.
Qed.
Lemma rn_cx_loop fuel p1 q1 p2 q2 : L p1 q1 -> L p2 q2 -> forall fp o o' v i, L o o' ->
  alike L (cx_loop eqb fuel p1 p2 fp o v i) (cx_loop eqb' fuel q1 q2 fp o' v i).
Proof.
  intros H1 H2; induction fuel as [|f IH]; intros fp o o' v i Ho; cbn [cx_loop]; [reflexivity|]; rewrite (Forall2_len _ _ _ H1).
  apply alike_if; [reflexivity| |exact Ho].
  eapply alike_bind; [apply rn_cycle; eauto|]; intros [u w] [u' w'] [Hu E]; cbn in Hu, E; subst w'.
  destruct (first_false w); [apply IH; auto|exact Hu].
Qed.
Lemma rn_cx p1 q1 p2 q2 : L p1 q1 -> L p2 q2 -> alike L (cycle_crossover eqb p1 p2) (cycle_crossover eqb' q1 q2).
Proof.
  intros H1 H2; unfold cycle_crossover; rewrite (Forall2_len _ _ _ H1), (Forall2_len _ _ _ H2).
  apply alike_massert; [reflexivity|]; intros _; apply alike_if; [reflexivity|exact H1|].
  eapply alike_bind; [apply alike_idx; eauto|]; intros g h Hg; apply rn_cx_loop; auto; apply F2_repeat; auto.
Qed.
Lemma rn_spx p1 q1 p2 q2 n : L p1 q1 -> L p2 q2 -> alike L (single_point_crossover p1 p2 n) (single_point_crossover q1 q2 n).
Proof.
  intros H1 H2; unfold single_point_crossover; rewrite (Forall2_len _ _ _ H1), (Forall2_len _ _ _ H2).
  apply alike_massert; [reflexivity|]; intros _; apply alike_if; [reflexivity| |exact H1].
  eapply alike_bind; [apply alike_slice; eauto|]; intros s s' Hs; apply alike_copy_range; auto.
Qed.

(** ** Mutation *)
Lemma rn_shuffle_loop i : forall l l', L l l' -> alike L (shuffle_loop i l) (shuffle_loop i l').
Proof.
  induction i as [|i IH]; intros l l' Hl; cbn [shuffle_loop]; [exact Hl|]; eapply alike_bind; [apply alike_eq|]; intros j ? <-.
  eapply alike_bind; [apply alike_swap; eauto|]; auto.
Qed.
Lemma rn_mutate s l l' : L l l' -> alike L (mutate s l) (mutate s l').
Proof.
  intros Hl; pose proof (Forall2_len _ _ _ Hl) as El.
  destruct s; cbn [mutate]; unfold swap_mutation, scramble_mutation, inversion_mutation, insertion_mutation, duplicate_mutation;
    rewrite El; (apply alike_if; [reflexivity|exact Hl|]); (eapply alike_bind; [apply alike_eq|]); intros [a b] ? <-.
  - apply alike_swap; auto.
  - eapply alike_bind; [apply alike_slice; eauto|]; intros s s' Hs.
    eapply alike_bind; [unfold shuffle; rewrite (Forall2_len _ _ _ Hs); apply rn_shuffle_loop; eauto|]; intros t t' Ht; apply alike_copy_range; auto.
  - eapply alike_bind; [apply alike_slice; eauto|]; intros s s' Hs; apply alike_copy_range; auto; apply F2_rev; auto.
  - destruct (b <? a); (eapply alike_bind; [apply alike_slice; eauto|]; intros s s' Hs;
      eapply (alike_bind L); [unfold rotate_right; rewrite (Forall2_len _ _ _ Hs); destruct (_ <=? _); cbn; auto; apply Forall2_app; auto using F2_firstn, F2_skipn|];
      intros t t' Ht; apply alike_copy_range; auto).
  - eapply alike_bind; [apply alike_idx; eauto|]; intros x y Hxy; apply alike_set; auto.
Qed.

(** ** GPX2: the order of the genes is used to write a pair of neighbours in one way. *)
Hypothesis (Heq : eq_ok eqb) (Heq' : eq_ok eqb') (Hlt : lt_total ltb) (Hlt' : lt_total ltb').

Definition raw_rel (p : G * G) (q : H * H) : Prop := Q (fst p) (fst q) /\ Q (snd p) (snd q).
Definition nb_rel (p : G * G) (q : H * H) : Prop :=
  exists a b c d, p = neighbor ltb a b /\ q = neighbor ltb' c d /\ Q a c /\ Q b d.

Lemma pair_eqb_neighbor {K} (e l : K -> K -> bool) (He : eq_ok e) (Hl : lt_total l) a b x y :
  pair_eqb e (neighbor l a b) (neighbor l x y) = (e a x && e b y) || (e a y && e b x).
Proof.
  assert (He' : forall u v, e u v = true <-> u = v) by exact He.
  apply eq_true_iff_eq; rewrite orb_true_iff, !andb_true_iff, !He'; unfold pair_eqb, neighbor.
  destruct (l a b) eqn:Eab, (l x y) eqn:Exy; cbn [fst snd]; rewrite !andb_true_iff, !He'.
  - split; [auto|]; intros [?|[-> ->]]; auto.
    destruct (e x y) eqn:E; [apply He in E; subst; auto|].
    assert (x <> y) by (intros ->; rewrite (proj2 (He y y) eq_refl) in E; discriminate).
    rewrite (Hl x y), Eab in Exy by auto; discriminate.
  - split; [intros [-> ->]; auto|]; intros [[-> ->]|[-> ->]]; auto; congruence.
  - split; [intros [-> ->]; auto|]; intros [[-> ->]|[-> ->]]; auto; congruence.
  - split; [intros [-> ->]; auto|]; intros [[-> ->]|[-> ->]]; auto.
    destruct (e x y) eqn:E; [apply He in E; subst; auto|].
    assert (x <> y) by (intros ->; rewrite (proj2 (He y y) eq_refl) in E; discriminate).
    rewrite (Hl x y), Eab in Exy by auto; discriminate.
Qed.
Lemma rn_pair_eqb p p' q q' : nb_rel p p' -> nb_rel q q' -> pair_eqb eqb p q = pair_eqb eqb' p' q'.
Proof.
  intros (a & b & c & d & -> & -> & Ha & Hb) (x & y & u & v & -> & -> & Hx & Hy).
  rewrite (pair_eqb_neighbor eqb ltb), (pair_eqb_neighbor eqb' ltb'); auto.
  rewrite (HQ a c x u), (HQ b d y v), (HQ a c y v), (HQ b d x u); auto.
Qed.
Lemma rn_windows l l' : L l l' -> Forall2 raw_rel (windows2 l) (windows2 l').
Proof. intros Hl; induction Hl as [|a b l l' Hab Hl IH]; cbn; auto; destruct Hl; auto; constructor; [split|]; auto. Qed.
Lemma rn_pairs l l' : L l l' -> alike (Forall2 nb_rel) (neighbor_pairs ltb l) (neighbor_pairs ltb' l').
Proof.
  intros Hl; unfold neighbor_pairs; eapply (alike_bind Q); [apply alike_unwrap, F2_last; auto|]; intros a b Hab.
  eapply (alike_bind Q); [apply alike_unwrap, F2_hd; auto|]; intros c d Hcd; cbn [alike]; apply Forall2_app.
  - eapply F2_map; [|apply rn_windows; eauto]; intros p q [H1 H2]; exists (fst p), (snd p), (fst q), (snd q); auto.
  - constructor; auto; exists a, c, b, d; auto.
Qed.
Lemma rn_common p1 q1 p2 q2 : L p1 q1 -> L p2 q2 -> alike (Forall2 nb_rel) (common_neighbors eqb ltb p1 p2) (common_neighbors eqb' ltb' q1 q2).
Proof.
  intros H1 H2; unfold common_neighbors; rewrite (Forall2_len _ _ _ H1), (Forall2_len _ _ _ H2).
  apply alike_if; [reflexivity|constructor|].
  destruct (length q1 <=? length q2); (eapply alike_bind; [apply rn_pairs; eauto|]; intros a b Hab;
    eapply alike_bind; [apply rn_pairs; eauto|]; intros c d Hcd; cbn [alike]; apply F2_filter; auto;
    intros p q Hpq; apply (F2_existsb nb_rel); auto; intros; apply rn_pair_eqb; auto).
Qed.
Lemma rn_next cn cn' v v' x y : Forall2 nb_rel cn cn' -> L v v' -> Q x y -> opt Q (next_node eqb cn v x) (next_node eqb' cn' v' y).
Proof.
  intros Hcn Hv Hx; induction Hcn as [|[a b] [c d] cn cn' Hn Hcn IH]; [exact Logic.I|]; cbn [next_node].
  assert (Hn' : Q a c /\ Q b d \/ Q a d /\ Q b c).
  { destruct Hn as (a0 & b0 & c0 & d0 & E1 & E2 & Ha & Hb); unfold neighbor in *.
    destruct (ltb a0 b0), (ltb' c0 d0); injection E1 as -> ->; injection E2 as -> ->; auto. }
  destruct Hn' as [[Ha Hb]|[Ha Hb]].
  - rewrite (HQ a c x y), (HQ b d x y), (rn_mem a c v v'), (rn_mem b d v v'); auto.
    destruct (eqb' c y && negb _); [exact Hb|]; destruct (eqb' d y && negb _); [exact Ha|exact IH].
  - rewrite <- (HQ a d x y), <- (HQ b c x y), <- (rn_mem a d v v'), <- (rn_mem b c v v'); auto.
    destruct (eqb a x) eqn:Ea, (eqb b x) eqn:Eb; cbn [andb].
    + apply Heq in Ea, Eb; subst a b; destruct (negb _); [exact Ha|exact IH].
    + destruct (negb _); [exact Hb|exact IH].
    + destruct (negb _); [exact Ha|exact IH].
    + exact IH.
Qed.
Lemma rn_grow fuel cn cn' : Forall2 nb_rel cn cn' -> forall v v' p p', L v v' -> L p p' ->
  alike (fun x y => L (fst x) (fst y) /\ L (snd x) (snd y)) (grow eqb fuel cn v p) (grow eqb' fuel cn' v' p').
Proof.
  intros Hcn; induction fuel as [|f IH]; intros v v' p p' Hv Hp; cbn [grow]; [reflexivity|].
  pose proof (F2_last Q p p' Hp) as Hl; destruct (last (map Some p) None) as [x|], (last (map Some p') None) as [y|]; try contradiction; [|split; auto].
  pose proof (rn_next cn cn' v v' x y Hcn Hv Hl) as Hn; destruct (next_node eqb cn v x) as [a|], (next_node eqb' cn' v' y) as [b|]; cbn in Hn; try contradiction; [|split; auto].
  apply IH; auto; apply Forall2_app; auto.
Qed.
Lemma rn_partitions_loop cn cn' : Forall2 nb_rel cn cn' -> forall n n' v v', L n n' -> L v v' ->
  alike (Forall2 L) (partitions_loop eqb cn n v) (partitions_loop eqb' cn' n' v').
Proof.
  intros Hcn n n' v v' Hn; revert v v'; induction Hn as [|x y n n' Hxy Hn IH]; intros v v' Hv; cbn [partitions_loop]; [constructor|].
  rewrite (rn_mem x y v v'), (Forall2_len _ _ _ Hcn); auto; apply alike_if; [reflexivity|auto|].
  eapply alike_bind; [apply rn_grow; eauto|]; intros [v1 p] [v2 p'] [H1 H2]; cbn in H1, H2.
  eapply alike_bind; [apply IH; eauto|]; intros r r' Hr; cbn; auto.
Qed.
Lemma rn_partitions p1 q1 p2 q2 : L p1 q1 -> L p2 q2 -> alike (Forall2 L) (common_partitions eqb ltb p1 p2) (common_partitions eqb' ltb' q1 q2).
Proof.
  intros H1 H2; unfold common_partitions; eapply alike_bind; [apply rn_common; eauto|]; intros cn cn' Hcn; apply rn_partitions_loop; auto.
Qed.
Lemma rn_gpx2_loop {S0} (sel : S0 -> option G -> list (list G) -> M (nat * S0)) (sel' : S0 -> option H -> list (list H) -> M (nat * S0))
  (Hsel : forall s o o' ps ps', opt Q o o' -> Forall2 L ps ps' -> alike eq (sel s o ps) (sel' s o' ps')) fuel :
  forall s o o' ps ps', L o o' -> Forall2 L ps ps' -> alike L (gpx2_loop eqb sel fuel s o ps) (gpx2_loop eqb' sel' fuel s o' ps').
Proof.
  induction fuel as [|f IH]; intros s o o' ps ps' Ho Hps; cbn [gpx2_loop]; [reflexivity|].
  assert (E : (ps = [] <-> ps' = [])) by (destruct Hps; split; auto; discriminate).
  destruct ps as [|p ps0], ps' as [|p' ps0']; [exact Ho|exfalso; destruct E as [E _]; specialize (E eq_refl); discriminate|
    exfalso; destruct E as [_ E]; specialize (E eq_refl); discriminate|].
  eapply alike_bind; [apply Hsel; [apply F2_last|]; eauto|]; intros [i s1] ? <-.
  eapply alike_bind; [apply alike_swap_remove; eauto|]; intros [u r] [u' r'] [Hu Hr]; cbn in Hu, Hr; apply IH; [apply Forall2_app; auto|].
  eapply F2_filter; [intros a b Hab; rewrite (Forall2_len _ _ _ Hab); reflexivity|].
  eapply F2_map; [|exact Hr]; intros a b Hab; apply F2_filter; auto; intros x y Hxy; rewrite (rn_mem x y u u'); auto.
Qed.
Lemma rn_gpx2 {S0} p1 q1 p2 q2 (sel : S0 -> option G -> list (list G) -> M (nat * S0)) (sel' : S0 -> option H -> list (list H) -> M (nat * S0)) s :
  (forall s o o' ps ps', opt Q o o' -> Forall2 L ps ps' -> alike eq (sel s o ps) (sel' s o' ps')) -> L p1 q1 -> L p2 q2 ->
  alike L (generalized_partition_2_crossover eqb ltb p1 p2 sel s) (generalized_partition_2_crossover eqb' ltb' q1 q2 sel' s).
Proof.
  intros Hsel H1 H2; unfold generalized_partition_2_crossover; eapply alike_bind; [apply rn_partitions; eauto|]; intros ps ps' Hps.
  rewrite (Forall2_len _ _ _ Hps); apply rn_gpx2_loop; auto.
Qed.

Lemma rn_crossover fuel cs p1 q1 p2 q2 : L p1 q1 -> L p2 q2 -> alike L (crossover eqb ltb fuel cs p1 p2) (crossover eqb' ltb' fuel cs q1 q2).
Proof.
  intros H1 H2; pose proof (Forall2_len _ _ _ H1) as El; destruct cs; cbn [crossover].
  - apply rn_gpx2; auto; intros s o o' ps ps' _ Hps; rewrite (Forall2_len _ _ _ Hps); apply alike_eq.
  - eapply alike_bind; [apply alike_choose; eauto|]; intros o o' Ho; eapply (alike_bind Q); [apply alike_unwrap; exact Ho|].
    intros a b Hab; apply rn_scx; auto.
  - eapply alike_bind; [apply alike_choose; eauto|]; intros o o' Ho; eapply (alike_bind Q); [apply alike_unwrap; exact Ho|].
    intros a b Hab; apply rn_erx; auto.
  - rewrite El; eapply alike_bind; [apply alike_eq|]; intros r ? <-; apply rn_pmx; auto.
  - rewrite El; eapply alike_bind; [apply alike_eq|]; intros r ? <-; apply rn_ox; auto.
  - apply rn_cx; auto.
  - rewrite El; eapply alike_bind; [apply alike_eq|]; intros r ? <-; apply rn_spx; auto.
Qed.
End Rename.
