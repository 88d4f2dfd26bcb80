(** * PBack: crossing the two children of a pair gives the parents back (C121). *)
From Coq Require Import List Bool Arith Lia Permutation.
From Verif Require Import Rnd LRnd MOperators MCrossover Spec SpecBack PCrossoverCx PCrossoverPmx PCrossoverAll DocExamples.
Import ListNotations.

Lemma em_false (P : Prop) : (P -> False) -> (~ P -> False) -> False.
Proof. tauto. Qed.

(** ** What determines the parent of each position in CX *)
Section Choice.
Context {G : Type} (p1 p2 : list G).
Definition choice (f : nat -> bool) : Prop :=
  f 0 = true /\ (forall i j, cx_link p1 p2 i j -> f i = f j) /\
  (forall i j, cx_leader p1 p2 i -> cx_leader p1 p2 j -> i < j -> (forall k, i < k < j -> ~ cx_leader p1 p2 k) -> f j = negb (f i)).

Lemma choice_cycle f i j : choice f -> cx_cycle_of p1 p2 i j -> f i = f j.
Proof. intros (_ & Hl & _); induction 1 as [i|i j k H _ IH|i j k H _ IH]; auto; [rewrite (Hl i j H)|rewrite <- (Hl j i H)]; auto. Qed.

(** The last leader before [j] *)
Lemma last_leader n : forall i, i <= n -> cx_leader p1 p2 i ->
  ((exists i', i' <= n /\ cx_leader p1 p2 i' /\ forall k, i' < k <= n -> ~ cx_leader p1 p2 k) -> False) -> False.
Proof.
  induction n as [|n IH]; intros i Hi Hl H.
  - apply H; exists i; split; auto; split; auto; intros; lia.
  - apply (em_false (cx_leader p1 p2 (S n))); intros Hn.
    + apply H; exists (S n); split; auto; split; auto; intros; lia.
    + assert (i <> S n) by (intros ->; auto).
      apply (IH i); auto; [lia|]; intros (i' & H1 & H2 & H3); apply H; exists i'; split; [lia|split; auto].
      intros k Hk; destruct (Nat.eq_dec k (S n)) as [->|]; auto; apply H3; lia.
Qed.

Lemma choice_unique f f' : choice f -> choice f' -> forall i, i < length p1 -> f i = f' i.
Proof.
  intros Hf Hf'; induction i as [i IH] using lt_wf_ind; intros Hi.
  destruct (bool_dec (f i) (f' i)) as [|N]; auto; exfalso.
  apply (em_false (cx_leader p1 p2 i)); intros Hl.
  - destruct (Nat.eq_dec i 0) as [->|Hi0]; [apply N; rewrite (proj1 Hf), (proj1 Hf'); auto|].
    assert (L0 : cx_leader p1 p2 0) by (split; [lia|intros; lia]).
    apply (last_leader (i - 1) 0); [lia|auto|]; intros (j & Hj & Lj & Hm); apply N.
    assert (Hk : forall k, j < k < i -> ~ cx_leader p1 p2 k) by (intros; apply Hm; lia).
    rewrite (proj2 (proj2 Hf) j i Lj Hl ltac:(lia) Hk), (proj2 (proj2 Hf') j i Lj Hl ltac:(lia) Hk); f_equal; apply IH; lia.
  - apply Hl; split; auto; intros j Hj; destruct (Nat.le_gt_cases i j) as [|H]; auto; exfalso; apply N.
    rewrite (choice_cycle f i j Hf Hj), (choice_cycle f' i j Hf' Hj); apply IH; lia.
Qed.
End Choice.

(** Parents with the same cycles have the same choices. *)
Lemma choice_transfer {G} (p1 p2 q1 q2 : list G) f : length q1 = length p1 ->
  (forall i j, cx_link q1 q2 i j -> cx_link p1 p2 i j \/ cx_link p1 p2 j i) ->
  (forall i j, cx_link p1 p2 i j -> cx_link q1 q2 i j \/ cx_link q1 q2 j i) -> choice p1 p2 f -> choice q1 q2 f.
Proof.
  intros Hlen H1 H2 Hf.
  assert (C1 : forall i j, cx_cycle_of q1 q2 i j -> cx_cycle_of p1 p2 i j).
  { induction 1 as [i|i j k H _ IH|i j k H _ IH]; [constructor| |]; destruct (H1 _ _ H); solve [eapply cx_fwd; eauto|eapply cx_bwd; eauto]. }
  assert (C2 : forall i j, cx_cycle_of p1 p2 i j -> cx_cycle_of q1 q2 i j).
  { induction 1 as [i|i j k H _ IH|i j k H _ IH]; [constructor| |]; destruct (H2 _ _ H); solve [eapply cx_fwd; eauto|eapply cx_bwd; eauto]. }
  assert (L : forall i, cx_leader q1 q2 i <-> cx_leader p1 p2 i).
  { intros i; unfold cx_leader; rewrite Hlen; split; intros [Hi H]; split; auto. }
  destruct Hf as (F0 & Fl & Fa); split; [|split]; auto.
  - intros i j H; destruct (H1 i j H) as [K|K]; [|symmetry]; auto.
  - intros i j Li Lj Hij Hk; apply Fa; auto; try (apply L; auto); intros k Hb Lk; apply (Hk k Hb), L, Lk.
Qed.

Section Back.
Context {G : Type} (eqb : G -> G -> bool) (Heq : eq_ok eqb).

Lemma cx_choice (p1 p2 r : list G) : perm_parents p1 p2 -> may (cycle_crossover eqb p1 p2) r ->
  Permutation p1 r /\ exists f, choice p1 p2 f /\ forall i, i < length p1 -> nth_error r i = nth_error (if f i then p1 else p2) i.
Proof.
  intros Hp Hr; pose proof (must_may _ _ r (cx_offspring eqb p1 p2 Heq Hp) Hr) as (Hpr & f & H1 & H2 & H3 & H4).
  split; auto; exists f; split; auto; split; auto.
Qed.
Lemma cx_by_choice (p1 p2 : list G) f : perm_parents p1 p2 -> choice p1 p2 f ->
  must (cycle_crossover eqb p1 p2) (fun r => length r = length p1 /\ forall i, i < length p1 -> nth_error r i = nth_error (if f i then p1 else p2) i).
Proof.
  intros Hp Hf; eapply must_mono; [|apply (cx_offspring eqb p1 p2 Heq Hp)]; cbn beta.
  intros r (Hpr & f' & H1 & H2 & H3 & H4); split; [symmetry; apply Permutation_length; auto|]; intros i Hi.
  rewrite (choice_unique p1 p2 f f' Hf (conj H2 (conj H3 H4)) i Hi); auto.
Qed.

Lemma link_swap (p1 p2 : list G) i j : cx_link p1 p2 i j <-> cx_link p2 p1 j i.
Proof. split; intros (g & A & B); exists g; auto. Qed.

Lemma choice_swap (p1 p2 : list G) f : perm_parents p1 p2 -> choice p2 p1 f -> choice p1 p2 f.
Proof. intros [_ HP]; apply choice_transfer; [apply Permutation_length; auto| |]; intros i j H; right; apply link_swap; auto. Qed.

Lemma nth_ext_error (l r : list G) : length l = length r -> (forall i, i < length l -> nth_error l i = nth_error r i) -> l = r.
Proof.
  revert r; induction l as [|x l IH]; intros [|y r] Hl H; cbn in Hl; try lia; auto.
  pose proof (H 0 ltac:(cbn; lia)) as H0; cbn in H0; injection H0 as ->; f_equal; apply IH; [lia|].
  intros i Hi; apply (H (S i)); cbn; lia.
Qed.
Lemma nth_inj (l : list G) i j g : NoDup l -> nth_error l i = Some g -> nth_error l j = Some g -> i = j.
Proof. intros Hn H1 H2; apply (proj1 (NoDup_nth_error l) Hn); [apply nth_error_Some|]; congruence. Qed.

Lemma cx_back (p1 p2 c1 c2 : list G) : perm_parents p1 p2 ->
  may (cycle_crossover eqb p1 p2) c1 -> may (cycle_crossover eqb p2 p1) c2 ->
  complementary p1 p2 c1 c2 /\ must (cycle_crossover eqb c1 c2) (fun r => r = p1) /\ must (cycle_crossover eqb c2 c1) (fun r => r = p2).
Proof.
  intros Hp H1 H2; destruct Hp as [Hn HP]; assert (Hp' : perm_parents p2 p1) by (split; [eapply Permutation_NoDup; eauto|symmetry; auto]).
  assert (Hp : perm_parents p1 p2) by (split; auto).
  pose proof (Permutation_length HP) as Hlen.
  destruct (cx_choice p1 p2 c1 Hp H1) as (P1 & f & Hf & E1), (cx_choice p2 p1 c2 Hp' H2) as (P2 & f' & Hf' & E2).
  assert (L1 : length c1 = length p1) by (symmetry; apply Permutation_length; auto).
  assert (L2 : length c2 = length p1) by (rewrite Hlen; symmetry; apply Permutation_length; auto).
  assert (E2' : forall i, i < length p1 -> nth_error c2 i = nth_error (if f i then p2 else p1) i).
  { intros i Hi; rewrite (E2 i) by lia; rewrite (choice_unique p1 p2 f f' Hf (choice_swap p1 p2 f' Hp Hf') i Hi); auto. }
  assert (Hpc : perm_parents c1 c2) by (split; [apply (Permutation_NoDup P1); auto|rewrite <- P1, <- P2; auto]).
  assert (Hpc' : perm_parents c2 c1) by (split; [apply (Permutation_NoDup P2); apply Hp'|rewrite <- P1, <- P2; symmetry; auto]).
  assert (Hb : forall (l : list G) k g, nth_error l k = Some g -> k < length l) by (intros l k g H; apply nth_error_Some; congruence).
  assert (Hc : choice c1 c2 f).
  { apply (choice_transfer p1 p2); auto.
    - intros i j (g & A & B); pose proof (Hb _ _ _ A) as Bi; pose proof (Hb _ _ _ B) as Bj.
      rewrite ?L1, ?L2 in *; rewrite ?E1, ?E2' in * by lia.
      destruct (f i) eqn:Fi, (f j) eqn:Fj; [left; exists g; auto| |  |right; exists g; auto].
      + exfalso; assert (i = j) by (eapply nth_inj; [apply (proj1 Hp)| |]; eauto); congruence.
      + exfalso; assert (i = j) by (eapply nth_inj; [apply (proj1 Hp')| |]; eauto); congruence.
    - intros i j K; pose proof K as (g & A & B); pose proof (Hb _ _ _ A) as Bi; pose proof (Hb _ _ _ B) as Bj; rewrite <- ?Hlen in *.
      pose proof (proj1 (proj2 Hf) i j K) as Ff; destruct (f i) eqn:Fi; symmetry in Ff; [left|right]; exists g; rewrite !E1, !E2', Fi, Ff by lia; auto. }
  split; [split; auto; split; auto; intros i Hi; rewrite (E1 i Hi), (E2' i Hi); destruct (f i); auto|]; split.
  - eapply must_mono; [|apply (cx_by_choice c1 c2 f Hpc Hc)]; cbn beta; intros r [Lr Hr]; apply nth_ext_error; [lia|]; intros i Hi.
    rewrite (Hr i) by lia; destruct (f i) eqn:Fi; rewrite ?E1, ?E2', Fi by lia; auto.
  - assert (Hc' : choice c2 c1 f) by (apply (choice_swap c2 c1 f Hpc'); auto).
    eapply must_mono; [|apply (cx_by_choice c2 c1 f Hpc' Hc')]; cbn beta; intros r [Lr Hr]; apply nth_ext_error; [lia|]; intros i Hi.
    rewrite (Hr i) by lia; destruct (f i) eqn:Fi; rewrite ?E1, ?E2', Fi by lia; auto.
Qed.
End Back.

Lemma spx_back {G} (p1 p2 c1 c2 : list G) k : length p1 = length p2 ->
  may (single_point_crossover p1 p2 k) c1 -> may (single_point_crossover p2 p1 k) c2 ->
  complementary p1 p2 c1 c2 /\ must (single_point_crossover c1 c2 k) (fun r => r = p1) /\ must (single_point_crossover c2 c1 k) (fun r => r = p2).
Proof.
  intros Hl H1 H2; pose proof (must_may _ _ c1 (spx_spec p1 p2 k Hl) H1) as E1; pose proof (must_may _ _ c2 (spx_spec p2 p1 k (eq_sym Hl)) H2) as E2; cbn beta in E1, E2.
  assert (K : forall (a b : list G), length a = length b -> length (firstn k a ++ skipn k b) = length a).
  { intros a b H; rewrite app_length, firstn_length, skipn_length; lia. }
  assert (B : forall (a b : list G), length a = length b -> firstn k (firstn k a ++ skipn k b) ++ skipn k (firstn k b ++ skipn k a) = a).
  { intros a b H; rewrite firstn_app, skipn_app, firstn_firstn, Nat.min_id, firstn_length.
    destruct (Nat.le_gt_cases k (length a)).
    - replace (k - Nat.min k (length a)) with 0 by lia; rewrite firstn_O, app_nil_r.
      rewrite (skipn_all2 (firstn k b)) by (rewrite firstn_length; lia).
      rewrite firstn_length; replace (k - Nat.min k (length b)) with 0 by lia; cbn [skipn app]; apply firstn_skipn.
    - rewrite !(skipn_all2 a), !(skipn_all2 b) by lia; rewrite firstn_nil, skipn_nil, !app_nil_r.
      rewrite skipn_all2 by (rewrite firstn_length; lia); rewrite app_nil_r; apply firstn_all2; lia. }
  subst c1 c2; split; [split; [auto|split; [rewrite K; auto|]]|split].
  - intros i Hi; destruct (Nat.lt_ge_cases i k) as [Hk|Hk].
    + left; rewrite !nth_error_app1 by (rewrite firstn_length; lia).
      rewrite <- (firstn_skipn k p1) at 2; rewrite <- (firstn_skipn k p2) at 2; rewrite !nth_error_app1 by (rewrite firstn_length; lia); auto.
    + right; assert (E : forall a b : list G, length a = length b -> i < length a -> nth_error (firstn k a ++ skipn k b) i = nth_error b i).
      { intros a b H Hia; rewrite nth_error_app2 by (rewrite firstn_length; lia).
        rewrite <- (firstn_skipn k b) at 2; rewrite nth_error_app2 by (rewrite firstn_length; lia); rewrite !firstn_length, H; auto. }
      split; apply E; lia.
  - eapply must_mono; [|apply spx_spec; rewrite !K; auto; lia]; cbn beta; intros r ->; apply B; auto.
  - eapply must_mono; [|apply spx_spec; rewrite !K; auto; lia]; cbn beta; intros r ->; apply B; auto.
Qed.

(** ** PMX *)
Lemma maps_back {G} (s1 s2 : list G) g x : pmx_maps s2 s1 g x -> forall y, pmx_maps s1 s2 g y -> pmx_maps s1 s2 x y.
Proof.
  induction 1 as [g H|g i h r H1 H2 _ IH]; auto; intros y Hy; apply IH; eapply pmx_step; eauto.
Qed.
Lemma maps_unique {G} (s1 s2 : list G) g x : NoDup s1 -> pmx_maps s1 s2 g x -> forall y, pmx_maps s1 s2 g y -> y = x.
Proof.
  intros Hn; induction 1 as [g H|g i h r H1 H2 H3 IH]; intros y Hy; inversion Hy as [g' K E1|g' j h' r' K1 K2 K3]; subst; auto.
  - exfalso; apply H; eapply nth_error_In; eauto.
  - exfalso; apply K; eapply nth_error_In; eauto.
  - assert (i = j) by (eapply nth_inj; eauto); subst; apply IH; congruence.
Qed.
Lemma segment_ext {G} (l r : list G) a b : length l = length r -> b <= length l -> (forall i, a <= i < b -> nth_error l i = nth_error r i) -> segment l a b = segment r a b.
Proof.
  intros Hl Hb H; apply nth_ext_error; unfold segment; [rewrite !firstn_length, !skipn_length; lia|].
  intros i Hi; rewrite firstn_length, skipn_length in Hi.
  assert (E : forall x : list G, length x = length l -> nth_error (firstn (b - a) (skipn a x)) i = nth_error x (a + i)).
  { intros x Hx; transitivity (nth_error (skipn a x) i).
    - rewrite <- (firstn_skipn (b - a) (skipn a x)) at 2; rewrite nth_error_app1; auto; rewrite firstn_length, skipn_length; lia.
    - rewrite <- (firstn_skipn a x) at 2; rewrite nth_error_app2 by (rewrite firstn_length; lia); f_equal; rewrite firstn_length; lia. }
  rewrite !E by auto; apply H; lia.
Qed.

Section PmxBack.
Context {G : Type} (eqb : G -> G -> bool) (Heq : eq_ok eqb).
Lemma pmx_back1 (p1 p2 c1 c2 : list G) fuel a b : perm_parents p1 p2 -> a <= b -> b <= length p1 -> b - a < fuel ->
  may (partially_mapped_crossover eqb fuel p1 p2 (a, b)) c1 -> may (partially_mapped_crossover eqb fuel p2 p1 (a, b)) c2 ->
  must (partially_mapped_crossover eqb fuel c1 c2 (a, b)) (fun r => r = p1).
Proof.
  intros Hp Hab Hb Hfu H1 H2; pose proof Hp as [Hn HP]; pose proof (Permutation_length HP) as Hlen.
  assert (Hp' : perm_parents p2 p1) by (split; [eapply Permutation_NoDup; eauto|symmetry; auto]).
  pose proof (must_may _ _ c1 (pmx_offspring eqb p1 p2 fuel a b Heq Hp Hab Hb Hfu) H1) as (P1 & I1 & _).
  pose proof (must_may _ _ c2 (pmx_offspring eqb p2 p1 fuel a b Heq Hp' Hab ltac:(lia) Hfu) H2) as (P2 & I2 & O2 & _).
  pose proof (Permutation_length P1) as L1; pose proof (Permutation_length P2) as L2.
  assert (Hpc : perm_parents c1 c2) by (split; [apply (Permutation_NoDup P1); auto|rewrite <- P1, <- P2; auto]).
  eapply must_mono; [|apply (pmx_offspring eqb c1 c2 fuel a b Heq Hpc Hab ltac:(lia) Hfu)]; cbn beta.
  intros r (Pr & Ir & Or & _); pose proof (Permutation_length Pr) as Lr; apply nth_ext_error; [lia|]; intros i Hi.
  assert (D : a <= i < b \/ ~ (a <= i < b)) by lia; destruct D as [D|D]; [rewrite Ir, I1; auto|].
  destruct (nth_error p1 i) as [g|] eqn:Eg; [|apply nth_error_None in Eg; lia].
  destruct (O2 i g D Eg) as (x & Ex & Mx); destruct (Or i x D Ex) as (z & Ez & Mz); rewrite Ez; f_equal.
  rewrite (segment_ext c1 p1 a b), (segment_ext c2 p2 a b) in Mz by (auto; lia).
  assert (Ns : NoDup (segment p1 a b)).
  { unfold segment; rewrite <- (firstn_skipn a p1) in Hn; apply NoDup_app_r in Hn; rewrite <- (firstn_skipn (b - a) (skipn a p1)) in Hn; apply NoDup_app_l in Hn; auto. }
  apply (maps_unique (segment p1 a b) (segment p2 a b) x g); auto; apply (maps_back _ _ g x); auto; constructor.
  intros Hin; apply segment_in in Hin as (k & Hk & Hkg); [|lia|lia]; assert (i = k) by (eapply nth_inj; [apply Hn| |]; eauto); lia.
Qed.
Lemma pmx_back (p1 p2 c1 c2 : list G) fuel a b : perm_parents p1 p2 -> a <= b -> b <= length p1 -> b - a < fuel ->
  may (partially_mapped_crossover eqb fuel p1 p2 (a, b)) c1 -> may (partially_mapped_crossover eqb fuel p2 p1 (a, b)) c2 ->
  must (partially_mapped_crossover eqb fuel c1 c2 (a, b)) (fun r => r = p1) /\
  must (partially_mapped_crossover eqb fuel c2 c1 (a, b)) (fun r => r = p2).
Proof.
  intros Hp Hab Hb Hfu H1 H2; split; [eapply pmx_back1; eauto|].
  pose proof Hp as [Hn HP]; pose proof (Permutation_length HP); eapply (pmx_back1 p2 p1); eauto; try lia.
  split; [eapply Permutation_NoDup; eauto|symmetry; auto].
Qed.
End PmxBack.

(** ** Examples *)
Lemma back_example :
  perm_parents parent1 parent2 /\
  cycle_crossover Nat.eqb parent1 parent2 = Ret [0; 9; 2; 3; 4; 5; 6; 7; 8; 1] /\
  cycle_crossover Nat.eqb parent2 parent1 = Ret [8; 1; 0; 7; 4; 5; 6; 3; 2; 9] /\
  partially_mapped_crossover Nat.eqb 4 parent1 parent2 (1, 4) = Ret [8; 1; 2; 3; 4; 5; 6; 7; 0; 9] /\
  partially_mapped_crossover Nat.eqb 4 parent2 parent1 (1, 4) = Ret [2; 9; 0; 7; 4; 5; 6; 3; 8; 1] /\
  single_point_crossover parent1 parent2 3 = Ret [0; 1; 2; 7; 4; 5; 6; 3; 2; 1].
Proof. split; [exact (proj1 (proj2 doc_parents_perm))|]; vm_compute; repeat split; reflexivity. Qed.

Lemma ox_no_way_back : exists (p1 p2 c1 c2 : list nat) (a b fuel : nat),
  perm_parents p1 p2 /\ a < b /\ b <= length p1 /\ length p1 < fuel /\
  may (order_crossover Nat.eqb fuel p1 p2 (a, b)) c1 /\ may (order_crossover Nat.eqb fuel p2 p1 (a, b)) c2 /\
  must (order_crossover Nat.eqb fuel c1 c2 (a, b)) (fun r => r <> p1).
Proof.
  exists [1; 2; 3; 4; 5], [2; 4; 1; 5; 3], [1; 2; 3; 5; 4], [3; 4; 1; 5; 2], 1, 3, 6; repeat split; try (cbn; lia); try (vm_compute; reflexivity).
  - repeat constructor; cbn; intuition lia.
  - apply (NoDup_Permutation); [repeat constructor; cbn; intuition lia..|]; intros x; cbn; tauto.
  - vm_compute; discriminate.
Qed.
