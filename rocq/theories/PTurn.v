(** * PTurn: proofs for C127. *)
From Coq Require Import List Bool Arith Lia Permutation.
From Verif Require Import Rnd LRnd MOperators MCrossover Spec SpecBack PCrossoverCx PCrossoverPmx PCrossoverAll DocExamples SpecC PCrossoverOx PCrossoverPmx PCommon PBack.
Import ListNotations.

(** ** OX: turning both parents *)
Lemma skip_twice {G} (l : list G) i j : skipn i (skipn j l) = skipn (j + i) l.
Proof. revert l; induction j as [|j IH]; intros l; auto; destruct l; [now rewrite !skipn_nil|apply IH]. Qed.
Lemma rotated_twice {G} (l : list G) k b : k <= b -> b <= length l -> rotated (rotated l k) (b - k) = rotated l b.
Proof.
  intros Hk Hb; apply nth_ext_error; [now rewrite !rotated_length|]; intros i Hi; rewrite !rotated_length in Hi.
  unfold rotated.
  assert (E : l = firstn k l ++ firstn (b - k) (skipn k l) ++ skipn b l).
  { rewrite <- (firstn_skipn k l) at 1; f_equal; rewrite <- (firstn_skipn (b - k) (skipn k l)) at 1; f_equal.
    rewrite skip_twice; f_equal; lia. }
  set (x := firstn k l) in *; set (y := firstn (b - k) (skipn k l)) in *; set (z := skipn b l) in *.
  assert (Lx : length x = k) by (unfold x; rewrite firstn_length; lia).
  assert (Ly : length y = b - k) by (unfold y; rewrite firstn_length, skipn_length; lia).
  assert (S1 : skipn k l = y ++ z) by (rewrite E, skipn_app, Lx, Nat.sub_diag, (skipn_all2 x) by lia; reflexivity).
  assert (F2 : firstn b l = x ++ y).
  { rewrite E, app_assoc, firstn_app, app_length, Lx, Ly; replace (b - (k + (b - k))) with 0 by lia.
    cbn; rewrite app_nil_r; apply firstn_all2; rewrite app_length; lia. }
  rewrite S1, F2; f_equal.
  rewrite <- app_assoc, skipn_app, firstn_app, Ly, Nat.sub_diag, (skipn_all2 y), (firstn_all2 y) by lia; cbn.
  now rewrite app_nil_r, <- app_assoc.
Qed.
Lemma segment_rotated {G} (l : list G) k a b : k <= a -> a <= b -> b <= length l -> segment (rotated l k) (a - k) (b - k) = segment l a b.
Proof.
  intros Hk Hab Hb; unfold segment, rotated; replace (b - k - (a - k)) with (b - a) by lia.
  rewrite skipn_app, firstn_app, !skipn_length, skip_twice.
  replace (b - a - (length l - k - (a - k))) with 0 by lia; cbn; rewrite app_nil_r; do 2 f_equal; lia.
Qed.
Lemma rotated_inj {G} (l r : list G) b : length l = length r -> b <= length l -> rotated l b = rotated r b -> l = r.
Proof.
  intros Hl Hb H; rewrite <- (rotated_back l b Hb), <- (rotated_back r b) by lia; now rewrite H, Hl.
Qed.
Lemma rotated_parents {G} (p1 p2 : list G) k : perm_parents p1 p2 -> perm_parents (rotated p1 k) (rotated p2 k).
Proof.
  intros [Hn Hp]; split; [apply (Permutation_NoDup (rotated_perm p1 k)); auto|].
  rewrite <- (rotated_perm p1 k), <- (rotated_perm p2 k); auto.
Qed.
Lemma keep_exists {G} (eqb : G -> G -> bool) (s : list G) : eq_ok eqb -> forall g, negb (mem eqb g s) = true <-> ~ In g s.
Proof.
  intros He g; rewrite negb_true_iff; unfold mem; split.
  - intros H Hi; assert (existsb (fun y => eqb y g) s = true) by (apply existsb_exists; exists g; split; auto; apply He; auto); congruence.
  - intros H; destruct (existsb (fun y => eqb y g) s) eqn:E; auto; exfalso; apply existsb_exists in E as (y & Hy & Ey); apply He in Ey; subst; auto.
Qed.
Lemma ox_turned {G} (eqb : G -> G -> bool) : eq_ok eqb ->
  forall (p1 p2 r : list G) fuel a b k, perm_parents p1 p2 -> k <= a -> a < b -> b <= length p1 -> length p1 < fuel ->
  may (order_crossover eqb fuel p1 p2 (a, b)) r ->
  must (order_crossover eqb fuel (rotated p1 k) (rotated p2 k) (a - k, b - k)) (fun r' => r' = rotated r k).
Proof.
  intros He p1 p2 r fuel a b k Hp Hk Hab Hb Hf Hr.
  pose proof (must_may _ _ r (ox_offspring eqb p1 p2 fuel a b He Hp Hab Hb Hf) Hr) as (P & _ & K).
  pose proof (Permutation_length P) as L; pose proof (Permutation_length (proj2 Hp)) as L2.
  eapply must_mono; [|apply (ox_offspring eqb (rotated p1 k) (rotated p2 k) fuel (a - k) (b - k) He (rotated_parents _ _ k Hp)); rewrite ?rotated_length; lia].
  cbn beta; intros r' (P' & _ & K').
  specialize (K _ (keep_exists eqb (segment p1 a b) He)).
  rewrite segment_rotated, rotated_twice in K' by lia; specialize (K' _ (keep_exists eqb (segment p1 a b) He)).
  pose proof (Permutation_length P') as L'; rewrite rotated_length in L'.
  apply (rotated_inj _ _ (b - k)); [rewrite rotated_length; lia|lia|].
  rewrite (rotated_twice r) by lia; congruence.
Qed.

(** ** PMX: rearranging the positions *)
Section Pmx.
Context {G : Type} (eqb : G -> G -> bool) (Heq : eq_ok eqb).
Context (p1 p2 q1 q2 : list G) (s : nat -> nat) (a b a' b' : nat).
Hypothesis Hp : perm_parents p1 p2.
Hypothesis L1 : length q1 = length p1.
Hypothesis L2 : length q2 = length p1.
Hypothesis Hb : b <= length p1.
Hypothesis Hb' : b' <= length p1.
Hypothesis Hs : forall i, i < length p1 -> s i < length p1.
Hypothesis Hi : forall i j, i < length p1 -> j < length p1 -> s i = s j -> i = j.
Hypothesis H1 : forall i, i < length p1 -> nth_error q1 i = nth_error p1 (s i).
Hypothesis H2 : forall i, i < length p1 -> nth_error q2 i = nth_error p2 (s i).
Hypothesis Hr : forall i, i < length p1 -> (a' <= i < b' <-> a <= s i < b).

Lemma lens : length p2 = length p1.
Proof. symmetry; apply Permutation_length, Hp. Qed.
Lemma nth_lt (l : list G) i g : nth_error l i = Some g -> i < length l.
Proof. intros H; apply nth_error_Some; congruence. Qed.
Lemma moved_perm (p q : list G) : NoDup p -> length p = length p1 -> length q = length p1 ->
  (forall i, i < length p1 -> nth_error q i = nth_error p (s i)) -> Permutation q p.
Proof.
  intros Hn Lp Lq H; apply NoDup_Permutation_bis; [|lia|].
  - apply NoDup_nth_error; intros i j Li E; rewrite Lq in Li; rewrite H in E by auto.
    assert (Lj : j < length p1).
    { rewrite <- Lq; apply nth_error_Some; rewrite <- E; apply nth_error_Some; rewrite Lp; auto. }
    rewrite H in E by auto; apply Hi; auto; apply (proj1 (NoDup_nth_error p) Hn); auto; rewrite Lp; auto.
  - intros g Hg; apply In_nth_error in Hg as (i & Ei); pose proof (nth_lt _ _ _ Ei); rewrite H in Ei by lia; eapply nth_error_In; eauto.
Qed.
Lemma moved_parents : perm_parents q1 q2 /\ Permutation q1 p1.
Proof.
  destruct Hp as [Hn HP].
  assert (P1 : Permutation q1 p1) by (apply moved_perm; auto).
  assert (P2 : Permutation q2 p2) by (apply moved_perm; auto using lens; apply (Permutation_NoDup HP); auto).
  split; auto; split; [apply (Permutation_NoDup (Permutation_sym P1)); auto|rewrite P1, P2; auto].
Qed.
Lemma seg_nth (l : list G) c d j : nth_error (segment l c d) j = if j <? d - c then nth_error l (c + j) else None.
Proof.
  unfold segment; destruct (j <? d - c) eqn:E; [apply Nat.ltb_lt in E|apply Nat.ltb_ge in E].
  - transitivity (nth_error (skipn c l) j).
    + clear -E; revert E; generalize (d - c) as m, (skipn c l) as x; intros m x; revert j m; induction x as [|y x IH]; intros [|j] [|m] H; cbn; auto; try lia.
      apply IH; lia.
    + clear; revert c j; induction l as [|y l IH]; intros [|c] j; cbn; auto; now destruct j.
  - apply nth_error_None; rewrite firstn_length; lia.
Qed.
Lemma moved_maps g x : pmx_maps (segment q1 a' b') (segment q2 a' b') g x -> pmx_maps (segment p1 a b) (segment p2 a b) g x.
Proof.
  induction 1 as [g Hg|g i h r E1 E2 _ IH].
  - constructor; intros Hin; apply In_nth_error in Hin as (j & Ej); rewrite seg_nth in Ej.
    destruct (j <? b - a) eqn:Hj; [apply Nat.ltb_lt in Hj|discriminate].
    assert (Hq : In g q1) by (apply (Permutation_in g (Permutation_sym (proj2 moved_parents))); eapply nth_error_In; eauto).
    apply In_nth_error in Hq as (i & Ei); pose proof (nth_lt _ _ _ Ei) as Li; rewrite L1 in Li.
    pose proof Ei as Ei'; rewrite H1 in Ei' by auto.
    assert (E : s i = a + j) by (eapply nth_inj; [apply Hp| |]; eauto).
    assert (R : a' <= i < b') by (apply Hr; auto; lia).
    apply Hg; apply (nth_error_In _ (i - a')); rewrite seg_nth.
    replace (i - a' <? b' - a') with true by (symmetry; apply Nat.ltb_lt; lia); replace (a' + (i - a')) with i by lia; auto.
  - rewrite seg_nth in E1, E2; destruct (i <? b' - a') eqn:Li; [apply Nat.ltb_lt in Li|discriminate].
    pose proof (nth_lt _ _ _ E1) as Lt; rewrite L1 in Lt; rewrite H1 in E1 by auto; rewrite H2 in E2 by auto.
    assert (R : a <= s (a' + i) < b) by (apply Hr; auto; lia).
    apply (pmx_step _ _ g (s (a' + i) - a) h); auto; rewrite seg_nth;
    replace (s (a' + i) - a <? b - a) with true by (symmetry; apply Nat.ltb_lt; lia); replace (a + (s (a' + i) - a)) with (s (a' + i)) by lia; auto.
Qed.
Lemma pmx_moved fuel r : a <= b -> a' <= b' -> b - a < fuel -> b' - a' < fuel ->
  may (partially_mapped_crossover eqb fuel p1 p2 (a, b)) r ->
  must (partially_mapped_crossover eqb fuel q1 q2 (a', b')) (fun r' =>
    length r' = length r /\ forall i, i < length p1 -> nth_error r' i = nth_error r (s i)).
Proof.
  intros Hab Hab' Hf Hf' Hm; destruct moved_parents as [Hq HP].
  pose proof (must_may _ _ r (pmx_offspring eqb p1 p2 fuel a b Heq Hp Hab Hb Hf) Hm) as (P & I & O & _).
  eapply must_mono; [|apply (pmx_offspring eqb q1 q2 fuel a' b' Heq Hq Hab'); [lia|auto]]; cbn beta.
  intros r' (P' & I' & O' & _); pose proof (Permutation_length P); pose proof (Permutation_length P'); split; [lia|]; intros i Li.
  assert (D : a' <= i < b' \/ ~ (a' <= i < b')) by lia; destruct D as [D|D].
  - rewrite I', H1, I; auto; apply Hr; auto.
  - assert (D' : ~ (a <= s i < b)) by (intros K; apply D, Hr; auto).
    destruct (nth_error q2 i) as [g|] eqn:Eg; [|apply nth_error_None in Eg; lia].
    destruct (O' i g D Eg) as (x & Ex & Mx); pose proof Eg as Eg'; rewrite H2 in Eg' by auto.
    destruct (O (s i) g D' Eg') as (y & Ey & My); rewrite Ex, Ey; f_equal.
    apply moved_maps in Mx; apply (maps_unique (segment p1 a b) (segment p2 a b) g y); auto.
    destruct Hp as [Hn _]; unfold segment; rewrite <- (firstn_skipn a p1) in Hn; apply NoDup_app_r in Hn; rewrite <- (firstn_skipn (b - a) (skipn a p1)) in Hn; apply NoDup_app_l in Hn; auto.
Qed.
End Pmx.

(** ** What does not hold *)
Lemma perm_small (p q : list nat) : NoDup p -> NoDup q -> length p = length q -> incl q p -> perm_parents p q.
Proof. intros Hp Hq Hl Hi; split; auto; symmetry; apply NoDup_Permutation_bis; auto; lia. Qed.
Ltac parents := apply perm_small; [repeat constructor; cbn; intuition lia|repeat constructor; cbn; intuition lia|reflexivity|intros x; cbn; intuition].
Lemma pmx_turn {G} (eqb : G -> G -> bool) : eq_ok eqb ->
  forall (p1 p2 r : list G) fuel a b k, perm_parents p1 p2 -> k <= a -> a <= b -> b <= length p1 -> b - a < fuel ->
  may (partially_mapped_crossover eqb fuel p1 p2 (a, b)) r ->
  must (partially_mapped_crossover eqb fuel (rotated p1 k) (rotated p2 k) (a - k, b - k)) (fun r' => r' = rotated r k).
Proof.
  intros He p1 p2 r fuel a b k Hp Hk Hab Hb Hf Hr.
  pose proof (must_may _ _ r (pmx_offspring eqb p1 p2 fuel a b He Hp Hab Hb Hf) Hr) as (P & _).
  pose proof (Permutation_length P) as L; pose proof (Permutation_length (proj2 Hp)) as L2.
  destruct (Nat.eq_dec (length p1) 0) as [E0|E0].
  { assert (a = 0 /\ b = 0 /\ k = 0) as (-> & -> & ->) by lia; unfold rotated; cbn [skipn firstn Nat.sub]; rewrite !app_nil_r.
    destruct p1; [|discriminate]; destruct p2; [|discriminate]; destruct r; [|discriminate].
    eapply must_mono; [|apply (pmx_offspring eqb [] [] fuel 0 0 He Hp); auto]; cbn beta; intros x (Px & _); now apply Permutation_nil. }
  assert (Hm : forall i, i < length p1 -> (k + i) mod length p1 = if k + i <? length p1 then k + i else k + i - length p1).
  { intros i Li; destruct (k + i <? length p1) eqn:E; [apply Nat.ltb_lt in E; now apply Nat.mod_small|apply Nat.ltb_ge in E].
    symmetry; apply (Nat.mod_unique _ _ 1); lia. }
  eapply must_mono; [|apply (pmx_moved eqb He p1 p2 (rotated p1 k) (rotated p2 k) (fun i => (k + i) mod length p1) a b (a - k) (b - k) Hp) with (r := r); rewrite ?rotated_length; auto; try lia].
  - cbn beta; intros r' (Lr & H); apply nth_ext_error; [rewrite rotated_length; lia|]; intros i Li.
    rewrite H, nth_error_rotated by lia; now rewrite L.
  - intros i Li; apply Nat.mod_upper_bound; lia.
  - intros i j Li Lj; rewrite !Hm by auto; destruct (k + i <? length p1) eqn:Ei, (k + j <? length p1) eqn:Ej;
    rewrite ?Nat.ltb_lt, ?Nat.ltb_ge in *; lia.
  - intros i Li; apply nth_error_rotated; lia.
  - intros i Li; rewrite nth_error_rotated by lia; now rewrite L2.
  - intros i Li; rewrite Hm by auto; destruct (k + i <? length p1) eqn:Ei; rewrite ?Nat.ltb_lt, ?Nat.ltb_ge in *; lia.
Qed.
Lemma ox_reversed_refuted : exists (p1 p2 r : list nat) (a b fuel : nat),
  perm_parents p1 p2 /\ a < b /\ b <= length p1 /\ length p1 < fuel /\
  may (order_crossover Nat.eqb fuel p1 p2 (a, b)) r /\
  must (order_crossover Nat.eqb fuel (rev p1) (rev p2) (length p1 - b, length p1 - a)) (fun r' => r' <> rev r).
Proof.
  exists [0; 1; 2], [0; 2; 1], [2; 1; 0], 1, 2, 4; split; [parents|]; repeat split; cbn; try lia; vm_compute; try reflexivity; discriminate.
Qed.
Lemma cx_turned_refuted : exists (p1 p2 r : list nat) (k : nat),
  perm_parents p1 p2 /\ k <= length p1 /\ may (cycle_crossover Nat.eqb p1 p2) r /\
  must (cycle_crossover Nat.eqb (rotated p1 k) (rotated p2 k)) (fun r' => r' <> rotated r k).
Proof.
  exists [0; 1; 2], [0; 2; 1], [0; 2; 1], 1; split; [parents|]; repeat split; cbn; try lia; vm_compute; try reflexivity; discriminate.
Qed.
Lemma turn_example :
  perm_parents [0; 1; 2; 3; 4] [3; 1; 4; 0; 2] /\
  order_crossover Nat.eqb 6 [0; 1; 2; 3; 4] [3; 1; 4; 0; 2] (2, 4) = Ret [4; 0; 2; 3; 1] /\
  order_crossover Nat.eqb 6 [2; 3; 4; 0; 1] [4; 0; 2; 3; 1] (0, 2) = Ret [2; 3; 1; 4; 0] /\
  partially_mapped_crossover Nat.eqb 6 [0; 1; 2; 3; 4] [1; 2; 3; 4; 0] (1, 3) = Ret [3; 1; 2; 4; 0] /\
  partially_mapped_crossover Nat.eqb 6 [4; 3; 2; 1; 0] [0; 4; 3; 2; 1] (2, 4) = Ret [0; 4; 2; 1; 3].
Proof. split; [parents|]; vm_compute; auto. Qed.
