(** * PPressure: selection pressure (C106). *)
From Coq Require Import List Bool Arith NArith ZArith Reals Lia Lra.
From Flocq Require Import Core BinarySingleNaN.
From Verif Require Import Rnd Prob LRnd LProb F64 LF64 MStats MPopulation MSelection SpecF SpecQ PStats PPopulation PSelection PSelection2 PLinear PSelection3 PSum PLinear2 PConv ExF.
Import ListNotations.

(** Trees that only draw *)
Fixpoint draws_only {A} (m : M A) : Prop :=
  match m with Ret _ | Fail _ => True | Draw _ k => forall i, draws_only (k i) | Pick _ _ => False end.
Lemma draws_bind {A B} (m : M A) (f : A -> M B) : draws_only m -> (forall a, draws_only (f a)) -> draws_only (bind m f).
Proof. intros Hm Hf; induction m as [a|e|n k IH|n k IH]; cbn in *; auto. Qed.
Lemma draws_repeat {A} n (m : M A) : draws_only m -> draws_only (repeatM n m).
Proof. intros H; induction n; cbn; auto; repeat (apply draws_bind; auto; intros); exact Logic.I. Qed.
Lemma draws_massert b : draws_only (massert b).
Proof. destruct b; exact Logic.I. Qed.
Lemma draws_unwrap {A} (o : option A) : draws_only (unwrap o).
Proof. destruct o; exact Logic.I. Qed.
Lemma draws_idx {A} (l : list A) i : draws_only (idx l i).
Proof. unfold idx; destruct (nth_error l i); exact Logic.I. Qed.
Lemma draws_range lo hi : draws_only (gen_range lo hi).
Proof. unfold gen_range; destruct (lo <? hi); cbn; auto; intros; exact Logic.I. Qed.
Lemma draws_range_incl lo hi : draws_only (gen_range_incl lo hi).
Proof. unfold gen_range_incl; destruct (lo <=? hi); cbn; auto; intros; exact Logic.I. Qed.
Lemma draws_f64 : draws_only gen_f64.
Proof. cbn; auto. Qed.
#[global] Hint Resolve draws_bind draws_repeat draws_massert draws_unwrap draws_idx draws_range draws_range_incl draws_f64 : draws.

Lemma prob_split {A} (m : M A) (P Q : A -> bool) : draws_only m ->
  (prob m P = prob m (fun a => P a && Q a) + prob m (fun a => P a && negb (Q a)))%R.
Proof.
  intros H; induction m as [a|e|n k IH|n k IH]; cbn in *.
  - destruct (P a), (Q a); cbn; lra.
  - lra.
  - rewrite (Rsum_ext _ (fun i => prob (k (N.of_nat i)) P) (fun i => (prob (k (N.of_nat i)) (fun a => P a && Q a) + prob (k (N.of_nat i)) (fun a => P a && negb (Q a)))%R)) by (intros; apply IH; auto).
    rewrite Rsum_plus; unfold Rdiv; ring.
  - contradiction.
Qed.
Lemma prob_supp {A} (m : M A) (P Q : A -> bool) : (forall a, may m a -> P a = Q a) -> prob m P = prob m Q.
Proof.
  induction m as [a|e|n k IH|n k IH]; cbn; intros H.
  - rewrite H; auto.
  - reflexivity.
  - f_equal; apply Rsum_ext; intros i Hi; apply IH; intros a Ha; apply H; exists (N.of_nat i); split; [lia|exact Ha].
  - f_equal; apply map_ext_in; intros i Hi; apply in_seq in Hi; apply IH; intros a Ha; apply H; exists (N.of_nat i); split; [lia|exact Ha].
Qed.

Lemma filter_length_le {A} (f : A -> bool) l : length (filter f l) <= length l.
Proof. induction l as [|a l IH]; cbn; auto; destruct (f a); cbn; lia. Qed.

Section Pressure.
Context {I : Type} (io : individual_ops I) (fexp : f64 -> f64).
Implicit Types p : population I.

Lemma select_draws s p : match s with Custom _ _ _ _ => False | _ => True end -> draws_only (select io fexp s p).
Proof.
  destruct s as [size|total|t c total| |r|b|S0 s0 pr se]; intros H; cbn [select]; try contradiction.
  - unfold tournament_select; auto 10 with draws; repeat (apply draws_bind; auto with draws; intros); exact Logic.I.
  - apply draws_bind; auto with draws; intros u; unfold wheel_select; destruct (wheel _ _ _ _ _); [exact Logic.I|]; repeat (apply draws_bind; auto with draws; intros); exact Logic.I.
  - apply draws_bind; auto with draws; intros u; unfold wheel_select; destruct (wheel _ _ _ _ _); [exact Logic.I|]; repeat (apply draws_bind; auto with draws; intros); exact Logic.I.
  - unfold rank_select; apply draws_bind; auto with draws; intros u; destruct (rank_loop _ _ _ _); [exact Logic.I|]; repeat (apply draws_bind; auto with draws; intros); exact Logic.I.
  - unfold elitist_select; repeat (apply draws_bind; auto with draws; intros); exact Logic.I.
  - unfold linear_select; repeat (apply draws_bind; auto with draws; intros); exact Logic.I.
Qed.

(** ** The individuals that reach a threshold are the last ones. *)
Lemma threshold (t : f64) (l : list I) : sorted_by_fitness io l ->
  forall i x, nth_error l i = Some x ->
  fge (fitness io x) t = (length l - length (filter (fun y => fge (fitness io y) t) l) <=? i).
Proof.
  induction l as [|a l IH]; intros Hs i x Hx; [destruct i; discriminate|].
  assert (Hs' : sorted_by_fitness io l) by (intros i' j' x' y' Hij Hi Hj; apply (Hs (S i') (S j') x' y'); auto; lia).
  pose proof (filter_length_le (fun y => fge (fitness io y) t) l) as Hlen.
  cbn [filter]; destruct (fge (fitness io a) t) eqn:Ea.
  - assert (All : forall y, In y l -> fge (fitness io y) t = true).
    { intros y Hy; apply In_nth_error in Hy as [j Hj]; pose proof (Hs 0 (S j) a y ltac:(lia) eq_refl Hj) as H.
      unfold fge in *; apply fle_spec in H as (_ & ? & ?); apply fle_spec in Ea as (? & _ & ?); apply fle_spec; repeat split; auto; lra. }
    assert (F : filter (fun y => fge (fitness io y) t) l = l).
    { clear -All; induction l as [|b l IH]; cbn; auto; rewrite All by (cbn; auto); f_equal; apply IH; intros; apply All; cbn; auto. }
    rewrite F; cbn [length]; rewrite Nat.sub_diag; cbn [Nat.leb].
    destruct i; cbn in Hx; [injection Hx as <-; exact Ea|apply All; eapply nth_error_In; eauto].
  - cbn [length]; rewrite Nat.sub_succ_l by auto; destruct i; cbn in Hx; [injection Hx as <-; rewrite Ea; reflexivity|].
    rewrite (IH Hs' i x Hx); reflexivity.
Qed.

(** ** Enough: the [k] last individuals get at least k/n. *)
Lemma favours_top (m : M (nat * I)) p slack : sorted_by_fitness io (individuals p) ->
  (forall r, may m r -> nth_error (individuals p) (fst r) = Some (snd r)) ->
  (forall k, (k <= length (individuals p))%nat ->
    INR k / INR (length (individuals p)) - slack <= prob m (fun r => (length (individuals p) - k <=? fst r)%nat))%R ->
  favours_fitter io m p slack.
Proof.
  intros Hs Hm Hk t; rewrite (prob_supp m _ (fun r => length (individuals p) - length (filter (fun x => fge (fitness io x) t) (individuals p)) <=? fst r)).
  - apply Hk, filter_length_le.
  - intros r Hr; apply threshold; auto.
Qed.

Lemma top_sum (m : M (nat * I)) n : draws_only m -> (forall r, may m r -> fst r < n) ->
  forall k, k <= n -> prob m (fun r => n - k <=? fst r) = Rsum k (fun d => prob m (fun r => fst r =? n - 1 - d)).
Proof.
  intros Hd Hm; induction k as [|k IH]; intros Hk.
  - rewrite Rsum_0, (prob_supp m _ (fun _ => false)).
    + clear -Hd; induction m as [a|e|j f IH|j f IH]; cbn in *; auto; [|contradiction].
      rewrite (Rsum_ext _ _ (fun _ => 0%R)) by (intros; apply IH; auto); rewrite Rsum_const; unfold Rdiv; ring.
    + intros r Hr; apply Nat.leb_gt; specialize (Hm r Hr); lia.
  - rewrite Rsum_S, <- IH by lia; rewrite (prob_split m (fun r => n - S k <=? fst r) (fun r => n - k <=? fst r) Hd); f_equal; apply prob_supp; intros r _.
    + destruct (Nat.leb_spec (n - S k) (fst r)), (Nat.leb_spec (n - k) (fst r)); cbn; auto; lia.
    + destruct (Nat.leb_spec (n - S k) (fst r)), (Nat.leb_spec (n - k) (fst r)), (Nat.eqb_spec (fst r) (n - 1 - k)); cbn; auto; lia.
Qed.

Lemma falling_sum (v : nat -> R) n k : (forall d e, (d <= e < n)%nat -> v e <= v d)%R -> k <= n -> (INR k * Rsum n v <= INR n * Rsum k v)%R.
Proof.
  intros Hv Hk; assert (G : forall j, k + j <= n -> (INR k * Rsum (k + j) v <= INR (k + j) * Rsum k v)%R).
  { induction j as [|j IH]; intros Hj; [rewrite Nat.add_0_r; lra|].
    rewrite <- plus_n_Sm, Rsum_S, S_INR; specialize (IH ltac:(lia)).
    assert (INR k * v (k + j)%nat <= Rsum k v)%R.
    { rewrite <- Rsum_const; apply Rsum_le; intros i Hi; apply Hv; lia. }
    lra. }
  replace n with (k + (n - k)) by lia; apply G; lia.
Qed.

(** Shares that are within [e] of rising weights with sum 1 *)
Lemma favours_shares (m : M (nat * I)) p (w : nat -> R) e : sorted_by_fitness io (individuals p) -> individuals p <> [] ->
  draws_only m -> (forall r, may m r -> nth_error (individuals p) (fst r) = Some (snd r)) ->
  let n := length (individuals p) in
  (forall i, (i < n)%nat -> w i - e <= prob m (fun r => fst r =? i))%R ->
  (forall i j, (i <= j < n)%nat -> w i <= w j)%R -> (Rsum n (fun d => w (n - 1 - d)%nat) = 1)%R -> (0 <= e)%R ->
  favours_fitter io m p (INR n * e).
Proof.
  intros Hs Hne Hd Hm n Hw Hmono Hsum He; apply favours_top; auto; fold n; intros k Hk.
  assert (Hn : 0 < n) by (unfold n; destruct (individuals p); [contradiction|cbn; lia]).
  rewrite (top_sum m n) by (auto; intros r Hr; apply nth_error_Some; rewrite (Hm r Hr); discriminate).
  apply Rle_trans with (Rsum k (fun d => (w (n - 1 - d)%nat + - e)%R)); [|apply Rsum_le; intros d Hdk; specialize (Hw (n - 1 - d) ltac:(lia)); lra].
  rewrite Rsum_plus, Rsum_const.
  pose proof (falling_sum (fun d => w (n - 1 - d)) n k ltac:(intros; apply Hmono; lia) Hk) as F; cbv beta in F; rewrite Hsum in F.
  apply INR_pos in Hn; assert (INR k <= INR n)%R by (apply le_INR; auto).
  assert (INR k / INR n <= Rsum k (fun d => w (n - 1 - d)%nat))%R.
  { apply Rmult_le_reg_l with (INR n); auto; replace (INR n * (INR k / INR n))%R with (INR k * 1)%R by (field; lra); exact F. }
  assert (INR k * e <= INR n * e)%R by (apply Rmult_le_compat_r; auto); lra.
Qed.

(** Exact shares *)
Lemma favours_exact (m : M (nat * I)) p : sorted_by_fitness io (individuals p) -> individuals p <> [] -> draws_only m ->
  must m (fun r => nth_error (individuals p) (fst r) = Some (snd r)) ->
  (forall i j, (i <= j < length (individuals p))%nat -> prob m (fun r => fst r =? i) <= prob m (fun r => fst r =? j))%R ->
  favours_fitter io m p 0.
Proof.
  intros Hs Hne Hd Hm Hmono; replace 0%R with (INR (length (individuals p)) * 0)%R by ring.
  assert (He : forall r, may m r -> nth_error (individuals p) (fst r) = Some (snd r)) by (intros r Hr; exact (must_may _ _ _ Hm Hr)).
  apply (favours_shares m p (fun i => prob m (fun r => fst r =? i))); auto; try lra; [intros; lra|].
  rewrite <- (top_sum m (length (individuals p))) by (auto; intros r Hr; apply nth_error_Some; rewrite (He r Hr); discriminate).
  rewrite Nat.sub_diag; apply prob_one; eapply must_mono; [|exact Hm]; intros; reflexivity.
Qed.

Lemma rank_favours p : sorted_by_fitness io (individuals p) -> individuals p <> [] -> favours_fitter io (select io fexp Rank p) p 0.
Proof.
  intros Hs Hne; apply favours_exact; auto; [apply select_draws; exact Logic.I|apply rank_must; auto|].
  intros i j Hij; rewrite !(rank_law p) by lia.
  assert (0 < INR (length (individuals p)))%R by (apply INR_pos; lia).
  apply Rmult_le_compat_r; [apply Rlt_le, Rinv_0_lt_compat; apply Rmult_lt_0_compat; [nra|lra]|apply le_INR; lia].
Qed.

Lemma prob_zero {A} (m : M A) P : draws_only m -> (forall a, may m a -> P a = false) -> prob m P = 0%R.
Proof.
  intros Hd; induction m as [a|e|j f IH|j f IH]; cbn in *; auto; intros H; [rewrite H; auto| |contradiction].
  rewrite (Rsum_ext _ _ (fun _ => 0%R)).
  - rewrite Rsum_const; unfold Rdiv; ring.
  - intros i Hi; apply IH; auto; intros a Ha; apply H; exists (N.of_nat i); split; [lia|exact Ha].
Qed.
Lemma prob_pos {A} (m : M A) P : draws_only m -> (0 <= prob m P)%R.
Proof.
  intros Hd; induction m as [a|e|j f IH|j f IH]; cbn in *; [destruct (P a); lra|lra| |contradiction].
  apply Rmult_le_pos; [|destruct (N.to_nat j) eqn:E; [cbn; rewrite Rinv_0; lra|apply Rlt_le, Rinv_0_lt_compat, INR_pos; lia]].
  rewrite <- (Rmult_0_r (INR (N.to_nat j))), <- Rsum_const; apply Rsum_le; intros; apply IH; auto.
Qed.

Lemma elitist_favours ratio p : is_finite ratio = true -> (0 <= B2R ratio < 1)%R -> fits_usize (length (individuals p)) ->
  sorted_by_fitness io (individuals p) -> individuals p <> [] -> favours_fitter io (select io fexp (Elitist ratio) p) p 0.
Proof.
  intros Fr Hr Hf Hs Hne; set (b := elitist_bound (length (individuals p)) ratio).
  assert (D : draws_only (select io fexp (Elitist ratio) p)) by (apply select_draws; exact Logic.I).
  apply favours_exact; auto; [apply selection_member; auto|].
  intros i j Hij; destruct (Nat.lt_ge_cases i b) as [Hi|Hi].
  - rewrite (prob_zero _ (fun r => fst r =? i)); [apply prob_pos; auto|auto|].
    intros r Hm; pose proof (must_may _ _ _ (elitist_only_top io fexp ratio p Fr Hr Hne Hf) Hm) as H; cbn beta in H; fold b in H; apply Nat.eqb_neq; lia.
  - rewrite !(elitist_uniform io fexp ratio p) by (auto; fold b; lia); lra.
Qed.

Lemma tournament_top size p k : 1 <= size -> individuals p <> [] -> k <= length (individuals p) ->
  prob (select io fexp (Tournament size) p) (fun r => length (individuals p) - k <=? fst r)
  = (1 - ((INR (length (individuals p)) - INR k) / INR (length (individuals p))) ^ size)%R.
Proof.
  intros Hsz Hne Hk; set (n := length (individuals p)) in *; set (m := select io fexp (Tournament size) p).
  assert (Hn : 0 < n) by (unfold n; destruct (individuals p); [contradiction|cbn; lia]).
  assert (D : draws_only m) by (apply select_draws; exact Logic.I).
  assert (Hm : must m (fun r => nth_error (individuals p) (fst r) = Some (snd r))) by (apply tournament_must; auto).
  assert (T : prob m (fun _ => true) = 1%R) by (apply prob_one; eapply must_mono; [|exact Hm]; intros; reflexivity).
  pose proof (prob_split m (fun _ => true) (fun r => n - k <=? fst r) D) as E; cbn [andb] in E; rewrite T in E.
  change (fun a : nat * I => n - k <=? fst a) with (fun r : nat * I => n - k <=? fst r) in E.
  destruct (Nat.eq_dec k n) as [->|Hkn].
  - rewrite (prob_zero m (fun a => negb (n - n <=? fst a))) in E; [|auto|intros a _; rewrite Nat.sub_diag; reflexivity].
    replace ((INR n - INR n) / INR n)%R with 0%R by (unfold Rdiv; ring); rewrite pow_ne_zero by lia; lra.
  - rewrite (prob_supp m (fun a => negb (n - k <=? fst a)) (fun r => fst r <=? n - k - 1)) in E.
    + assert (L : prob m (fun r => fst r <=? n - k - 1) = ((INR (n - k - 1 + 1) / INR n) ^ size)%R) by (apply (tournament_law size p); auto; fold n; lia).
      rewrite L in E; replace (n - k - 1 + 1) with (n - k) in E by lia; rewrite minus_INR in E by auto; lra.
    + intros a _; rewrite <- Nat.ltb_antisym; destruct (Nat.ltb_spec (fst a) (n - k)), (Nat.leb_spec (fst a) (n - k - 1)); auto; lia.
Qed.

Lemma pow_unit_le x a b : (0 <= x <= 1)%R -> a <= b -> (x ^ b <= x ^ a)%R.
Proof.
  intros Hx Hab; replace b with (a + (b - a)) by lia; rewrite pow_add.
  assert (0 <= x ^ a)%R by (apply pow_le; lra).
  assert (x ^ (b - a) <= 1)%R by (rewrite <- (pow1 (b - a)); apply pow_incr; lra); nra.
Qed.
Lemma unit_part n k : 0 < n -> k <= n -> (0 <= (INR n - INR k) / INR n <= 1)%R.
Proof.
  intros Hn Hk; apply INR_pos in Hn; apply le_INR in Hk; pose proof (pos_INR k).
  split; [apply Rmult_le_pos; [lra|apply Rlt_le, Rinv_0_lt_compat; auto]|].
  apply Rmult_le_reg_r with (INR n); auto; unfold Rdiv; rewrite Rmult_assoc, Rinv_l by lra; lra.
Qed.

Lemma tournament_favours size p : 1 <= size -> sorted_by_fitness io (individuals p) -> individuals p <> [] ->
  favours_fitter io (select io fexp (Tournament size) p) p 0.
Proof.
  intros Hsz Hs Hne; apply favours_top; auto.
  - intros r Hr; exact (must_may _ _ _ (tournament_must size p Hsz Hne) Hr).
  - intros k Hk; rewrite tournament_top by auto; set (n := length (individuals p)) in *.
    assert (Hn : 0 < n) by (unfold n; destruct (individuals p); [contradiction|cbn; lia]).
    pose proof (pow_unit_le _ 1 size (unit_part n k Hn Hk) Hsz) as H; rewrite pow_1 in H.
    apply INR_pos in Hn; replace ((INR n - INR k) / INR n)%R with (1 - INR k / INR n)%R in H at 2 by (field; lra); lra.
Qed.

Lemma tournament_larger size1 size2 p t : 1 <= size1 <= size2 -> sorted_by_fitness io (individuals p) -> individuals p <> [] ->
  (prob (select io fexp (Tournament size1) p) (fun r => fge (fitness io (snd r)) t)
   <= prob (select io fexp (Tournament size2) p) (fun r => fge (fitness io (snd r)) t))%R.
Proof.
  intros Hsz Hs Hne; set (k := length (filter (fun x => fge (fitness io x) t) (individuals p))).
  assert (Hk : k <= length (individuals p)) by apply filter_length_le.
  assert (E : forall size, 1 <= size -> prob (select io fexp (Tournament size) p) (fun r => fge (fitness io (snd r)) t)
    = prob (select io fexp (Tournament size) p) (fun r => length (individuals p) - k <=? fst r)).
  { intros size H; apply prob_supp; intros r Hr; apply threshold; auto; exact (must_may _ _ _ (tournament_must size p H Hne) Hr). }
  rewrite !E, !tournament_top by (auto; lia); set (n := length (individuals p)) in *.
  assert (Hn : 0 < n) by (unfold n; destruct (individuals p); [contradiction|cbn; lia]).
  pose proof (pow_unit_le _ size1 size2 (unit_part n k Hn Hk) ltac:(lia)); lra.
Qed.

Lemma linear_favours b p : is_finite b = true -> (1 < B2R b <= 2)%R -> (Z.of_nat (length (individuals p)) <= 2 ^ 53)%Z ->
  sorted_by_fitness io (individuals p) -> individuals p <> [] ->
  favours_fitter io (select io fexp (Linear b) p) p (bpow radix2 (-48) / (B2R b - 1)).
Proof.
  intros Fb Hb Hn53 Hs Hne; apply favours_top; auto.
  - intros r Hr; apply (safe_entry io fexp (Linear b) p r); auto; [right; eauto|unfold fits_usize, usize_max; lia].
  - intros k Hk; set (n := length (individuals p)) in *.
    assert (Hn : 0 < n) by (unfold n; destruct (individuals p); [contradiction|cbn; lia]).
    pose proof (linear_cumulative io fexp b p k Fb Hb Hn Hn53 Hk) as H; cbv zeta in H; fold n in H; apply Rabs_le_inv in H.
    pose proof (unit_part n k Hn Hk) as U; apply INR_pos in Hn.
    replace ((INR n - INR k) / INR n)%R with (1 - INR k / INR n)%R in U by (field; lra).
    set (t := (INR k / INR n)%R) in *.
    assert (0 <= (B2R b - 1) * (t * (1 - t)))%R by (apply Rmult_le_pos; [lra|apply Rmult_le_pos; lra]); lra.
Qed.

(** ** Wheels *)
Lemma sum_nth (f : I -> R) (l : list I) (d0 : R) :
  Rsum (length l) (fun d => nth (length l - 1 - d) (map f l) d0) = sumR (map f l).
Proof.
  induction l as [|a l IH]; [reflexivity|].
  cbn [length map sumR]; rewrite Rsum_S; replace (S (length l) - 1 - length l) with 0 by lia; cbn [nth]; rewrite <- IH, Rplus_comm; f_equal.
  apply Rsum_ext; intros d Hd; replace (S (length l) - 1 - d) with (S (length l - 1 - d)) by lia; reflexivity.
Qed.

Lemma wheel_favours (weight : I -> f64) m p :
  let n := length (individuals p) in let total := sumR (map (fun y => B2R (weight y)) (individuals p)) in
  sorted_by_fitness io (individuals p) -> individuals p <> [] -> draws_only m ->
  (forall r, may m r -> nth_error (individuals p) (fst r) = Some (snd r)) ->
  (forall i j x y, (i < j)%nat -> nth_error (individuals p) i = Some x -> nth_error (individuals p) j = Some y -> B2R (weight x) <= B2R (weight y))%R ->
  (0 < total)%R ->
  (forall i x, nth_error (individuals p) i = Some x ->
     Rabs (prob m (fun r => fst r =? i) - B2R (weight x) / total) <= INR n * bpow radix2 (-49))%R ->
  favours_fitter io m p (INR n * INR n * bpow radix2 (-49)).
Proof.
  intros n total Hs Hne Hd Hm Hw Ht Hp; rewrite Rmult_assoc.
  apply (favours_shares m p (fun i => nth i (map (fun y => B2R (weight y)) (individuals p)) 0 / total)%R); auto; fold n.
  - intros i Hi; destruct (nth_error (individuals p) i) as [x|] eqn:Ex; [|apply nth_error_None in Ex; fold n in Ex; lia].
    specialize (Hp i x Ex); apply Rabs_le_inv in Hp.
    rewrite (nth_error_nth (map (fun y => B2R (weight y)) (individuals p)) i 0%R (map_nth_error (fun y => B2R (weight y)) i (individuals p) Ex)); lra.
  - intros i j Hij; apply Rmult_le_compat_r; [apply Rlt_le, Rinv_0_lt_compat; auto|].
    destruct (Nat.eq_dec i j) as [->|Hne']; [lra|].
    destruct (nth_error (individuals p) i) as [x|] eqn:Ex; [|apply nth_error_None in Ex; fold n in Ex; lia].
    destruct (nth_error (individuals p) j) as [y|] eqn:Ey; [|apply nth_error_None in Ey; fold n in Ey; lia].
    rewrite (nth_error_nth _ i 0%R (map_nth_error (fun y => B2R (weight y)) i (individuals p) Ex)).
    rewrite (nth_error_nth _ j 0%R (map_nth_error (fun y => B2R (weight y)) j (individuals p) Ey)).
    apply (Hw i j); auto; lia.
  - unfold Rdiv; rewrite Rsum_mult_r; unfold n; rewrite sum_nth; fold total; apply Rinv_r; lra.
  - apply Rmult_le_pos; [apply pos_INR|apply bpow_ge_0].
Qed.

Lemma roulette_favours t0 p : sorted_by_fitness io (individuals p) -> individuals p <> [] ->
  (forall y, In y (individuals p) -> is_finite (fitness io y) = true /\ 0 <= B2R (fitness io y))%R ->
  (Z.of_nat (length (individuals p)) <= 2 ^ 49)%Z ->
  (bpow radix2 (-899) <= sumR (map (fun y => B2R (fitness io y)) (individuals p)) <= bpow radix2 1022)%R ->
  must (prepare io fexp (RouletteWheel t0) p) (fun s =>
    favours_fitter io (select io fexp s p) p (INR (length (individuals p)) * INR (length (individuals p)) * bpow radix2 (-49))).
Proof.
  intros Hs Hne Hw Hn HS; pose proof (bpow_gt_0 radix2 (-899)); eapply must_mono; [|exact (prepare_roulette io fexp t0 p)].
  cbn beta; intros s (v & -> & Hv); apply (wheel_favours (fitness io)); auto; try lra.
  - apply select_draws; exact Logic.I.
  - intros r Hr; exact (must_may _ _ _ (selection_member io fexp (RouletteWheel v) p Logic.I Hne ltac:(unfold fits_usize, usize_max; lia)) Hr).
  - intros i j x y Hij Hx Hy; pose proof (Hs i j x y Hij Hx Hy) as H0; apply fle_spec in H0 as (_ & _ & H0).
    rewrite !key_finite in H0 by (apply Hw; eapply nth_error_In; eauto); auto.
  - intros i x Hx; apply wheel_share; auto; apply few16; auto.
Qed.

Lemma boltzmann_favours t c t0 p : let scaled := fun y => fexp (fdiv (fitness io y) (fmul t c)) in
  sorted_by_fitness io (individuals p) -> individuals p <> [] ->
  (forall y, In y (individuals p) -> is_finite (scaled y) = true /\ 0 <= B2R (scaled y))%R ->
  (forall x y, In x (individuals p) -> In y (individuals p) -> fle (fitness io x) (fitness io y) = true -> fle (scaled x) (scaled y) = true) ->
  (Z.of_nat (length (individuals p)) <= 2 ^ 49)%Z ->
  (bpow radix2 (-899) <= sumR (map (fun y => B2R (scaled y)) (individuals p)) <= bpow radix2 1022)%R ->
  must (prepare io fexp (Boltzmann t c t0) p) (fun s =>
    favours_fitter io (select io fexp s p) p (INR (length (individuals p)) * INR (length (individuals p)) * bpow radix2 (-49))).
Proof.
  intros scaled Hs Hne Hw Hmono Hn HS; pose proof (bpow_gt_0 radix2 (-899)); eapply must_mono; [|exact (prepare_boltzmann io fexp t c t0 p)].
  cbn beta; intros s (v & -> & Hv); apply (wheel_favours scaled); auto; try lra.
  - apply select_draws; exact Logic.I.
  - intros r Hr; exact (must_may _ _ _ (selection_member io fexp (Boltzmann (fmul t c) c v) p Logic.I Hne ltac:(unfold fits_usize, usize_max; lia)) Hr).
  - intros i j x y Hij Hx Hy; pose proof (Hs i j x y Hij Hx Hy) as H0; apply Hmono in H0; [|eapply nth_error_In; eauto|eapply nth_error_In; eauto].
    apply fle_spec in H0 as (_ & _ & H0); rewrite !key_finite in H0 by (apply Hw; eapply nth_error_In; eauto); auto.
  - intros i x Hx; apply (wheel_share scaled); auto; apply few16; auto.
Qed.
End Pressure.

(** ** A cold Boltzmann selection does the opposite. *)
Lemma first_only {A} (n : N) (k : N -> M A) (P : A -> bool) x : (8 <= n)%N ->
  (forall u, (0 < u < n)%N -> k u = Ret x) -> P x = false -> (prob (Draw n k) P <= 1 / 8)%R.
Proof.
  intros Hn Hk Hx; cbn [prob]; rewrite (Rsum_single _ 0); [|lia|intros i Hi Hne; rewrite Hk by lia; cbn; rewrite Hx; reflexivity].
  pose proof (prob_le_one (k (N.of_nat 0)) P) as H1.
  assert (H8 : (8 <= INR (N.to_nat n))%R) by (replace 8%R with (INR 8) by (cbn; lra); apply le_INR; lia).
  apply Rmult_le_reg_r with (INR (N.to_nat n)); [lra|]; unfold Rdiv at 1; rewrite Rmult_assoc, Rinv_l by lra; lra.
Qed.

Lemma cold_refuted : exists (t c : f64) (p : population nat) (s : selector nat),
  sorted_by_fitness ex_io (individuals p) /\ individuals p <> [] /\ may (prepare ex_io ex_exp (Boltzmann t c f0) p) s /\
  ~ favours_fitter ex_io (select ex_io ex_exp s p) p (1 / 4).
Proof.
  set (p := ex_popn ex_io [900; 1000]); exists f1, f1, p.
  assert (Hs : sorted_by_fitness ex_io (individuals p)).
  { intros i j x y Hij Hx Hy; destruct i as [|[|i]]; destruct j as [|[|j]]; try lia; cbn in Hx, Hy; try (destruct j; discriminate); try (destruct i; discriminate).
    injection Hx as <-; injection Hy as <-; vm_compute; reflexivity. }
  pose proof (boltzmann_cold ex_io ex_exp f1 f1 f0 p 900 [1000] eq_refl ltac:(cbn [individuals ex_popn p In]; intros x [<-|[<-|[]]]; vm_compute; reflexivity)) as M.
  destruct (must_exists _ _ M) as (s & Hm); destruct (must_may _ _ _ M Hm) as (k & Es & Hk); exists s; split; [exact Hs|]; split; [discriminate|]; split; [exact Hm|].
  intros F; specialize (F (f_of_nat 1000)); rewrite Es in F.
  pose proof (first_only (2 ^ 53) k (fun r => fge (fitness ex_io (snd r)) (f_of_nat 1000)) (0, 900) ltac:(vm_compute; discriminate) Hk ltac:(vm_compute; reflexivity)) as U.
  assert (C : length (filter (fun x => fge (fitness ex_io x) (f_of_nat 1000)) (individuals p)) = 1) by (vm_compute; reflexivity).
  rewrite C in F; change (length (individuals p)) with 2 in F; cbn [INR] in F; lra.
Qed.

Lemma c106_example :
  let p := ex_popn ex_io [1; 2; 5] in
  sorted_by_fitness ex_io (individuals p) /\
  (forall y, In y (individuals p) -> is_finite (fitness ex_io y) = true /\ (0 <= B2R (fitness ex_io y))%R) /\
  prob (select ex_io ex_exp (Tournament 2) p) (fun r => fge (fitness ex_io (snd r)) (f_of_nat 2)) = (8 / 9)%R /\
  length (filter (fun x => fge (fitness ex_io x) (f_of_nat 2)) (individuals p)) = 2.
Proof.
  intros p; assert (Hs : sorted_by_fitness ex_io (individuals p)).
  { intros i j x y Hij Hx Hy; destruct i as [|[|[|i]]]; destruct j as [|[|[|j]]]; try lia; cbn in Hx, Hy; try (destruct j; discriminate); try (destruct i; discriminate);
    injection Hx as <-; injection Hy as <-; vm_compute; reflexivity. }
  split; [exact Hs|]; split; [apply shares_example|]; split; [|vm_compute; reflexivity].
  rewrite (prob_supp _ _ (fun r => length (individuals p) - length (filter (fun x => fge (fitness ex_io x) (f_of_nat 2)) (individuals p)) <=? fst r)).
  - rewrite tournament_top; [|lia|discriminate|apply filter_length_le].
    replace (length (filter (fun x => fge (fitness ex_io x) (f_of_nat 2)) (individuals p))) with 2 by (vm_compute; reflexivity).
    change (length (individuals p)) with 3; cbn [INR pow]; lra.
  - intros r Hr; apply threshold; [exact Hs|]; refine (must_may _ _ _ (tournament_must 2 p _ _) Hr); [lia|discriminate].
Qed.
