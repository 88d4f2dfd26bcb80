(** * PSelection: proofs about src/operators/selection.rs (C30-C36, C38-C40). *)
From Coq Require Import List Bool Arith NArith ZArith Reals Lia Lra Permutation.
From Flocq Require Import Core BinarySingleNaN.
From Verif Require Import Rnd Prob LRnd LProb F64 LF64 MStats MPopulation MSelection SpecF.
Import ListNotations.

Lemma must_gen_f64 (P : f64 -> Prop) :
  must gen_f64 P <-> forall i, (i < 2 ^ 53)%N -> P (f_unit i).
Proof. unfold gen_f64; cbn -[N.pow]; split; [tauto|]; intros H; split; auto; reflexivity. Qed.

Lemma may_gen_f64 v : may gen_f64 v <-> exists i, (i < 2 ^ 53)%N /\ f_unit i = v.
Proof. reflexivity. Qed.

Section Sel.
Context {I : Type} (io : individual_ops I) (fexp : f64 -> f64).
Implicit Types (p : population I) (l : list I).

Definition entry p (r : nat * I) : Prop := nth_error (individuals p) (fst r) = Some (snd r).

(** ** Tournament *)
Lemma fold_max_le ds d n : d < n -> Forall (fun x => x < n) ds -> fold_left Nat.max ds d < n.
Proof.
  revert d; induction ds as [|x ds IH]; intros d Hd HF; cbn; auto.
  inversion HF; subst; apply IH; auto; lia.
Qed.

Lemma tournament_must size p : 1 <= size -> individuals p <> [] -> must (tournament_select size p) (entry p).
Proof.
  intros Hs Hp; unfold tournament_select.
  assert (Hn : 0 < length (individuals p)) by (destruct (individuals p); cbn; [congruence|lia]).
  apply must_bind, must_massert; split; [apply negb_true_iff, Nat.eqb_neq; lia|].
  eapply must_bind_intro.
  { apply must_repeatM; apply must_gen_range; split; [exact Hn|].
    intros i Hi; exact (proj2 Hi). }
  intros ds [Hl HF]; destruct ds as [|d ds]; [cbn in Hl; lia|].
  inversion HF; subst; apply must_bind; cbn [unwrap must].
  destruct (nth_error_lt (individuals p) (fold_left Nat.max ds d)) as [x Hx]; [apply fold_max_le; auto|].
  rewrite (idx_some _ _ _ Hx); cbn; exact Hx.
Qed.

(** ** Wheels *)
Lemma running_sum_S w l k h : nth_error l k = Some h ->
  running_sum w l (S k) = fadd (running_sum w l k) (w h).
Proof.
  intros H; unfold running_sum.
  assert (E : firstn (S k) l = firstn k l ++ [h]).
  { revert k H; induction l as [|a t IH]; intros [|k]; cbn; try discriminate.
    - intros [= ->]; auto.
    - intros H; f_equal; apply IH; auto. }
  rewrite E, map_app, fold_left_app; reflexivity.
Qed.

Lemma wheel_spec w target l rest k :
  (exists pre, l = pre ++ rest /\ length pre = k) ->
  (forall j, j < k -> fge (running_sum w l (S j)) target = false) ->
  match wheel w target (running_sum w l k) k rest with
  | Some (i, x) => nth_error l i = Some x /\ fge (running_sum w l (S i)) target = true /\
      forall j, j < i -> fge (running_sum w l (S j)) target = false
  | None => forall j, j < length l -> fge (running_sum w l (S j)) target = false
  end.
Proof.
  revert k; induction rest as [|h t IH]; intros k (pre & Hl & Hk) Hj; cbn [wheel].
  - intros j Hlt; apply Hj; subst l; rewrite app_nil_r in Hlt; lia.
  - assert (Hh : nth_error l k = Some h).
    { subst l; rewrite nth_error_app2 by lia; rewrite Hk, Nat.sub_diag; auto. }
    rewrite <- (running_sum_S w l k h Hh).
    destruct (fge (running_sum w l (S k)) target) eqn:E; [auto|].
    apply IH.
    + exists (pre ++ [h]); split; [rewrite <- app_assoc; auto|]. rewrite app_length; cbn; lia.
    + intros j Hlt; destruct (Nat.eq_dec j k) as [->|]; auto; apply Hj; lia.
Qed.

Lemma last_some l : l <> [] -> exists x, last (map Some l) None = Some x /\ nth_error l (length l - 1) = Some x.
Proof.
  intros H; destruct (exists_last H) as (l' & x & ->); exists x; split.
  - rewrite map_app; cbn; rewrite last_last; auto.
  - rewrite app_length; cbn; rewrite nth_error_app2 by lia.
    replace (length l' + 1 - 1 - length l') with 0 by lia; auto.
Qed.

Lemma wheel_select_spec w total u l : l <> [] ->
  exists i x, wheel_select w total u l = Ret (i, x) /\ nth_error l i = Some x /\ wheel_picks w l (fmul u total) i.
Proof.
  intros Hl; unfold wheel_select.
  pose proof (wheel_spec w (fmul u total) l l 0) as H; cbn [running_sum firstn map fold_left] in H.
  change (running_sum w l 0) with f0 in H.
  specialize (H ltac:(exists []; auto) ltac:(intros; lia)).
  destruct (wheel w (fmul u total) f0 0 l) as [[i x]|].
  - exists i, x; destruct H as (H1 & H2 & H3); split; auto; split; auto.
    split; [eapply nth_error_some_lt; eauto|]; auto.
  - destruct (last_some l Hl) as (x & Hx & Hn).
    assert (Hlen : 0 < length l) by (destruct l; cbn; [congruence|lia]).
    exists (length l - 1), x; split.
    + unfold last_entry, massert; rewrite (proj2 (Nat.eqb_neq (length l) 0)) by lia.
      cbn [negb bind]; rewrite Hx; reflexivity.
    + split; auto; split; [lia|]; split; [intros j Hj; apply H; lia|right; lia].
Qed.

(** The whole law of the two wheel mechanisms. *)
Lemma roulette_law total p : individuals p <> [] ->
  exists k, select io fexp (RouletteWheel total) p = Draw (2 ^ 53) k /\
  forall u, (u < 2 ^ 53)%N -> exists i x, k u = Ret (i, x) /\ nth_error (individuals p) i = Some x /\
    wheel_picks (fitness io) (individuals p) (fmul (f_unit u) total) i.
Proof.
  intros Hp; eexists; split; [reflexivity|]; intros u _; cbn [bind].
  apply wheel_select_spec; auto.
Qed.

Lemma boltzmann_law t c total p : individuals p <> [] ->
  exists k, select io fexp (Boltzmann t c total) p = Draw (2 ^ 53) k /\
  forall u, (u < 2 ^ 53)%N -> exists i x, k u = Ret (i, x) /\ nth_error (individuals p) i = Some x /\
    wheel_picks (fun x => fexp (fdiv (fitness io x) t)) (individuals p) (fmul (f_unit u) total) i.
Proof.
  intros Hp; eexists; split; [reflexivity|]; intros u _; cbn [bind].
  apply wheel_select_spec; auto.
Qed.

Lemma wheel_picks_fun w l target i j : wheel_picks w l target i -> wheel_picks w l target j -> i = j.
Proof.
  intros (Hi & Hi1 & Hi2) (Hj & Hj1 & Hj2); destruct (Nat.lt_trichotomy i j) as [H|[H|H]]; auto.
  - destruct Hi2 as [Hi2|Hi2]; [rewrite Hj1 in Hi2 by auto; discriminate|lia].
  - destruct Hj2 as [Hj2|Hj2]; [rewrite Hi1 in Hj2 by auto; discriminate|lia].
Qed.

Lemma wheel_picks_mono w l t1 t2 i j :
  (forall s, fge s t2 = true -> fge s t1 = true) ->
  wheel_picks w l t1 i -> wheel_picks w l t2 j -> i <= j.
Proof.
  intros Ht (Hi & Hi1 & Hi2) (Hj & Hj1 & Hj2); destruct (Nat.le_gt_cases i j) as [H|H]; auto; exfalso.
  destruct Hj2 as [Hj2|Hj2]; [|lia]. apply Ht in Hj2; rewrite Hi1 in Hj2 by auto; discriminate.
Qed.

Lemma target_mono total u1 u2 :
  is_finite total = true -> (0 <= B2R total)%R -> (u1 <= u2)%N -> (u2 < 2 ^ 53)%N ->
  is_nan (fmul (f_unit u1) total) = false /\ is_nan (fmul (f_unit u2) total) = false /\
  (key (fmul (f_unit u1) total) <= key (fmul (f_unit u2) total))%R.
Proof.
  intros Ft Ht H12 H2.
  destruct (f_unit_val u1) as [F1 V1]; [lia|]. destruct (f_unit_val u2) as [F2 V2]; [lia|].
  destruct (fmul_correct _ _ F1 Ft) as (N1 & K1 & _); destruct (fmul_correct _ _ F2 Ft) as (N2 & K2 & _).
  split; auto; split; auto; rewrite K1, K2; apply ovf_mono, rnd_mono, Rmult_le_compat_r; auto.
  rewrite V1, V2; apply Rmult_le_compat_r; [apply bpow_ge_0|apply IZR_le; lia].
Qed.

Lemma wheel_monotone w l total u1 u2 i j :
  is_finite total = true -> (0 <= B2R total)%R -> (u1 <= u2)%N -> (u2 < 2 ^ 53)%N ->
  wheel_picks w l (fmul (f_unit u1) total) i -> wheel_picks w l (fmul (f_unit u2) total) j -> i <= j.
Proof.
  intros Ft Ht H12 H2; apply wheel_picks_mono; intros s Hs.
  destruct (target_mono total u1 u2) as (N1 & N2 & K); auto.
  apply fge_spec in Hs as (Ns & _ & Hs); apply fge_spec; repeat split; auto; lra.
Qed.

(** ** Rank *)
Definition tri (i : nat) : nat := i * (i + 1) / 2.

Lemma tri_S i : tri (S i) = tri i + (i + 1).
Proof.
  unfold tri; replace (S i * (S i + 1)) with (i * (i + 1) + (i + 1) * 2) by lia.
  rewrite Nat.div_add by lia; reflexivity.
Qed.
Lemma tri_mono i j : i <= j -> tri i <= tri j.
Proof. induction 1; auto; rewrite tri_S; lia. Qed.
Lemma tri_double i : 2 * tri i = i * (i + 1).
Proof. induction i as [|i IH]; [reflexivity|]. rewrite tri_S; lia. Qed.

Lemma rank_loop_spec target l k :
  tri k < target -> target <= tri (k + length l) ->
  exists i x, rank_loop target (tri k) k l = Some (k + i, x) /\ nth_error l i = Some x /\
    tri (k + i) < target <= tri (S (k + i)).
Proof.
  revert k; induction l as [|h t IH]; intros k H1 H2; cbn [length rank_loop] in *.
  - rewrite Nat.add_0_r in H2; lia.
  - rewrite <- tri_S; destruct (Nat.leb_spec target (tri (S k))) as [H|H].
    + exists 0, h; rewrite Nat.add_0_r; repeat split; auto.
    + destruct (IH (S k)) as (i & x & E & Hx & Hr); [auto|replace (S k + length t) with (k + S (length t)) by lia; auto|].
      exists (S i), x; rewrite E; split; [do 2 f_equal; lia|]; split; auto.
      replace (k + S i) with (S k + i) by lia; auto.
Qed.

Lemma rank_at target p : 1 <= target <= tri (length (individuals p)) ->
  exists i x, rank_loop target 0 0 (individuals p) = Some (i, x) /\ nth_error (individuals p) i = Some x /\
    tri i < target <= tri (S i).
Proof.
  intros H; destruct (rank_loop_spec target (individuals p) 0) as (i & x & E & Hx & Hr);
  [change (tri 0) with 0; lia|cbn [Nat.add]; lia|]. exists i, x; auto.
Qed.

Lemma rank_must p : individuals p <> [] -> must (rank_select p) (entry p).
Proof.
  intros Hp; unfold rank_select; fold (tri (length (individuals p))).
  assert (Hn : 1 <= length (individuals p)) by (destruct (individuals p); cbn; [congruence|lia]).
  assert (Ht : 1 <= tri (length (individuals p))) by (change 1 with (tri 1); apply tri_mono; auto).
  apply must_bind, must_gen_range_incl; split; auto; intros t Hr.
  destruct (rank_at t p Hr) as (i & x & -> & Hx & _); cbn; auto.
Qed.

Lemma rank_law p i : i < length (individuals p) ->
  prob (rank_select p) (fun r => Nat.eqb (fst r) i)
  = (INR (i + 1) / (INR (length (individuals p)) * (INR (length (individuals p)) + 1) / 2))%R.
Proof.
  intros Hi; set (n := length (individuals p)) in *; unfold rank_select; fold n; fold (tri n).
  assert (Ht : 1 <= tri n) by (change 1 with (tri 1); apply tri_mono; lia).
  rewrite prob_expect, expect_bind, expect_gen_range_incl by auto.
  replace (S (tri n) - 1) with (tri n) by lia.
  rewrite (Rsum_ext _ _ (fun t => ((if t <? tri (S i) then 1 else 0) + (-1) * (if t <? tri i then 1 else 0))%R)).
  - rewrite Rsum_plus, Rsum_mult, !Rsum_count; try (apply tri_mono; lia).
    rewrite tri_S, plus_INR.
    assert (E : (INR (tri n) = INR n * (INR n + 1) / 2)%R).
    { pose proof (tri_double n) as H; apply (f_equal INR) in H; rewrite !mult_INR, plus_INR in H.
      change (INR 1) with 1%R in H; change (INR 2) with 2%R in H; lra. }
    rewrite E; f_equal; lra.
  - intros t Hlt; destruct (rank_at (1 + t) p ltac:(fold n; lia)) as (j & x & -> & _ & Hr); cbn [expect fst].
    destruct (Nat.eqb_spec j i) as [->|Hne].
    + rewrite (proj2 (Nat.ltb_lt _ _)), (proj2 (Nat.ltb_ge _ _)) by lia; lra.
    + destruct (Nat.lt_ge_cases j i) as [Hji|Hji].
      * assert (tri (S j) <= tri i) by (apply tri_mono; lia).
        assert (tri i <= tri (S i)) by (apply tri_mono; lia).
        rewrite (proj2 (Nat.ltb_lt _ _)), (proj2 (Nat.ltb_lt _ _)) by lia; lra.
      * assert (tri (S i) <= tri j) by (apply tri_mono; lia).
        assert (tri i <= tri (S i)) by (apply tri_mono; lia).
        rewrite (proj2 (Nat.ltb_ge _ _)), (proj2 (Nat.ltb_ge _ _)) by lia; lra.
Qed.

(** ** Elitist *)
Lemma halfopen_spec r : in_unit_halfopen r = true <-> is_finite r = true /\ (0 <= B2R r < 1)%R.
Proof.
  unfold in_unit_halfopen; rewrite andb_true_iff, fle_spec, flt_spec.
  destruct f1_val as [F1 V1]; rewrite (key_finite f1), V1 by auto; change (key f0) with 0%R.
  assert (1 < big)%R by (change 1%R with (bpow radix2 0); apply bpow_lt; lia).
  split.
  - intros ((_ & Hn & H0) & (_ & _ & H1)).
    assert (F : is_finite r = true) by (apply key_finite_iff; auto; lra).
    rewrite key_finite in * by auto; auto.
  - intros [F H0]; rewrite key_finite by auto; pose proof (finite_not_nan r F).
    repeat split; auto; lra.
Qed.

Lemma elitist_bound_lt n ratio :
  1 <= n -> fits_usize n -> is_finite ratio = true -> (0 <= B2R ratio < 1)%R -> elitist_bound n ratio < n.
Proof.
  intros Hn Hf Fr Hr; unfold elitist_bound.
  destruct (f_of_nat_finite n Hf) as [Fn Vn]; pose proof (f_of_nat_ge1 n Hn Hf) as Hg.
  assert (H1000 : (bpow radix2 (-1000) <= 1)%R) by (change 1%R with (bpow radix2 0); apply bpow_le; lia).
  destruct (fmul_shrink (f_of_nat n) ratio Fn ltac:(lra) Fr) as [Fm [Hm0 Hm]].
  { split; [lra|apply below_one; auto; lra]. }
  destruct (f_floor_val _ Fm) as [Ff Vf].
  rewrite Vn in Hm; apply float_lt_rnd in Hm; [|apply B2R_isfloat].
  assert (Hz : (Zfloor (B2R (fmul (f_of_nat n) ratio)) <= Z.of_nat n - 1)%Z).
  { assert (Zfloor (B2R (fmul (f_of_nat n) ratio)) < Z.of_nat n)%Z; [|lia].
    apply lt_IZR; rewrite <- INR_IZR_INZ; eapply Rle_lt_trans; [apply Zfloor_lb|auto]. }
  rewrite f_to_usize_val by auto; rewrite Vf, Ztrunc_IZR; unfold fits_usize in Hf.
  lia.
Qed.

(** At most one above the exact floor, and never below it (lengths up to 2^53). *)
Lemma elitist_bound_floor n ratio :
  (Z.of_nat n <= 2 ^ 53)%Z -> is_finite ratio = true -> (0 <= B2R ratio < 1)%R ->
  (Zfloor (INR n * B2R ratio) <= Z.of_nat (elitist_bound n ratio) <= Zfloor (INR n * B2R ratio) + 1)%Z.
Proof.
  intros Hn Fr Hr; unfold elitist_bound, f_of_nat.
  destruct (f_of_Z_exact (Z.of_nat n)) as [Fn Vn]; [lia|].
  destruct (fmul_correct _ _ Fn Fr) as (_ & _ & Hf & Hv); rewrite Vn, <- INR_IZR_INZ in *.
  set (x := (INR n * B2R ratio)%R) in *.
  assert (Hn0 : (0 <= INR n)%R) by apply pos_INR.
  assert (Hnb : (INR n <= bpow radix2 53)%R).
  { rewrite INR_IZR_INZ; change (bpow radix2 53) with (IZR (2 ^ 53)); apply IZR_le; auto. }
  assert (Hx : (0 <= x <= INR n)%R) by (unfold x; nra).
  assert (Hz0 : (0 <= Zfloor x)%Z) by (apply Zfloor_lub; lra).
  assert (Hz1 : (Zfloor x <= Z.of_nat n)%Z).
  { apply le_IZR; rewrite <- INR_IZR_INZ; eapply Rle_trans; [apply Zfloor_lb|lra]. }
  assert (Hlo : (IZR (Zfloor x) <= rnd x)%R) by (apply rnd_ge_float; [apply isfloat_IZR; lia|apply Zfloor_lb]).
  assert (Hhi : (rnd x <= IZR (Zfloor x) + 1)%R).
  { destruct (Z.eq_dec (Zfloor x) (Z.of_nat n)) as [E|E].
    - rewrite E, <- INR_IZR_INZ; apply Rle_trans with (INR n); [|lra].
      apply rnd_le_float; [rewrite INR_IZR_INZ; apply isfloat_IZR; lia|lra].
    - rewrite <- plus_IZR; apply rnd_le_float; [apply isfloat_IZR; lia|].
      rewrite plus_IZR; left; apply Zfloor_ub. }
  assert (F : is_finite (fmul (f_of_Z (Z.of_nat n)) ratio) = true).
  { apply Hf; apply rnd_lt_big; rewrite Rabs_pos_eq by lra.
    apply Rle_trans with (bpow radix2 53); [lra|apply bpow_le; lia]. }
  destruct (f_floor_val _ F) as [Ff Vf]; rewrite f_to_usize_val, Vf, Ztrunc_IZR, (Hv F) by auto.
  assert (H1 : (Zfloor x <= Zfloor (rnd x))%Z) by (apply Zfloor_lub; auto).
  assert (H2 : (Zfloor (rnd x) <= Zfloor x + 1)%Z).
  { apply le_IZR; rewrite plus_IZR; eapply Rle_trans; [apply Zfloor_lb|auto]. }
  unfold usize_max; lia.
Qed.

Lemma elitist_must ratio p :
  in_unit_halfopen ratio = true -> individuals p <> [] -> fits_usize (length (individuals p)) ->
  must (elitist_select ratio p) (fun r => elitist_bound (length (individuals p)) ratio <= fst r /\ entry p r).
Proof.
  intros Hr Hp Hf; apply halfopen_spec in Hr as [Fr Hr]; unfold elitist_select.
  assert (Hn : 1 <= length (individuals p)) by (destruct (individuals p); cbn; [congruence|lia]).
  apply must_bind, must_gen_range; split; [apply elitist_bound_lt; auto|]; intros i Hi.
  destruct (nth_error_lt (individuals p) i) as [x Hx]; [lia|].
  rewrite (idx_some _ _ _ Hx); cbn; split; [lia|exact Hx].
Qed.

Lemma prob_gen_range_idx p lo i :
  lo <= i < length (individuals p) ->
  prob (j <- gen_range lo (length (individuals p)) ;; x <- idx (individuals p) j ;; Ret (j, x)) (fun r => Nat.eqb (fst r) i)
  = (1 / INR (length (individuals p) - lo))%R.
Proof.
  intros Hi; rewrite prob_expect, expect_bind, expect_gen_range by lia.
  rewrite (Rsum_single _ (i - lo)); [|lia|].
  - replace (lo + (i - lo)) with i by lia.
    destruct (nth_error_lt (individuals p) i) as [x Hx]; [lia|].
    rewrite (idx_some _ _ _ Hx); cbn [bind expect fst]; rewrite Nat.eqb_refl; reflexivity.
  - intros j Hj Hne; destruct (nth_error_lt (individuals p) (lo + j)) as [x Hx]; [lia|].
    rewrite (idx_some _ _ _ Hx); cbn [bind expect fst]; rewrite (proj2 (Nat.eqb_neq _ _)) by lia; reflexivity.
Qed.

Lemma elitist_law ratio p i :
  in_unit_halfopen ratio = true -> fits_usize (length (individuals p)) ->
  elitist_bound (length (individuals p)) ratio <= i < length (individuals p) ->
  prob (elitist_select ratio p) (fun r => Nat.eqb (fst r) i)
  = (1 / INR (length (individuals p) - elitist_bound (length (individuals p)) ratio))%R.
Proof. intros Hr Hf Hi; apply prob_gen_range_idx; auto. Qed.

(** ** All built-in mechanisms *)
Definition selector_ok (s : selector I) : Prop :=
  match s with
  | Tournament size => 1 <= size
  | Elitist r => in_unit_halfopen r = true
  | Linear _ => False
  | Custom _ _ _ _ => False
  | _ => True
  end.

Lemma select_must s p :
  selector_ok s -> individuals p <> [] -> fits_usize (length (individuals p)) ->
  must (select io fexp s p) (entry p).
Proof.
  intros Hs Hp Hf; destruct s; cbn [selector_ok] in Hs; cbn [select]; try tauto.
  - apply tournament_must; auto.
  - apply must_bind, must_gen_f64; intros u _.
    destruct (wheel_select_spec (fitness io) total_fitness (f_unit u) (individuals p) Hp) as (i & x & -> & Hx & _); cbn; auto.
  - apply must_bind, must_gen_f64; intros u _.
    destruct (wheel_select_spec (scaled_fitness io fexp temperature) total_scaled_fitness (f_unit u) (individuals p) Hp) as (i & x & -> & Hx & _); cbn; auto.
  - apply rank_must; auto.
  - eapply must_mono; [|apply elitist_must; auto]; intros r [_ Hr]; exact Hr.
Qed.

(** ** Tournament law *)
Lemma repeat_all_prob k n i : i < n ->
  expect (repeatM k (gen_range 0 n)) (fun ds => if forallb (fun d => d <=? i) ds then 1%R else 0%R)
  = ((INR (i + 1) / INR n) ^ k)%R.
Proof.
  intros Hi; assert (0 < INR n)%R by (apply INR_pos; lia).
  induction k as [|k IH]; [reflexivity|]; cbn [repeatM pow].
  rewrite expect_bind, expect_gen_range by lia; rewrite Nat.sub_0_r.
  rewrite (Rsum_ext n _ (fun d => ((if d <? i + 1 then 1 else 0) * (INR (i + 1) / INR n) ^ k)%R)).
  - rewrite Rsum_mult_r, Rsum_count by lia; field; lra.
  - intros d Hd; rewrite expect_bind, Nat.add_0_l; cbn [expect forallb].
    destruct (Nat.leb_spec d i) as [Hdi|Hdi]; cbn [andb].
    + rewrite (proj2 (Nat.ltb_lt _ _)) by lia; rewrite IH; lra.
    + rewrite (proj2 (Nat.ltb_ge _ _)) by lia.
      rewrite Rmult_0_l.
      clear IH; induction k as [|k IHk]; cbn; auto.
      rewrite expect_bind, expect_gen_range by lia.
      rewrite (Rsum_ext _ _ (fun _ => 0%R)), Rsum_const; [lra|].
      intros j Hj; rewrite expect_bind; cbn; exact IHk.
Qed.

Lemma fold_max_leb ds d i : (fold_left Nat.max ds d <=? i) = (d <=? i) && forallb (fun x => x <=? i) ds.
Proof.
  revert d; induction ds as [|x ds IH]; intros d; cbn; [rewrite andb_true_r; auto|].
  rewrite IH, andb_assoc; f_equal.
  destruct (Nat.leb_spec (Nat.max d x) i); destruct (Nat.leb_spec d i); destruct (Nat.leb_spec x i); cbn; auto; lia.
Qed.

Lemma expect_bind_supp {A B} (m : M A) (f : A -> M B) g h :
  (forall a, may m a -> expect (f a) g = h a) -> expect (bind m f) g = expect m h.
Proof.
  rewrite expect_bind; induction m as [a|e|n k IH|n k IH]; intros H; cbn; auto.
  - apply H; reflexivity.
  - f_equal; apply Rsum_ext; intros i Hi; apply IH; intros a Ha; apply H; exists (N.of_nat i); split; auto; lia.
  - f_equal; apply map_ext_in; intros i Hi; apply in_seq in Hi.
    apply IH; intros a Ha; apply H; exists (N.of_nat i); split; auto; lia.
Qed.

Lemma tournament_law size p i : 1 <= size -> i < length (individuals p) ->
  prob (tournament_select size p) (fun r => Nat.leb (fst r) i)
  = ((INR (i + 1) / INR (length (individuals p))) ^ size)%R.
Proof.
  intros Hs Hi; rewrite prob_expect, <- repeat_all_prob by auto; unfold tournament_select, massert.
  rewrite (proj2 (Nat.eqb_neq (length (individuals p)) 0)) by lia; cbn [negb bind].
  apply expect_bind_supp; intros ds Hds; apply may_repeatM in Hds as [Hl HF].
  destruct ds as [|d ds]; [cbn in Hl; lia|]; cbn [unwrap bind].
  assert (HF' : Forall (fun x => x < length (individuals p)) (d :: ds)).
  { eapply Forall_impl; [|exact HF]; intros a Ha; apply may_gen_range in Ha; lia. }
  inversion HF'; subst.
  destruct (nth_error_lt (individuals p) (fold_left Nat.max ds d)) as [x Hx]; [apply fold_max_le; auto|].
  rewrite (idx_some _ _ _ Hx); cbn [bind expect fst forallb]; rewrite fold_max_leb; reflexivity.
Qed.

End Sel.
