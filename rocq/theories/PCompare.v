(** * PCompare: the selection strategies compared (C123). *)
From Coq Require Import List Bool Arith NArith ZArith Reals Lia Lra.
From Flocq Require Import Core BinarySingleNaN.
From Verif Require Import Rnd Prob LRnd LProb F64 LF64 MStats MPopulation MSelection SpecF SpecQ SpecCompare PStats PPopulation PSelection PSelection2 PLinear PSelection3 PSum PLinear2 PConv PPressure ExF.
Import ListNotations.

Section Compare.
Context {I : Type} (io : individual_ops I) (fexp : f64 -> f64).

Lemma compare_top (m1 m2 : M (nat * I)) p slack : sorted_by_fitness io (individuals p) ->
  (forall r, may m1 r -> nth_error (individuals p) (fst r) = Some (snd r)) ->
  (forall r, may m2 r -> nth_error (individuals p) (fst r) = Some (snd r)) ->
  (forall k, (k <= length (individuals p))%nat ->
    prob m1 (fun r => (length (individuals p) - k <=? fst r)%nat) - slack <= prob m2 (fun r => (length (individuals p) - k <=? fst r)%nat))%R ->
  presses_harder io m1 m2 slack.
Proof.
  intros Hs H1 H2 Hk t.
  rewrite (prob_supp m1 _ (fun r => length (individuals p) - length (filter (fun x => fge (fitness io x) t) (individuals p)) <=? fst r)) by (intros r Hr; apply (threshold io); auto).
  rewrite (prob_supp m2 _ (fun r => length (individuals p) - length (filter (fun x => fge (fitness io x) t) (individuals p)) <=? fst r)) by (intros r Hr; apply (threshold io); auto).
  apply Hk, filter_length_le.
Qed.

Lemma pos_len (p : population I) : individuals p <> [] -> 0 < length (individuals p).
Proof. destruct (individuals p); [contradiction|cbn; lia]. Qed.

(** ** Rank and tournaments *)
Lemma rank_top p k : individuals p <> [] -> k <= length (individuals p) ->
  prob (select io fexp Rank p) (fun r => length (individuals p) - k <=? fst r)
  = (INR k * (2 * INR (length (individuals p)) - INR k + 1) / (INR (length (individuals p)) * (INR (length (individuals p)) + 1)))%R.
Proof.
  intros Hne; pose proof (pos_len p Hne) as Hn; revert k; set (n := length (individuals p)) in *.
  assert (Hp : (0 < INR n)%R) by (apply INR_pos; auto).
  induction k as [|k IH]; intros Hk; rewrite (top_sum _ n) in *.
  1: rewrite Rsum_0; cbn [INR]; unfold Rdiv; ring.
  all: try (apply select_draws; exact Logic.I); try lia;
    try (intros r Hr; apply nth_error_Some; rewrite (must_may _ _ _ (rank_must p Hne) Hr); discriminate).
  rewrite Rsum_S, IH by lia.
  assert (L : prob (select io fexp Rank p) (fun r => fst r =? n - 1 - k) = (INR (n - 1 - k + 1) / (INR n * (INR n + 1) / 2))%R) by (apply (rank_law p); fold n; lia).
  rewrite L; replace (n - 1 - k + 1) with (n - k) by lia; rewrite minus_INR, S_INR by lia; field; lra.
Qed.

Lemma rank_below_tournament p : sorted_by_fitness io (individuals p) -> individuals p <> [] ->
  presses_harder io (select io fexp Rank p) (select io fexp (Tournament 2) p) 0.
Proof.
  intros Hs Hne; apply (compare_top _ _ p); auto.
  - intros r Hr; exact (must_may _ _ _ (rank_must p Hne) Hr).
  - intros r Hr; exact (must_may _ _ _ (tournament_must 2 p ltac:(lia) Hne) Hr).
  - intros k Hk; rewrite rank_top, (tournament_top io fexp) by (auto; lia).
    pose proof (INR_pos _ (pos_len p Hne)) as Hp; apply le_INR in Hk; pose proof (pos_INR k) as Hk0.
    set (n := INR (length (individuals p))) in *; set (j := INR k) in *.
    assert (E : (1 - ((n - j) / n) ^ 2 - j * (2 * n - j + 1) / (n * (n + 1)) = j * (n - j) / (n * n * (n + 1)))%R) by (field; lra).
    assert (0 <= j * (n - j) / (n * n * (n + 1)))%R; [|lra].
    apply Rmult_le_pos; [apply Rmult_le_pos; lra|left; apply Rinv_0_lt_compat; repeat apply Rmult_lt_0_compat; lra].
Qed.

(** ** Elitist selection *)
Lemma elitist_bound_mono n r1 r2 : 1 <= n -> fits_usize n -> is_finite r1 = true -> is_finite r2 = true -> (0 <= B2R r1)%R -> (B2R r1 <= B2R r2 < 1)%R ->
  elitist_bound n r1 <= elitist_bound n r2.
Proof.
  intros Hn Hf F1 F2 H1 H2; unfold elitist_bound; destruct (f_of_nat_finite n Hf) as [Fn Vn].
  pose proof (f_of_nat_ge1 n ltac:(lia) Hf) as Hg.
  assert (H1000 : (bpow radix2 (-1000) <= 1)%R) by (change 1%R with (bpow radix2 0); apply bpow_le; lia).
  assert (K : forall r, is_finite r = true -> (0 <= B2R r < 1)%R -> is_finite (fmul (f_of_nat n) r) = true /\ B2R (fmul (f_of_nat n) r) = rnd (B2R (f_of_nat n) * B2R r)).
  { intros r Fr Hr; destruct (fmul_shrink (f_of_nat n) r Fn ltac:(lra) Fr) as [Fm _]; [split; [lra|apply below_one; auto; lra]|].
    split; auto; apply (fmul_correct _ _ Fn Fr); auto. }
  destruct (K r1 F1 ltac:(lra)) as [Fm1 V1], (K r2 F2 ltac:(lra)) as [Fm2 V2].
  destruct (f_floor_val _ Fm1) as [Ff1 Vf1], (f_floor_val _ Fm2) as [Ff2 Vf2].
  rewrite !f_to_usize_val, Vf1, Vf2, !Ztrunc_IZR, V1, V2 by auto.
  assert (Zfloor (rnd (B2R (f_of_nat n) * B2R r1)) <= Zfloor (rnd (B2R (f_of_nat n) * B2R r2)))%Z; [|lia].
  apply Zfloor_le, round_le; try apply _; apply Rmult_le_compat_l; lra.
Qed.

Lemma elitist_top ratio p k : is_finite ratio = true -> (0 <= B2R ratio < 1)%R -> fits_usize (length (individuals p)) -> individuals p <> [] ->
  k <= length (individuals p) ->
  prob (select io fexp (Elitist ratio) p) (fun r => length (individuals p) - k <=? fst r)
  = (INR (Nat.min k (length (individuals p) - elitist_bound (length (individuals p)) ratio)) / INR (length (individuals p) - elitist_bound (length (individuals p)) ratio))%R.
Proof.
  intros Fr Hr Hf Hne; revert k; set (n := length (individuals p)) in *; set (b := elitist_bound n ratio).
  pose proof (elitist_bound_lt n ratio (pos_len p Hne) Hf Fr Hr) as Hb; fold b in Hb.
  assert (D : draws_only (select io fexp (Elitist ratio) p)) by (apply select_draws; exact Logic.I).
  assert (E : forall r, may (select io fexp (Elitist ratio) p) r -> fst r < n).
  { intros r H; apply nth_error_Some; rewrite (must_may _ _ _ (selection_member io fexp (Elitist ratio) p (conj Fr Hr) Hne Hf) H); discriminate. }
  intros k Hk; rewrite (top_sum _ n) by auto; revert Hk; induction k as [|k IH]; intros Hk; [rewrite Rsum_0; cbn; unfold Rdiv; ring|].
  rewrite Rsum_S, IH by lia; destruct (Nat.lt_ge_cases k (n - b)) as [H|H].
  - assert (L : prob (select io fexp (Elitist ratio) p) (fun r => fst r =? n - 1 - k) = (1 / INR (n - b))%R) by (apply (elitist_uniform io fexp ratio p); auto; fold n b; lia).
    rewrite L, !Nat.min_l, S_INR by lia; unfold Rdiv; ring.
  - rewrite (PPressure.prob_zero _ (fun r => fst r =? n - 1 - k)); auto; [rewrite !Nat.min_r by lia; ring|].
    intros r Hm; pose proof (must_may _ _ _ (elitist_only_top io fexp ratio p Fr Hr Hne Hf) Hm) as G; cbn beta in G; fold n b in G; apply Nat.eqb_neq; lia.
Qed.

Lemma elitist_stricter r1 r2 p : is_finite r1 = true -> is_finite r2 = true -> (0 <= B2R r1)%R -> (B2R r1 <= B2R r2 < 1)%R ->
  fits_usize (length (individuals p)) -> sorted_by_fitness io (individuals p) -> individuals p <> [] ->
  presses_harder io (select io fexp (Elitist r1) p) (select io fexp (Elitist r2) p) 0.
Proof.
  intros F1 F2 H1 H2 Hf Hs Hne; assert (R1 : (0 <= B2R r1 < 1)%R) by lra; assert (R2 : (0 <= B2R r2 < 1)%R) by lra.
  apply (compare_top _ _ p); auto.
  - intros r H; exact (must_may _ _ _ (selection_member io fexp (Elitist r1) p (conj F1 R1) Hne Hf) H).
  - intros r H; exact (must_may _ _ _ (selection_member io fexp (Elitist r2) p (conj F2 R2) Hne Hf) H).
  - intros k Hk; rewrite !elitist_top by (auto; lra); rewrite Rminus_0_r.
    pose proof (elitist_bound_mono (length (individuals p)) r1 r2 (pos_len p Hne) Hf F1 F2 H1 H2) as Hm.
    pose proof (elitist_bound_lt _ r2 (pos_len p Hne) Hf F2 ltac:(lra)) as Hb.
    set (n := length (individuals p)) in *; set (b1 := elitist_bound n r1) in *; set (b2 := elitist_bound n r2) in *.
    assert (P1 : (0 < INR (n - b1))%R) by (apply INR_pos; lia); assert (P2 : (0 < INR (n - b2))%R) by (apply INR_pos; lia).
    apply Rmult_le_reg_r with (INR (n - b1) * INR (n - b2))%R; [apply Rmult_lt_0_compat; auto|].
    replace (INR (Nat.min k (n - b1)) / INR (n - b1) * (INR (n - b1) * INR (n - b2)))%R with (INR (Nat.min k (n - b1) * (n - b2)))%R by (rewrite mult_INR; field; lra).
    replace (INR (Nat.min k (n - b2)) / INR (n - b2) * (INR (n - b1) * INR (n - b2)))%R with (INR (Nat.min k (n - b2) * (n - b1)))%R by (rewrite mult_INR; field; lra).
    apply le_INR; destruct (Nat.le_gt_cases k (n - b2)).
    + rewrite !Nat.min_l by lia; apply Nat.mul_le_mono_l; lia.
    + rewrite (Nat.min_r k (n - b2)) by lia; rewrite (Nat.mul_comm (n - b2)); apply Nat.mul_le_mono_r; lia.
Qed.

(** ** Linear selection *)
Lemma linear_entry b p r : is_finite b = true -> (1 < B2R b <= 2)%R -> (Z.of_nat (length (individuals p)) <= 2 ^ 53)%Z -> individuals p <> [] ->
  may (select io fexp (Linear b) p) r -> nth_error (individuals p) (fst r) = Some (snd r).
Proof. intros Fb Hb Hn53 Hne Hr; apply (safe_entry io fexp (Linear b) p r); auto; [right; eauto|unfold fits_usize, usize_max; lia]. Qed.

Lemma linear_harder b1 b2 p : is_finite b1 = true -> is_finite b2 = true -> (1 < B2R b1)%R -> (B2R b1 <= B2R b2 <= 2)%R ->
  (Z.of_nat (length (individuals p)) <= 2 ^ 53)%Z -> sorted_by_fitness io (individuals p) -> individuals p <> [] ->
  presses_harder io (select io fexp (Linear b1) p) (select io fexp (Linear b2) p) (bpow radix2 (-47) / (B2R b1 - 1)).
Proof.
  intros F1 F2 H1 H2 Hn53 Hs Hne; assert (R1 : (1 < B2R b1 <= 2)%R) by lra; assert (R2 : (1 < B2R b2 <= 2)%R) by lra; apply (compare_top _ _ p); auto.
  { intros r Hr; exact (linear_entry b1 p r F1 R1 Hn53 Hne Hr). }
  { intros r Hr; exact (linear_entry b2 p r F2 R2 Hn53 Hne Hr). }
  intros k Hk; pose proof (pos_len p Hne) as Hn.
  pose proof (linear_cumulative io fexp b1 p k F1 ltac:(lra) Hn Hn53 Hk) as L1; pose proof (linear_cumulative io fexp b2 p k F2 ltac:(lra) Hn Hn53 Hk) as L2.
  cbv zeta in L1, L2; apply Rabs_le_inv in L1; apply Rabs_le_inv in L2.
  pose proof (unit_part _ k Hn Hk) as U; apply INR_pos in Hn; set (n := length (individuals p)) in *.
  replace ((INR n - INR k) / INR n)%R with (1 - INR k / INR n)%R in U by (field; lra); set (t := (INR k / INR n)%R) in *.
  assert (0 <= (B2R b2 - B2R b1) * (t * (1 - t)))%R by (apply Rmult_le_pos; [lra|apply Rmult_le_pos; lra]).
  assert (B : (bpow radix2 (-48) / (B2R b2 - 1) <= bpow radix2 (-48) / (B2R b1 - 1))%R).
  { apply Rmult_le_compat_l; [apply bpow_ge_0|apply Rinv_le_contravar; lra]. }
  assert (B47 : (bpow radix2 (-47) / (B2R b1 - 1) = bpow radix2 (-48) / (B2R b1 - 1) + bpow radix2 (-48) / (B2R b1 - 1))%R).
  { change (-47)%Z with (-48 + 1)%Z; rewrite bpow_plus; change (bpow radix2 1) with 2%R; unfold Rdiv; ring. }
  lra.
Qed.

Lemma linear_two b p : is_finite b = true -> B2R b = 2%R -> (Z.of_nat (length (individuals p)) <= 2 ^ 53)%Z -> sorted_by_fitness io (individuals p) -> individuals p <> [] ->
  presses_harder io (select io fexp (Linear b) p) (select io fexp (Tournament 2) p) (bpow radix2 (-48)) /\
  presses_harder io (select io fexp (Tournament 2) p) (select io fexp (Linear b) p) (bpow radix2 (-48)).
Proof.
  intros Fb Hb Hn53 Hs Hne; assert (Rb : (1 < B2R b <= 2)%R) by lra.
  assert (K : forall k, (k <= length (individuals p))%nat ->
    (Rabs (prob (select io fexp (Linear b) p) (fun r => (length (individuals p) - k <=? fst r)%nat) - prob (select io fexp (Tournament 2) p) (fun r => (length (individuals p) - k <=? fst r)%nat)) <= bpow radix2 (-48))%R).
  { intros k Hk; pose proof (pos_len p Hne) as Hn; pose proof (linear_cumulative io fexp b p k Fb ltac:(lra) Hn Hn53 Hk) as L; cbv zeta in L.
    rewrite (tournament_top io fexp) by (auto; lia); rewrite Hb in L; apply INR_pos in Hn; set (n := INR (length (individuals p))) in *.
    replace (1 - ((n - INR k) / n) ^ 2)%R with (2 * (INR k / n) - (2 - 1) * (INR k / n * (INR k / n)))%R by (field; lra).
    replace (bpow radix2 (-48)) with (bpow radix2 (-48) / (2 - 1))%R; [exact L|field]. }
  split; apply (compare_top _ _ p); auto; try (intros r Hr; exact (linear_entry b p r Fb Rb Hn53 Hne Hr));
    try (intros r Hr; exact (must_may _ _ _ (tournament_must 2 p ltac:(lia) Hne) Hr));
    intros k Hk; specialize (K k Hk); apply Rabs_le_inv in K; lra.
Qed.

(** ** The fittest individual *)
Lemma fittest_shares p : individuals p <> [] ->
  (forall size, 1 <= size -> prob (select io fexp (Tournament size) p) (fun r => fst r =? length (individuals p) - 1)
     = (1 - ((INR (length (individuals p)) - 1) / INR (length (individuals p))) ^ size)%R) /\
  prob (select io fexp Rank p) (fun r => fst r =? length (individuals p) - 1) = (2 / (INR (length (individuals p)) + 1))%R /\
  (forall ratio, is_finite ratio = true -> (0 <= B2R ratio < 1)%R -> fits_usize (length (individuals p)) ->
     prob (select io fexp (Elitist ratio) p) (fun r => fst r =? length (individuals p) - 1)
     = (1 / INR (length (individuals p) - elitist_bound (length (individuals p)) ratio))%R).
Proof.
  intros Hne; pose proof (pos_len p Hne) as Hn; set (n := length (individuals p)) in *.
  assert (Hp : (0 < INR n)%R) by (apply INR_pos; auto); split; [|split].
  - intros size Hsz; rewrite (prob_supp _ _ (fun r => n - 1 <=? fst r)).
    + unfold n; rewrite (tournament_top io fexp) by (auto; fold n; lia); reflexivity.
    + intros r Hr; assert (fst r < n) by (apply nth_error_Some; rewrite (must_may _ _ _ (tournament_must size p Hsz Hne) Hr); discriminate).
      destruct (Nat.eqb_spec (fst r) (n - 1)), (Nat.leb_spec (n - 1) (fst r)); auto; lia.
  - assert (L : prob (select io fexp Rank p) (fun r => fst r =? n - 1) = (INR (n - 1 + 1) / (INR n * (INR n + 1) / 2))%R) by (apply (rank_law p); fold n; lia).
    rewrite L; replace (n - 1 + 1) with n by lia; field; lra.
  - intros ratio Fr Hr Hf; pose proof (elitist_bound_lt n ratio Hn Hf Fr Hr); apply (elitist_uniform io fexp ratio p); auto; fold n; lia.
Qed.
End Compare.

(** ** Elitist selection and tournaments cannot be compared. *)
Lemma sorted_four : sorted_by_fitness ex_io (individuals (ex_popn ex_io [1; 2; 5; 9])).
Proof.
  intros i j x y Hij Hx Hy; destruct i as [|[|[|[|i]]]]; destruct j as [|[|[|[|j]]]]; try lia; cbn in Hx, Hy; try (destruct j; discriminate); try (destruct i; discriminate);
    injection Hx as <-; injection Hy as <-; vm_compute; reflexivity.
Qed.
Lemma half_four : is_finite (f_lit 1 2) = true /\ (0 <= B2R (f_lit 1 2) < 1)%R.
Proof. apply halfopen_spec; vm_compute; reflexivity. Qed.
Lemma four_reach m k t : (forall r, may m r -> nth_error (individuals (ex_popn ex_io [1; 2; 5; 9])) (fst r) = Some (snd r)) ->
  length (filter (fun x => fge (fitness ex_io x) t) (individuals (ex_popn ex_io [1; 2; 5; 9]))) = k ->
  prob m (fun r => fge (fitness ex_io (snd r)) t) = prob m (fun r => length (individuals (ex_popn ex_io [1; 2; 5; 9])) - k <=? fst r).
Proof. intros Hm <-; apply prob_supp; intros r Hr; apply (threshold ex_io); auto; apply sorted_four. Qed.

Lemma incomparable :
  let p := ex_popn ex_io [1; 2; 5; 9] in
  ~ presses_harder ex_io (select ex_io ex_exp (Elitist (f_lit 1 2)) p) (select ex_io ex_exp (Tournament 3) p) 0 /\
  ~ presses_harder ex_io (select ex_io ex_exp (Tournament 3) p) (select ex_io ex_exp (Elitist (f_lit 1 2)) p) 0.
Proof.
  intros p; destruct half_four as [F H].
  assert (Hf : fits_usize (length (individuals p))) by (unfold fits_usize, usize_max; cbn; lia).
  assert (Hne : individuals p <> []) by discriminate.
  assert (M1 : forall r, may (select ex_io ex_exp (Elitist (f_lit 1 2)) p) r -> nth_error (individuals p) (fst r) = Some (snd r)).
  { intros r Hr; exact (must_may _ _ _ (selection_member ex_io ex_exp (Elitist (f_lit 1 2)) p (conj F H) Hne Hf) Hr). }
  assert (M2 : forall r, may (select ex_io ex_exp (Tournament 3) p) r -> nth_error (individuals p) (fst r) = Some (snd r)).
  { intros r Hr; exact (must_may _ _ _ (tournament_must 3 p ltac:(lia) Hne) Hr). }
  assert (B : elitist_bound (length (individuals p)) (f_lit 1 2) = 2) by (vm_compute; reflexivity).
  split; intros K.
  - specialize (K (f_of_nat 5)).
    rewrite (four_reach _ 2 (f_of_nat 5) M1), (four_reach _ 2 (f_of_nat 5) M2) in K by (vm_compute; reflexivity).
    fold p in K; rewrite (elitist_top ex_io ex_exp), (tournament_top ex_io ex_exp) in K by (auto; cbn; lia).
    rewrite B in K; change (length (individuals p)) with 4 in K; cbn in K; lra.
  - specialize (K (f_of_nat 9)).
    rewrite (four_reach _ 1 (f_of_nat 9) M1), (four_reach _ 1 (f_of_nat 9) M2) in K by (vm_compute; reflexivity).
    fold p in K; rewrite (elitist_top ex_io ex_exp), (tournament_top ex_io ex_exp) in K by (auto; cbn; lia).
    rewrite B in K; change (length (individuals p)) with 4 in K; cbn in K; lra.
Qed.
Lemma compare_example :
  let p := ex_popn ex_io [1; 2; 5; 9] in
  sorted_by_fitness ex_io (individuals p) /\ individuals p <> [] /\ fits_usize (length (individuals p)) /\
  elitist_bound (length (individuals p)) (f_lit 1 2) = 2 /\ is_finite f2 = true /\ B2R f2 = 2%R /\
  prob (select ex_io ex_exp Rank p) (fun r => 4 - 2 <=? fst r) = (7 / 10)%R /\
  prob (select ex_io ex_exp (Tournament 2) p) (fun r => 4 - 2 <=? fst r) = (3 / 4)%R.
Proof.
  intros p; split; [apply sorted_four|]; split; [discriminate|]; split; [unfold fits_usize, usize_max; cbn; lia|].
  split; [vm_compute; reflexivity|]; destruct f2_val as [F V]; split; auto; split; auto.
  change 4 with (length (individuals p)); rewrite (rank_top ex_io ex_exp), (tournament_top ex_io ex_exp) by (try discriminate; cbn; lia).
  change (length (individuals p)) with 4; cbn; split; lra.
Qed.
Lemma incomparable_witness : exists (p : population nat) (ratio : f64) (size : nat),
  sorted_by_fitness ex_io (individuals p) /\ individuals p <> [] /\ is_finite ratio = true /\ (0 <= B2R ratio < 1)%R /\ 1 <= size /\
  ~ presses_harder ex_io (select ex_io ex_exp (Elitist ratio) p) (select ex_io ex_exp (Tournament size) p) 0 /\
  ~ presses_harder ex_io (select ex_io ex_exp (Tournament size) p) (select ex_io ex_exp (Elitist ratio) p) 0.
Proof.
  exists (ex_popn ex_io [1; 2; 5; 9]), (f_lit 1 2), 3; split; [apply sorted_four|]; split; [discriminate|].
  split; [apply half_four|]; split; [apply half_four|]; split; [lia|apply incomparable].
Qed.
