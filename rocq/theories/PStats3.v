(** * PStats3: proofs for C126. *)
From Coq Require Import ZArith NArith Reals Bool Lia Lra List Arith Permutation.
From Flocq Require Import Core BinarySingleNaN.
From Verif Require Import Rnd LRnd F64 LF64 MStats SpecF SpecSame PStats PStats2.
Import ListNotations.
Local Open Scope R_scope.

(** ** Values up to the sign of a zero *)
Definition zerob (x : f64) : bool := match x with B754_zero _ => true | _ => false end.
Definition sam (x y : f64) : Prop := x = y \/ (zerob x = true /\ zerob y = true).
Definition mir (x y : f64) : Prop := sam (Bopp x) y.

Lemma B2R_zerob (x : f64) : is_finite x = true -> B2R x = 0 -> zerob x = true.
Proof.
  destruct x as [s|s| |s m e H]; cbn; try discriminate; auto; intros _ E; exfalso.
  apply eq_0_F2R in E; destruct s; cbn in E; lia.
Qed.
Lemma key_sam (x y : f64) : is_nan x = false -> is_nan y = false -> key x = key y -> sam x y.
Proof.
  intros Hx Hy E; pose proof big_pos as Hb.
  destruct (is_finite x) eqn:Fx.
  - assert (Fy : is_finite y = true) by (apply key_finite_iff; auto; rewrite <- E; apply key_finite_bound; auto).
    rewrite !key_finite in E by auto.
    destruct (zerob x) eqn:Zx.
    + right; split; auto; apply B2R_zerob; auto; rewrite <- E; destruct x; try discriminate; reflexivity.
    + left; apply B2R_inj; auto.
      * destruct x; try discriminate; reflexivity.
      * destruct y as [s|s| |s m e H]; try discriminate; try reflexivity.
        exfalso; assert (Z : zerob x = true) by (apply B2R_zerob; auto); congruence.
  - assert (Fy : is_finite y = false).
    { destruct (is_finite y) eqn:Fy; auto; exfalso.
      assert (is_finite x = true) by (apply key_finite_iff; auto; rewrite E; apply key_finite_bound; auto); congruence. }
    left; destruct x as [|[|]| |], y as [|[|]| |]; cbn in *; try discriminate; try reflexivity; lra.
Qed.
Lemma sam_refl x : sam x x.
Proof. now left. Qed.
Lemma sam_number x y : sam x y -> same_number x y.
Proof.
  intros [->|[Hx Hy]].
  - destruct (is_nan y) eqn:E; [right; auto|left; apply feq_spec; auto].
  - left; destruct x, y; cbn in Hx, Hy; try discriminate; apply feq_spec; cbn; auto.
Qed.
Lemma number_sam x y : same_number x y -> sam x y.
Proof.
  intros [H|[Hx Hy]]; [apply feq_spec in H; destruct H as (Hx & Hy & E); now apply key_sam|].
  left; destruct x, y; cbn in *; congruence.
Qed.
Lemma mir_cases x y : mir x y ->
  (x = B754_nan /\ y = B754_nan) \/ (exists s, x = B754_infinity s /\ y = B754_infinity (negb s)) \/
  (is_finite x = true /\ is_finite y = true /\ B2R y = - B2R x).
Proof.
  intros [H|[Hx Hy]].
  - subst y; destruct (is_finite x) eqn:F.
    + right; right; rewrite is_finite_Bopp, B2R_Bopp; auto.
    + destruct x as [s|s| |s m e H]; cbn in *; try discriminate; [right; left; eauto|left; auto].
  - right; right; destruct x, y; cbn in *; try discriminate; repeat split; auto; lra.
Qed.
Lemma mir_rounded z z' r r' : rounded_to z r -> rounded_to z' r' -> r' = - r -> mir z z'.
Proof.
  intros (Hn & Hk & _) (Hn' & Hk' & _) ->; apply key_sam; auto.
  - destruct z; auto.
  - rewrite Hk', rnd_opp.
    assert (E : key (Bopp z) = - key z) by (destruct z as [s|[|]| |s m e H]; cbn [key Bopp negb]; try (cbn; lra); rewrite <- B2R_Bopp; reflexivity).
    rewrite E, Hk; unfold ovf; rewrite Rabs_Ropp; destruct (Rlt_bool_spec (Rabs (rnd r)) big) as [H|H]; auto.
    pose proof big_pos; destruct (Rlt_bool_spec (rnd r) 0), (Rlt_bool_spec (- rnd r) 0); try lra.
    exfalso; assert (rnd r = 0) by lra; rewrite H3, Rabs_R0 in H; lra.
Qed.
Lemma sam_rounded z z' r : rounded_to z r -> rounded_to z' r -> sam z z'.
Proof. intros (Hn & Hk & _) (Hn' & Hk' & _); apply key_sam; congruence. Qed.

Ltac fins := repeat match goal with H : is_finite ?x = true |- _ => is_var x; destruct x; try discriminate H; clear H end; cbn;
  repeat match goal with |- context [Bool.eqb ?a ?b] => destruct a, b; cbn end.

Lemma mir_sub x y x' y' : mir x x' -> mir y y' -> mir (fsub x y) (fsub x' y').
Proof.
  intros Hx Hy; destruct (mir_cases _ _ Hx) as [[-> ->]|[(s & -> & ->)|(Fx & Fx' & Ex)]];
  destruct (mir_cases _ _ Hy) as [[-> ->]|[(t & -> & ->)|(Fy & Fy' & Ey)]]; try (left; reflexivity).
  - left; destruct s, t; reflexivity.
  - left; destruct y, y'; try discriminate; reflexivity.
  - left; destruct x, x'; try discriminate; reflexivity.
  - left; destruct x, x'; try discriminate; reflexivity.
  - apply (mir_rounded _ _ (B2R x - B2R y) (B2R x' - B2R y')); try apply fsub_correct; auto; lra.
Qed.
Lemma mir_add x y x' y' : mir x x' -> mir y y' -> mir (fadd x y) (fadd x' y').
Proof.
  intros Hx Hy; destruct (mir_cases _ _ Hx) as [[-> ->]|[(s & -> & ->)|(Fx & Fx' & Ex)]];
  destruct (mir_cases _ _ Hy) as [[-> ->]|[(t & -> & ->)|(Fy & Fy' & Ey)]]; try (left; reflexivity).
  - left; destruct s, t; reflexivity.
  - left; destruct y, y'; try discriminate; reflexivity.
  - left; destruct x, x'; try discriminate; reflexivity.
  - left; destruct x, x'; try discriminate; reflexivity.
  - apply (mir_rounded _ _ (B2R x + B2R y) (B2R x' + B2R y')); try apply fadd_correct; auto; lra.
Qed.
Lemma mir_div x x' n : mir x x' -> is_finite n = true -> 0 < B2R n -> mir (fdiv x n) (fdiv x' n).
Proof.
  intros Hx Fn Hn; destruct (mir_cases _ _ Hx) as [[-> ->]|[(s & -> & ->)|(Fx & Fx' & Ex)]].
  - left; reflexivity.
  - left; destruct n as [t|t| |t m e H]; cbn in Fn; try discriminate; [cbn in Hn; lra|]; destruct s, t; reflexivity.
  - apply (mir_rounded _ _ (B2R x / B2R n) (B2R x' / B2R n)); try apply fdiv_correct; auto; try lra.
    rewrite Ex; unfold Rdiv; ring.
Qed.
Lemma mir_opp x y : mir x y -> y = Bopp x \/ (zerob x = true /\ zerob y = true).
Proof. intros [H|[Hx Hy]]; [left; auto|right; split; auto; destruct x; auto]. Qed.
Lemma mir_mul x y x' y' : mir x x' -> mir y y' -> sam (fmul x y) (fmul x' y').
Proof.
  intros Hx Hy; destruct (is_finite x && is_finite y) eqn:F.
  - apply andb_prop in F; destruct F as [Fx Fy].
    destruct (mir_cases _ _ Hx) as [[-> ->]|[(s & -> & ->)|(_ & Fx' & Ex)]]; try discriminate.
    destruct (mir_cases _ _ Hy) as [[-> ->]|[(t & -> & ->)|(_ & Fy' & Ey)]]; try discriminate.
    apply (sam_rounded _ _ (B2R x * B2R y)); [apply fmul_correct; auto|].
    replace (B2R x * B2R y) with (B2R x' * B2R y') by (rewrite Ex, Ey; ring); apply fmul_correct; auto.
  - destruct (mir_opp _ _ Hx) as [->|[Zx Zx']], (mir_opp _ _ Hy) as [->|[Zy Zy']].
    + left; destruct x as [[|]|[|]| |[|] m e H], y as [[|]|[|]| |[|] m' e' H']; try discriminate; reflexivity.
    + left; destruct x as [[|]|[|]| |[|] m e H]; destruct y; try discriminate; destruct y'; try discriminate; reflexivity.
    + left; destruct y as [[|]|[|]| |[|] m e H]; destruct x; try discriminate; destruct x'; try discriminate; reflexivity.
    + destruct x, y; discriminate.
Qed.
Lemma sam_add x y x' y' : sam x x' -> sam y y' -> sam (fadd x y) (fadd x' y').
Proof.
  intros [->|[Zx Zx']] [->|[Zy Zy']]; try (left; reflexivity).
  - destruct y as [a|a| |], y' as [b|b| |]; try discriminate; destruct x' as [s|s| |s m e H]; try (left; reflexivity).
    right; destruct s, a, b; split; reflexivity.
  - destruct x as [a|a| |], x' as [b|b| |]; try discriminate; destruct y' as [s|s| |s m e H]; try (left; reflexivity).
    right; destruct s, a, b; split; reflexivity.
  - right; destruct x as [a|a| |], x' as [b|b| |], y as [c|c| |], y' as [d|d| |]; try discriminate;
    destruct a, b, c, d; split; reflexivity.
Qed.
Lemma sam_div x x' n : sam x x' -> is_finite n = true -> 0 < B2R n -> sam (fdiv x n) (fdiv x' n).
Proof.
  intros [->|[Zx Zx']] Fn Hn; [left; reflexivity|].
  destruct x, x'; try discriminate; destruct n as [t|t| |t m e H]; cbn in Fn, Hn; try discriminate; [lra|right; split; reflexivity].
Qed.
Lemma sam_sqrt x x' : sam x x' -> sam (fsqrt x) (fsqrt x').
Proof.
  intros [->|[Zx Zx']]; [left; reflexivity|]; destruct x, x'; try discriminate; right; split; reflexivity.
Qed.

(** ** Negated samples *)
Lemma Bopp_lt x y : flt (Bopp x) (Bopp y) = flt y x.
Proof.
  rewrite !flt_fcmp; destruct (is_nan x) eqn:Nx; [destruct x; try discriminate; destruct y as [|[|]| |[|]]; reflexivity|].
  destruct (is_nan y) eqn:Ny; [destruct y; try discriminate; destruct x as [|[|]| |[|]]; reflexivity|].
  assert (O : forall z : f64, is_nan z = false -> is_nan (Bopp z) = false /\ key (Bopp z) = - key z).
  { intros z Hz; destruct z as [s|[|]| |s m e H]; try discriminate; cbn [is_nan Bopp negb key]; split; auto; try (cbn; lra).
    rewrite <- B2R_Bopp; reflexivity. }
  destruct (O x Nx) as [Nx' Kx], (O y Ny) as [Ny' Ky].
  rewrite !fcmp_key, Kx, Ky by auto.
  destruct (Rcompare_spec (- key x) (- key y)), (Rcompare_spec (key y) (key x)); auto; lra.
Qed.

Definition opposed (s t : stats f64) : Prop :=
  s_count t = s_count s /\ s_min t = Bopp (s_max s) /\ s_max t = Bopp (s_min s) /\
  s_arg_min t = s_arg_max s /\ s_arg_max t = s_arg_min s /\ mir (s_avg s) (s_avg t) /\ sam (s_sum_squared s) (s_sum_squared t).

Lemma mir_self x : mir x (Bopp x).
Proof. left; reflexivity. Qed.
Lemma opposed_record s t x : opposed s t -> (1 <= s_count s)%nat -> fits_usize (S (s_count s)) ->
  opposed (record f64ops s x) (record f64ops t (Bopp x)).
Proof.
  intros (Hc & Hmn & Hmx & Hamn & Hamx & Ha & Hs) H1 Hf.
  unfold record; rewrite Hc; destruct (s_count s =? 0)%nat eqn:E; [apply Nat.eqb_eq in E; lia|]; cbn [negb].
  cbn [f64ops n_ltb n_sub n_add n_div n_mul n_of_nat]; rewrite Hmn, Hmx, !Bopp_lt, Hamn, Hamx.
  destruct (f_of_nat_finite (s_count s + 1)) as [Fn _]; [unfold fits_usize in Hf; lia|].
  pose proof (f_of_nat_ge1 (s_count s + 1) ltac:(lia) ltac:(unfold fits_usize in Hf; lia)) as Hn.
  set (n := f_of_nat (s_count s + 1)) in *.
  assert (Hd : mir (fsub x (s_avg s)) (fsub (Bopp x) (s_avg t))) by (apply mir_sub; auto using mir_self).
  assert (Hv : mir (fadd (s_avg s) (fdiv (fsub x (s_avg s)) n)) (fadd (s_avg t) (fdiv (fsub (Bopp x) (s_avg t)) n))).
  { apply mir_add; auto; apply mir_div; auto; lra. }
  destruct (flt x (s_min s)), (flt (s_max s) x); unfold opposed; cbn [s_count s_min s_max s_arg_min s_arg_max s_avg s_sum_squared];
  (repeat split; auto); apply sam_add; auto; apply mir_mul; auto; apply mir_sub; auto using mir_self.
Qed.
Lemma opposed_iter l : l <> [] -> fits_usize (length l) -> opposed (from_iter f64ops l) (from_iter f64ops (map fneg l)).
Proof.
  induction l as [|x l IH] using rev_ind; [congruence|]; intros _ Hf.
  rewrite map_app; cbn [map]; rewrite !from_iter_snoc.
  destruct l as [|y l'] eqn:El; [cbn; unfold opposed; cbn; repeat split; auto using mir_self, sam_refl|rewrite <- El in *].
  assert (Hl : (1 <= length l)%nat) by (rewrite El; cbn; lia).
  rewrite app_length in Hf; cbn in Hf.
  apply opposed_record.
  - apply IH; [rewrite El; discriminate|]. unfold fits_usize in *; lia.
  - rewrite from_iter_count; auto.
  - rewrite from_iter_count; unfold fits_usize in *; lia.
Qed.
Lemma negated_stats (l : list f64) : fits_usize (length l) ->
  let s := from_iter f64ops l in let t := from_iter f64ops (map fneg l) in
  st_count t = st_count s /\ st_min t = option_map fneg (st_max s) /\ st_max t = option_map fneg (st_min s) /\
  st_arg_min t = st_arg_max s /\ st_arg_max t = st_arg_min s /\
  same_shown (st_avg t) (option_map fneg (st_avg s)) /\ same_shown (st_var f64ops t) (st_var f64ops s) /\
  same_shown (st_std f64ops t) (st_std f64ops s).
Proof.
  intros Hf s t; destruct l as [|x l]; [cbn; repeat split; auto|].
  destruct (opposed_iter (x :: l) ltac:(discriminate) Hf) as (Hc & Hmn & Hmx & Hamn & Hamx & Ha & Hs).
  fold s in Hc, Hmn, Hmx, Hamn, Hamx, Ha, Hs; fold t in Hc, Hmn, Hmx, Hamn, Hamx, Ha, Hs.
  assert (Ec : s_count s = S (length l)) by (unfold s; now rewrite from_iter_count).
  assert (Hv : match st_var f64ops t, st_var f64ops s with Some a, Some b => sam b a | _, _ => False end).
  { unfold st_var; rewrite Hc, Ec; destruct (length l) as [|k] eqn:El; [apply sam_refl|].
    replace (S (S k) - 1)%nat with (S k) by lia; cbn [f64ops n_div n_of_nat].
    assert (Hk : (Z.of_nat (S k) <= usize_max)%Z) by (cbn in Hf; rewrite El in Hf; unfold fits_usize in Hf; lia).
    apply sam_div; auto; [apply f_of_nat_finite; auto|].
    pose proof (f_of_nat_ge1 (S k) ltac:(lia) Hk); lra. }
  assert (Hsym : forall a b, sam a b -> same_number b a).
  { intros a b [->|[H1 H2]]; apply sam_number; [left|right]; auto. }
  unfold st_count, st_min, st_max, st_arg_min, st_arg_max, st_avg; rewrite Hc, Ec; cbn [option_map].
  rewrite Hmn, Hmx, Hamn, Hamx; (repeat split; auto).
  - cbn; apply Hsym; exact Ha.
  - destruct (st_var f64ops t), (st_var f64ops s); try tauto; cbn; now apply Hsym.
  - unfold st_std; destruct (st_var f64ops t), (st_var f64ops s); try tauto; cbn; now apply Hsym, sam_sqrt.
Qed.

(** ** Equal samples *)
Definition level (x : f64) (s : stats f64) : Prop :=
  sam (s_avg s) x /\ s_sum_squared s = f0.
Lemma sam_fin x y : sam x y -> is_finite y = true -> is_finite x = true /\ B2R x = B2R y.
Proof. intros [->|[Hx Hy]] F; auto; destruct x, y; try discriminate; split; reflexivity. Qed.
Lemma zero_rounded z : rounded_to z 0 -> zerob z = true.
Proof.
  intros (Hn & Hk & Hf & Hv); rewrite rnd_0 in *; pose proof big_pos.
  assert (F : is_finite z = true) by (apply Hf; lra); apply B2R_zerob; auto.
Qed.
Lemma level_record x s y : is_finite x = true -> (1 <= s_count s)%nat -> fits_usize (S (s_count s)) -> sam y x -> level x s ->
  level x (record f64ops s y).
Proof.
  intros Fx H1 Hf Hy [Ha Hs].
  destruct (sam_fin _ _ Hy Fx) as [Fy Ey], (sam_fin _ _ Ha Fx) as [Fa Ea].
  unfold record; destruct (s_count s =? 0)%nat eqn:E; [apply Nat.eqb_eq in E; lia|]; cbn [negb].
  cbn [f64ops n_ltb n_sub n_add n_div n_mul n_of_nat].
  pose proof (f_of_nat_ge1 (s_count s + 1) ltac:(lia) ltac:(unfold fits_usize in Hf; lia)) as Hn.
  destruct (f_of_nat_finite (s_count s + 1)) as [Fn _]; [unfold fits_usize in Hf; lia|].
  set (n := f_of_nat (s_count s + 1)) in *.
  assert (Zd : zerob (fsub y (s_avg s)) = true).
  { apply zero_rounded; replace 0 with (B2R y - B2R (s_avg s)) by lra; apply fsub_correct; auto. }
  set (d := fsub y (s_avg s)) in *.
  assert (Zq : zerob (fdiv d n) = true).
  { destruct d; try discriminate; destruct n as [t|t| |t m e H]; cbn in Fn, Hn; try discriminate; [lra|reflexivity]. }
  set (q := fdiv d n) in *.
  assert (Ha' : sam (fadd (s_avg s) q) x).
  { destruct q as [a|a| |]; try discriminate; destruct (s_avg s) as [b|b| |b m e H] eqn:Es; try discriminate.
    - destruct Ha as [<-|[_ Zx]]; right; (split; [destruct a, b; reflexivity|auto]).
    - exact Ha. }
  set (v := fadd (s_avg s) q) in *.
  destruct (sam_fin _ _ Ha' Fx) as [Fv Ev].
  assert (Ze : zerob (fsub y v) = true).
  { apply zero_rounded; replace 0 with (B2R y - B2R v) by lra; apply fsub_correct; auto. }
  set (e := fsub y v) in *.
  destruct (flt y (s_min s)), (flt (s_max s) y); (split; [exact Ha'|]); cbn [s_sum_squared]; rewrite Hs;
  destruct d as [a|a| |]; try discriminate; destruct e as [b|b| |]; try discriminate; destruct a, b; reflexivity.
Qed.
Lemma level_iter l x : l <> [] -> fits_usize (length l) -> is_finite x = true -> (forall y, In y l -> sam y x) -> level x (from_iter f64ops l).
Proof.
  intros Hl Hf Fx Hall; induction l as [|y l IH] using rev_ind; [congruence|].
  rewrite from_iter_snoc; destruct l as [|z l'] eqn:El.
  - cbn; split; [apply Hall; cbn; auto|reflexivity].
  - rewrite <- El in *; assert (Hn : (1 <= length l)%nat) by (rewrite El; cbn; lia); rewrite app_length in Hf; cbn in Hf.
    apply level_record; auto.
    + rewrite from_iter_count; auto.
    + rewrite from_iter_count; unfold fits_usize in *; lia.
    + apply Hall, in_or_app; cbn; auto.
    + apply IH; [rewrite El; discriminate|unfold fits_usize in *; lia|]; intros w Hw; apply Hall, in_or_app; auto.
Qed.
Lemma equal_stats (l : list f64) (x : f64) : l <> [] -> fits_usize (length l) -> is_finite x = true ->
  (forall y, In y l -> feq y x = true) ->
  let s := from_iter f64ops l in
  st_var f64ops s = Some f0 /\ st_std f64ops s = Some f0 /\ (exists a, st_avg s = Some a /\ feq a x = true).
Proof.
  intros Hl Hf Fx Hall s.
  destruct (level_iter l x Hl Hf Fx) as [Ha Hs].
  { intros y Hy; apply number_sam; left; auto. }
  fold s in Ha, Hs; assert (Ec : s_count s = length l) by (unfold s; apply from_iter_count).
  assert (Hv : st_var f64ops s = Some f0).
  { unfold st_var; rewrite Ec; destruct l as [|y [|z l']]; [congruence|reflexivity|].
    change (length (y :: z :: l')) with (S (S (length l'))); cbn beta iota; rewrite Hs; cbn [f64ops n_div n_of_nat]; f_equal.
    replace (S (S (length l')) - 1)%nat with (S (length l')) by lia.
    assert (Hk : (Z.of_nat (S (length l')) <= usize_max)%Z) by (cbn in Hf; unfold fits_usize in Hf; lia).
    destruct (f_of_nat_finite _ Hk) as [Fn _]; pose proof (f_of_nat_ge1 (S (length l')) ltac:(lia) Hk) as Hn.
    assert (Sn : Bsign (f_of_nat (S (length l'))) = false).
    { destruct (Bsign (f_of_nat (S (length l')))) eqn:Es; auto; pose proof (Bsign_neg _ Es); lra. }
    destruct (f_of_nat (S (length l'))) as [t|t| |t m e H]; cbn in Fn, Hn, Sn; try discriminate; [lra|subst t; reflexivity]. }
  split; [exact Hv|]; split; [unfold st_std; rewrite Hv; reflexivity|].
  exists (s_avg s); split; [unfold st_avg; rewrite Ec; destruct l; [congruence|reflexivity]|].
  destruct (sam_number _ _ Ha) as [H|[_ H]]; auto; destruct x; discriminate.
Qed.
Lemma zero_variance_refuted :
  exists l : list f64, (forall x, In x l -> is_finite x = true) /\ st_var f64ops (from_iter f64ops l) = Some f0 /\
  exists x y, In x l /\ In y l /\ feq x y = false.
Proof.
  exists [f0; f_lit 1 (10 ^ 200)]; split; [intros x [<-|[<-|[]]]; reflexivity|].
  split; [vm_compute; reflexivity|].
  exists f0, (f_lit 1 (10 ^ 200)); cbn [In]; repeat split; auto.
Qed.

(** ** Reordered samples *)
Lemma sumR_perm l l' : Permutation l l' -> sumR l = sumR l'.
Proof. induction 1; cbn; lra. Qed.
Lemma reordered_exact (l l' : list R) : Permutation l l' ->
  st_avg (from_iter Rops l) = st_avg (from_iter Rops l') /\ st_var Rops (from_iter Rops l) = st_var Rops (from_iter Rops l') /\
  st_std Rops (from_iter Rops l) = st_std Rops (from_iter Rops l').
Proof.
  intros Hp; destruct l as [|x t].
  - apply Permutation_nil in Hp; subst; auto.
  - assert (Hl : x :: t <> []) by discriminate.
    assert (Hl' : l' <> []) by (intros ->; apply Permutation_sym, Permutation_nil in Hp; discriminate).
    remember (x :: t) as l eqn:El; clear El.
    destruct (welford_formulas l Hl) as [Ha Hv], (welford_formulas l' Hl') as [Ha' Hv'].
    assert (E : st_var Rops (from_iter Rops l) = st_var Rops (from_iter Rops l')).
    { rewrite Hv, Hv', (Permutation_length Hp), (sumR_perm _ _ Hp); destruct (length l' =? 1)%nat; auto; do 2 f_equal.
      apply sumR_perm, Permutation_map, Hp. }
    rewrite Ha, Ha', (Permutation_length Hp), (sumR_perm _ _ Hp); unfold st_std; rewrite E; auto.
Qed.
Lemma reordered_refuted :
  exists l l' : list f64, Permutation l l' /\ (forall x, In x l -> is_finite x = true) /\
  match st_avg (from_iter f64ops l), st_avg (from_iter f64ops l') with Some a, Some b => feq a b = false | _, _ => False end /\
  match st_var f64ops (from_iter f64ops l), st_var f64ops (from_iter f64ops l') with Some a, Some b => feq a b = false | _, _ => False end.
Proof.
  exists [f0; f1; f_of_Z 3], [f0; f_of_Z 3; f1]; split; [apply perm_skip, perm_swap|].
  split; [intros x [<-|[<-|[<-|[]]]]; reflexivity|]; vm_compute; auto.
Qed.
Lemma same_example :
  let l := [f_lit 1 10; f_lit 1 10; f_lit 1 10] in let l' := [f0; f_of_Z 3; f1; f_of_Z 3] in
  (forall y, In y l -> feq y (f_lit 1 10) = true) /\ st_std f64ops (from_iter f64ops l) = Some f0 /\
  st_arg_max (from_iter f64ops l') = Some 1%nat /\ st_arg_min (from_iter f64ops (map fneg l')) = Some 1%nat /\
  match st_var f64ops (from_iter f64ops l') with Some v => feq v (f_lit 9 4) | None => false end = true.
Proof.
  split; [intros y [<-|[<-|[<-|[]]]]; vm_compute; reflexivity|]; vm_compute; auto.
Qed.
