(** * PDisplay: displayed statistics (C112). *)
From Coq Require Import List Bool Arith ZArith Lia String Ascii Decimal DecimalString DecimalNat DecimalPos DecimalZ.
From Flocq Require Import Core BinarySingleNaN.
From Verif Require Import F64 MStats MDisplay SpecN PStats.
Import ListNotations.
Open Scope string_scope.

Lemma app_cons a s t : String a s ++ t = String a (s ++ t).
Proof. reflexivity. Qed.
Lemma app_assoc' (s t u : string) : (s ++ t) ++ u = s ++ t ++ u.
Proof. induction s as [|a s IH]; cbn; congruence. Qed.
Lemma has_app c s t : has_char c (s ++ t) = has_char c s || has_char c t.
Proof. induction s as [|a s IH]; cbn; auto; rewrite IH; apply orb_assoc. Qed.

Lemma fields_none c s : has_char c s = false -> fields c s = [s].
Proof.
  induction s as [|a s IH]; cbn; auto; intros H; apply orb_false_iff in H as [H1 H2]; rewrite H1, (IH H2); auto.
Qed.
Lemma fields_app c s t : has_char c s = false -> fields c (s ++ String c t) = s :: fields c t.
Proof.
  induction s as [|a s IH]; cbn; intros H; [rewrite Ascii.eqb_refl; auto|].
  apply orb_false_iff in H as [H1 H2]; rewrite H1, (IH H2); auto.
Qed.

Lemma digits_plain d : has_char ";" (NilEmpty.string_of_uint d) = false.
Proof. induction d; cbn; auto. Qed.
Lemma count_plain n : has_char ";" (show_count n) = false.
Proof. apply digits_plain. Qed.
Lemma count_inj n m : show_count n = show_count m -> n = m.
Proof.
  unfold show_count; intros H; apply (f_equal NilEmpty.uint_of_string) in H; rewrite !NilEmpty.usu in H; injection H as H.
  rewrite <- (DecimalNat.Unsigned.of_to n), <- (DecimalNat.Unsigned.of_to m); congruence.
Qed.
Lemma app_inj (s t u : string) : s ++ t = s ++ u -> t = u.
Proof. induction s as [|a s IH]; cbn; auto; intros [= H]; auto. Qed.

Section Display.
Context (show : option nat -> f64 -> string).
Hypothesis Hp : plain_show show.

Definition parts (f : fmt_spec) (p : populated f64) : list string :=
  ["Samples: " ++ show_count (ps_count p); " Min: " ++ show (fs_precision f) (ps_min p); " Max: " ++ show (fs_precision f) (ps_max p);
   " Average: " ++ show (fs_precision f) (ps_avg p); " Variance: " ++ show (fs_precision f) (ps_var f64ops p);
   " STD: " ++ show (fs_precision f) (ps_std f64ops p)].

Lemma display_form f p : display_populated show f p =
  "Samples: " ++ show_count (ps_count p) ++ "; Min: " ++ show (fs_precision f) (ps_min p) ++ "; Max: " ++ show (fs_precision f) (ps_max p) ++
  "; Average: " ++ show (fs_precision f) (ps_avg p) ++ "; Variance: " ++ show (fs_precision f) (ps_var f64ops p) ++
  "; STD: " ++ show (fs_precision f) (ps_std f64ops p).
Proof. unfold display_populated; destruct (fs_precision f); reflexivity. Qed.

Lemma plain_prefix (a b : string) : has_char ";" a = false -> has_char ";" b = false -> has_char ";" (a ++ b) = false.
Proof. intros H1 H2; rewrite has_app, H1, H2; reflexivity. Qed.

Lemma populated_fields f p : fields ";" (display_populated show f p) = parts f p.
Proof.
  rewrite display_form; unfold parts.
  change ("; Min: " ++ ?x) with (String ";" (" Min: " ++ x)).
  change ("; Max: " ++ ?x) with (String ";" (" Max: " ++ x)).
  change ("; Average: " ++ ?x) with (String ";" (" Average: " ++ x)).
  change ("; Variance: " ++ ?x) with (String ";" (" Variance: " ++ x)).
  change ("; STD: " ++ ?x) with (String ";" (" STD: " ++ x)).
  rewrite <- !app_assoc'.
  rewrite !fields_app, fields_none; try reflexivity; apply plain_prefix; try reflexivity; try apply Hp; apply count_plain.
Qed.

Lemma stats_fields f (s : stats f64) p : snapshot s = Some p ->
  fields ";" (display_stats show f s) =
  ["Samples: " ++ show_count (ps_count p); " Min: " ++ show (fs_precision f) (ps_min p); " Max: " ++ show (fs_precision f) (ps_max p);
   " Average: " ++ show (fs_precision f) (ps_avg p); " Variance: " ++ show (fs_precision f) (ps_var f64ops p);
   " STD: " ++ show (fs_precision f) (ps_std f64ops p)].
Proof. intros E; unfold display_stats; rewrite E; apply populated_fields. Qed.

Lemma display_empty f (s : stats f64) : display_stats show f s = "" <-> st_count s = 0.
Proof.
  unfold display_stats, snapshot, st_count; destruct (s_count s) eqn:E; cbn [negb Nat.eqb]; [tauto|].
  rewrite display_form; cbn; split; intros H; discriminate.
Qed.

Lemma display_options f g (s : stats f64) : fs_precision f = fs_precision g -> display_stats show f s = display_stats show g s.
Proof. intros E; unfold display_stats, display_populated; destruct (snapshot s); auto; rewrite E; reflexivity. Qed.

Lemma display_determines f (s t : stats f64) p q : snapshot s = Some p -> snapshot t = Some q ->
  display_stats show f s = display_stats show f t ->
  st_count s = st_count t /\ show (fs_precision f) (ps_min p) = show (fs_precision f) (ps_min q) /\
  show (fs_precision f) (ps_max p) = show (fs_precision f) (ps_max q) /\ show (fs_precision f) (ps_avg p) = show (fs_precision f) (ps_avg q) /\
  show (fs_precision f) (ps_var f64ops p) = show (fs_precision f) (ps_var f64ops q) /\
  show (fs_precision f) (ps_std f64ops p) = show (fs_precision f) (ps_std f64ops q).
Proof.
  intros Hs Ht H; pose proof (stats_fields f s p Hs) as A; rewrite H, (stats_fields f t q Ht) in A; clear H.
  assert (Ec : ps_count p = st_count s /\ ps_count q = st_count t).
  { unfold snapshot in Hs, Ht; destruct (negb _) in Hs; [|discriminate]; destruct (negb _) in Ht; [|discriminate].
    injection Hs as <-; injection Ht as <-; split; reflexivity. }
  destruct Ec as [<- <-].
  injection A as A1 A2 A3 A4 A5 A6; split; [apply count_inj; auto|]; repeat split; auto.
Qed.

Lemma display_exact f (s t : stats f64) : exact_show show -> fs_precision f = None ->
  display_stats show f s = display_stats show f t ->
  st_count s = st_count t /\ st_min s = st_min t /\ st_max s = st_max t /\ st_avg s = st_avg t /\
  st_var f64ops s = st_var f64ops t /\ st_std f64ops s = st_std f64ops t.
Proof.
  intros Hx Hf H; destruct (snapshot s) as [p|] eqn:Es, (snapshot t) as [q|] eqn:Et.
  - destruct (display_determines f s t p q Es Et H) as (A1 & A2 & A3 & A4 & A5 & A6); rewrite Hf in *.
    apply Hx in A2, A3, A4, A5, A6.
    destruct (accessors_agree f64ops s p Es) as (_ & B1 & _ & B2 & _ & B3 & B4 & B5).
    destruct (accessors_agree f64ops t q Et) as (_ & C1 & _ & C2 & _ & C3 & C4 & C5).
    rewrite B1, B2, B3, B4, B5, C1, C2, C3, C4, C5; repeat split; congruence.
  - exfalso; assert (Z : st_count t = 0) by (unfold snapshot, st_count in *; destruct (s_count t); [auto|discriminate]).
    apply (display_empty f) in Z; rewrite Z in H; apply display_empty in H; unfold snapshot, st_count in *; rewrite H in Es; discriminate.
  - exfalso; assert (Z : st_count s = 0) by (unfold snapshot, st_count in *; destruct (s_count s); [auto|discriminate]).
    apply (display_empty f) in Z; rewrite Z in H; symmetry in H; apply display_empty in H; unfold snapshot, st_count in *; rewrite H in Et; discriminate.
  - assert (Z : s_count s = 0) by (unfold snapshot in Es; destruct (s_count s); [auto|discriminate]).
    assert (Z' : s_count t = 0) by (unfold snapshot in Et; destruct (s_count t); [auto|discriminate]).
    unfold st_count, st_min, st_max, st_avg, st_std, st_var; rewrite Z, Z'; repeat split; auto.
Qed.
End Display.

Lemma pad_plain n s : has_char ";" s = false -> has_char ";" (pad_left n s) = false.
Proof. revert s; induction n as [|n IH]; intros s H; cbn; auto. Qed.
Lemma sub_plain s : forall n m, has_char ";" s = false -> has_char ";" (substring n m s) = false.
Proof.
  induction s as [|a s IH]; intros n m H; [destruct n, m; auto|].
  cbn in H; apply orb_false_iff in H as [H1 H2]; destruct n as [|n]; [destruct m as [|m]; cbn [substring has_char]; auto; rewrite H1; cbn; auto|cbn [substring]; auto].
Qed.
Lemma fixed_plain : plain_show fixed_show.
Proof.
  intros prec x; unfold fixed_show.
  assert (M : forall p m e, has_char ";" (fixed_magnitude p m e) = false).
  { intros p m e; unfold fixed_magnitude; cbv zeta; destruct p as [|p]; [apply pad_plain, digits_plain|].
    apply plain_prefix; [apply sub_plain, pad_plain, digits_plain|]; apply plain_prefix; [reflexivity|apply sub_plain, pad_plain, digits_plain]. }
  destruct x as [s|s| |s m e Hb]; try reflexivity; try (destruct s; reflexivity); (apply plain_prefix; [destruct s; reflexivity|apply M]).
Qed.

Lemma int_plain i : has_char ";" (NilEmpty.string_of_int i) = false.
Proof. destruct i as [d|d]; cbn; apply digits_plain. Qed.
Lemma raw_plain : plain_show raw_show.
Proof.
  intros prec x; unfold raw_show; destruct x as [s|s| |s m e Hb]; try (destruct s; reflexivity); try reflexivity.
  apply plain_prefix; [destruct s; reflexivity|]; apply plain_prefix; [apply digits_plain|]; apply plain_prefix; [reflexivity|apply int_plain].
Qed.
Lemma digits_no_b d : has_char "b" (NilEmpty.string_of_uint d) = false.
Proof. induction d; cbn; auto. Qed.
Lemma int_no_b i : has_char "b" (NilEmpty.string_of_int i) = false.
Proof. destruct i as [d|d]; cbn; apply digits_no_b. Qed.
Lemma raw_parts s m e Hb : fields "b" (raw_show None (B754_finite s m e Hb)) =
  [(if s then "-" else "+") ++ NilEmpty.string_of_uint (Pos.to_uint m); NilEmpty.string_of_int (Z.to_int e)].
Proof.
  unfold raw_show; change ("b" ++ ?x) with (String "b" x); rewrite <- app_assoc'.
  rewrite fields_app, fields_none; auto using int_no_b.
  rewrite has_app, digits_no_b; destruct s; reflexivity.
Qed.
Lemma raw_exact : exact_show raw_show.
Proof.
  intros x y H.
  assert (F : forall s m e Hb z, raw_show None (B754_finite s m e Hb) = raw_show None z -> B754_finite s m e Hb = z).
  { clear; intros s m e Hb z H; pose proof (raw_parts s m e Hb) as A; rewrite H in A.
    destruct z as [s'|s'| |s' m' e' Hb']; try (destruct s'; discriminate A); try discriminate A.
    rewrite raw_parts in A; injection A as A1 A2.
    assert (Es : s = s') by (destruct s, s'; auto; discriminate A1); subst s'; apply app_inj in A1.
    apply (f_equal NilEmpty.uint_of_string) in A1; rewrite !NilEmpty.usu in A1; injection A1 as A1.
    apply (f_equal NilEmpty.int_of_string) in A2; rewrite !NilEmpty.isi in A2; injection A2 as A2.
    apply DecimalPos.Unsigned.to_uint_inj in A1; apply (f_equal Z.of_int) in A2; rewrite !DecimalZ.of_to in A2; subst.
    f_equal; apply Eqdep_dec.UIP_dec, Bool.bool_dec. }
  destruct x as [s|s| |s m e Hb]; [| | |apply F; exact H];
    (destruct y as [s'|s'| |s' m' e' Hb']; [| | |symmetry; apply F; symmetry; exact H]);
    try destruct s; try destruct s'; try discriminate H; reflexivity.
Qed.

Lemma display_snapshot show f (s : stats f64) p : snapshot s = Some p -> display_populated show f p = display_stats show f s.
Proof. intros E; unfold display_stats; rewrite E; reflexivity. Qed.

Lemma c112_example :
  let f := mkSpec " " None false false false None (Some 2) in
  plain_show fixed_show /\ plain_show raw_show /\ exact_show raw_show /\
  display_stats fixed_show f (from_iter f64ops [f_of_nat 3; f_of_nat 5]) =
    "Samples: 2; Min: 3.00; Max: 5.00; Average: 4.00; Variance: 2.00; STD: 1.41" /\
  display_stats fixed_show f (from_iter f64ops [f_of_nat 3; f_of_nat 5; f_of_nat 2; f_of_nat 4]) =
    "Samples: 4; Min: 2.00; Max: 5.00; Average: 3.50; Variance: 1.67; STD: 1.29" /\
  display_stats fixed_show f (from_iter f64ops [f_of_nat 3; f_of_nat 5; f_of_nat 2; f_of_nat 4; f_of_nat 1]) =
    "Samples: 5; Min: 1.00; Max: 5.00; Average: 3.00; Variance: 2.50; STD: 1.58".
Proof. split; [exact fixed_plain|]; split; [exact raw_plain|]; split; [exact raw_exact|]; repeat split; vm_compute; reflexivity. Qed.
