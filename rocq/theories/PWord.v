(** * PWord: overflow checks and the width of usize (C97). *)
From Coq Require Import List Arith NArith ZArith Lia Bool.
From Flocq Require Import BinarySingleNaN.
From Verif Require Import Rnd Prob F64 MOperators MStats MPopulation MSelection MWord SpecW ExF LRnd PSelection.
Import ListNotations.

Lemma same_refl {A} (m : M A) : same_execution m m.
Proof. induction m; cbn; auto. Qed.

Lemma same_bind {A B} (m m' : M A) (f g : A -> M B) :
  same_execution m m' -> (forall a, may m a -> same_execution (f a) (g a)) -> same_execution (bind m f) (bind m' g).
Proof.
  revert m'; induction m as [a|e|n k IH|n k IH]; intros [b|e'|n' k'|n' k']; cbn; try tauto.
  - intros -> H; auto.
  - intros [-> H] Hf; split; auto; intros i Hi; apply IH; auto; intros a Ha; apply Hf; eauto.
  - intros [-> H] Hf; split; auto; intros i Hi; apply IH; auto; intros a Ha; apply Hf; eauto.
Qed.

Lemma same_assoc {A B C} (m : M A) (f : A -> M B) (g : B -> M C) :
  same_execution (bind (bind m f) g) (bind m (fun a => bind (f a) g)).
Proof. induction m as [a|e|n k IH|n k IH]; cbn; auto; apply same_refl. Qed.

Definition room (w : nat) : N := (2 ^ N.of_nat w)%N.

Lemma up_fits o w v : (N.of_nat v < room w)%N -> usize_up o w v = Ret v.
Proof. intros H; unfold usize_up; fold (room w); destruct (N.ltb_spec (N.of_nat v) (room w)); auto; lia. Qed.

Section Rank.
Context {I : Type}.

Lemma loop_fits o w target (l : list I) k :
  tri k < target -> target <= tri (k + length l) -> (2 * N.of_nat target <= room w)%N -> (2 * N.of_nat (k + length l) <= room w)%N ->
  rank_loop_word o w target (tri k) k l = Ret (rank_loop target (tri k) k l).
Proof.
  revert k; induction l as [|h t IH]; intros k H1 H2 Hw Hl; cbn [length rank_loop rank_loop_word] in *; auto.
  rewrite up_fits by lia; cbn [bind]; rewrite up_fits by lia; cbn [bind].
  rewrite <- !tri_S; destruct (Nat.leb_spec target (tri (S k))) as [H|H]; auto.
  apply IH; auto; replace (S k + length t) with (k + S (length t)) by lia; auto.
Qed.

(** The total actually used *)
Definition reduced (w n : nat) : nat := N.to_nat ((N.of_nat n * (N.of_nat n + 1)) mod room w / 2).

Lemma reduced_small w n : (N.of_nat n * (N.of_nat n + 1) < room w)%N -> reduced w n = tri n.
Proof.
  intros H; unfold reduced; rewrite N.mod_small by auto; unfold tri.
  rewrite N2Nat.inj_div, N2Nat.inj_mul, N2Nat.inj_add, Nat2N.id; reflexivity.
Qed.

Lemma room_pos w : (0 < room w)%N.
Proof. apply N.neq_0_lt_0, N.pow_nonzero; lia. Qed.

Lemma reduced_le w n : reduced w n <= tri n.
Proof.
  unfold reduced; pose proof (N.mod_le (N.of_nat n * (N.of_nat n + 1)) (room w)) as H; pose proof (room_pos w).
  unfold tri; rewrite <- (Nat2N.id n) at 2 3.
  rewrite N2Nat.inj_div; apply Nat.div_le_mono; [discriminate|].
  replace (N.to_nat (N.of_nat n) * (N.to_nat (N.of_nat n) + 1)) with (N.to_nat (N.of_nat n * (N.of_nat n + 1))) by lia.
  enough (((N.of_nat n * (N.of_nat n + 1)) mod room w <= N.of_nat n * (N.of_nat n + 1))%N) by lia.
  apply H; lia.
Qed.

Lemma reduced_room w n : (2 * N.of_nat (reduced w n) <= room w)%N.
Proof.
  unfold reduced; rewrite N2Nat.id; pose proof (room_pos w).
  pose proof (N.mod_lt (N.of_nat n * (N.of_nat n + 1)) (room w) ltac:(lia)) as H1.
  pose proof (N.mul_div_le ((N.of_nat n * (N.of_nat n + 1)) mod room w) 2 ltac:(lia)); lia.
Qed.

(** Without a panic the selection draws below the reduced total. *)
Lemma word_rank o w (p : population I) : (2 * N.of_nat (length (individuals p)) <= room w)%N ->
  1 <= length (individuals p) -> 2 <= w ->
  o = Wrapping \/ (N.of_nat (length (individuals p)) * (N.of_nat (length (individuals p)) + 1) < room w)%N ->
  same_execution (rank_select_word o w p)
    (target <- gen_range_incl 1 (reduced w (length (individuals p))) ;;
     match rank_loop target 0 0 (individuals p) with Some r => Ret r | None => Fail Panic end).
Proof.
  intros Hn Hn1 Hw2 Ho; unfold rank_select_word; set (n := length (individuals p)) in *.
  assert (Hr : (4 <= room w)%N).
  { unfold room; change 4%N with (2 ^ 2)%N; apply N.pow_le_mono_r; lia. }
  rewrite up_fits by lia; cbn [bind].
  assert (E : exists v, usize_up o w (n * (n + 1)) = Ret v /\ v / 2 = reduced w n).
  { destruct (N.ltb_spec (N.of_nat n * (N.of_nat n + 1)) (room w)) as [H|H].
    - exists (n * (n + 1)); split; [apply up_fits; lia|rewrite reduced_small by auto; reflexivity].
    - destruct Ho as [->|Ho]; [|lia]; unfold usize_up; fold (room w).
      destruct (N.ltb_spec (N.of_nat (n * (n + 1))) (room w)) as [H'|_]; [lia|].
      eexists; split; [reflexivity|]; unfold reduced; rewrite N2Nat.inj_div.
      replace (N.of_nat (n * (n + 1))) with (N.of_nat n * (N.of_nat n + 1))%N by lia; reflexivity. }
  destruct E as (v & -> & Ev); cbn [bind]; rewrite Ev.
  apply same_bind; [apply same_refl|]; intros t Ht; apply may_gen_range_incl in Ht.
  pose proof (reduced_le w n) as Hle; pose proof (reduced_room w n) as Hrr.
  change 0 with (tri 0) at 1 3; rewrite loop_fits; [| | |lia|]; cbn [bind Nat.add]; fold n; try lia; [|change (tri 0) with 0; lia].
  change (tri 0) with 0; destruct (rank_at t p) as (i & x & -> & _); [fold n; lia|reflexivity].
Qed.

Lemma same_sym {A} (m m' : M A) : same_execution m m' -> same_execution m' m.
Proof.
  revert m'; induction m as [a|e|n k IH|n k IH]; intros [b|e'|n' k'|n' k']; cbn; try tauto; auto;
  intros [-> H]; split; auto.
Qed.
Lemma same_trans {A} (m1 m2 m3 : M A) : same_execution m1 m2 -> same_execution m2 m3 -> same_execution m1 m3.
Proof.
  revert m2 m3; induction m1 as [a|e|n k IH|n k IH]; intros [b|e'|n' k'|n' k'] [c|e3|n3 k3|n3 k3]; cbn; try tauto; try congruence;
  intros [-> H] [-> H']; split; auto; intros i Hi; eapply IH; eauto.
Qed.
Lemma same_may {A} (m m' : M A) v : same_execution m m' -> may m v -> may m' v.
Proof.
  revert m'; induction m as [a|e|n k IH|n k IH]; intros [b|e'|n' k'|n' k']; cbn; try tauto; try congruence;
  intros [-> H] (i & Hi & Hv); exists i; split; auto; eapply IH; eauto.
Qed.
Lemma same_must {A} (m m' : M A) P : same_execution m m' -> must m P -> must m' P.
Proof.
  revert m'; induction m as [a|e|n k IH|n k IH]; intros [b|e'|n' k'|n' k']; cbn; try tauto; try congruence;
  intros [-> H] (Hn & Hk); split; auto; intros i Hi; eapply IH; eauto.
Qed.
Lemma same_must_fail {A} (m m' : M A) e : same_execution m m' -> must_fail m e -> must_fail m' e.
Proof.
  revert m'; induction m as [a|e1|n k IH|n k IH]; intros [b|e'|n' k'|n' k']; cbn; try tauto; try congruence;
  intros [-> H] (Hn & Hk); split; auto; intros i Hi; eapply IH; eauto.
Qed.

Lemma product_room w n : (N.of_nat n * (N.of_nat n + 1) < room w)%N -> 1 <= n -> (2 * N.of_nat n <= room w)%N /\ 2 <= w.
Proof.
  intros H Hn; split; [nia|].
  destruct w as [|[|w]]; [change (room 0) with 1%N in H; nia|change (room 1) with 2%N in H; nia|lia].
Qed.

(** Small populations: the build does not matter. *)
Lemma rank_small (io : individual_ops I) (fexp : f64 -> f64) o w (p : population I) :
  (N.of_nat (length (individuals p)) * (N.of_nat (length (individuals p)) + 1) < 2 ^ N.of_nat w)%N ->
  same_execution (rank_select_word o w p) (select io fexp Rank p).
Proof.
  intros H; fold (room w) in H; set (n := length (individuals p)) in *.
  destruct (Nat.eq_dec n 0) as [E|E].
  - unfold rank_select_word; cbn [select]; unfold rank_select; fold n; rewrite E.
    assert (Hr : (1 <= room w)%N) by (pose proof (room_pos w); lia).
    unfold usize_up at 1; fold (room w); destruct (N.ltb_spec (N.of_nat (0 + 1)) (room w)) as [H1|H1].
    + cbn [bind]; rewrite up_fits by (cbn; lia); cbn; auto.
    + destruct o; cbn [bind].
      * cbn; auto.
      * change (0 * N.to_nat (N.of_nat (0 + 1) mod 2 ^ N.of_nat w)) with 0.
        rewrite up_fits by (cbn; lia); cbn; auto.
  - destruct (product_room w n H ltac:(lia)) as [H2 Hw].
    eapply same_trans; [apply word_rank; auto; fold n; lia|].
    cbn [select]; unfold rank_select; fold n; rewrite reduced_small by auto; fold (tri n).
    apply same_bind; [apply same_refl|]; intros t Ht; apply may_gen_range_incl in Ht.
    destruct (rank_at t p) as (i & x & -> & _); [fold n; lia|apply same_refl].
Qed.

Lemma rank_checked w (p : population I) :
  (2 ^ N.of_nat w <= N.of_nat (length (individuals p)) * (N.of_nat (length (individuals p)) + 1))%N ->
  must_fail (rank_select_word Checked w p) Panic.
Proof.
  intros H; fold (room w) in H; unfold rank_select_word; set (n := length (individuals p)) in *.
  unfold usize_up at 1; fold (room w); destruct (N.ltb_spec (N.of_nat (n + 1)) (room w)) as [H1|H1]; cbn [bind]; [|reflexivity].
  unfold usize_up at 1; fold (room w); destruct (N.ltb_spec (N.of_nat (n * (n + 1))) (room w)) as [H2|H2]; cbn [bind]; [lia|reflexivity].
Qed.

Lemma reduced_fittest w n : (2 * N.of_nat n <= room w)%N -> (room w <= N.of_nat n * (N.of_nat n + 1))%N -> reduced w n <= tri (n - 1).
Proof.
  intros H1 H2; unfold reduced.
  assert (Hm : ((N.of_nat n * (N.of_nat n + 1)) mod room w <= N.of_nat n * (N.of_nat n + 1) - room w)%N).
  { pose proof (room_pos w) as Hp; rewrite N.mod_eq by lia.
    assert (1 <= N.of_nat n * (N.of_nat n + 1) / room w)%N by (apply N.div_le_lower_bound; lia).
    nia. }
  assert (Hn : 1 <= n) by (pose proof (room_pos w); destruct n; [cbn in H2|]; lia).
  pose proof (tri_double (n - 1)) as Ht; replace (n - 1 + 1) with n in Ht by lia.
  pose proof (N.mul_div_le ((N.of_nat n * (N.of_nat n + 1)) mod room w) 2 ltac:(lia)).
  nia.
Qed.

(** Large populations without overflow checks *)
Lemma rank_wrapping w (p : population I) :
  let n := length (individuals p) in
  let total := N.to_nat ((N.of_nat n * (N.of_nat n + 1)) mod 2 ^ N.of_nat w / 2) in
  2 <= w -> (2 * N.of_nat n <= 2 ^ N.of_nat w)%N -> (2 ^ N.of_nat w <= N.of_nat n * (N.of_nat n + 1))%N ->
  (total = 0 -> must_fail (rank_select_word Wrapping w p) Panic) /\
  (total <> 0 -> must (rank_select_word Wrapping w p) (fun _ => True)) /\
  (forall i x, may (rank_select_word Wrapping w p) (i, x) <->
     nth_error (individuals p) i = Some x /\ i * (i + 1) / 2 < total) /\
  (forall i x, may (rank_select_word Wrapping w p) (i, x) -> i < n - 1).
Proof.
  cbv zeta; fold (room w); intros Hw H1 H2; change (N.to_nat _) with (reduced w (length (individuals p))).
  set (n := length (individuals p)) in *.
  assert (Hn : 1 <= n) by (pose proof (room_pos w); destruct n; [cbn in H2|]; lia).
  pose proof (word_rank Wrapping w p H1 Hn Hw (or_introl eq_refl)) as HS; fold n in HS.
  pose proof (reduced_le w n) as Hle.
  assert (Hiff : forall i x, may (rank_select_word Wrapping w p) (i, x) <->
     nth_error (individuals p) i = Some x /\ i * (i + 1) / 2 < reduced w n).
  { intros i x; fold (tri i); split.
    - intros H; apply (same_may _ _ _ HS), may_bind in H as (t & Ht & H); apply may_gen_range_incl in Ht.
      destruct (rank_at t p) as (j & y & E & Hx & Hr); [fold n; lia|]; rewrite E in H; cbn in H; injection H as <- <-; split; auto; lia.
    - intros [Hx Hi]; apply (same_may _ _ _ (same_sym _ _ HS)), may_bind; exists (S (tri i)); split; [apply may_gen_range_incl; lia|].
      destruct (rank_at (S (tri i)) p) as (j & y & E & Hy & Hr); [fold n; lia|]; rewrite E; cbn.
      assert (j = i).
      { destruct (lt_eq_lt_dec j i) as [[Hj| ->]|Hj]; auto; exfalso.
        - assert (tri (S j) <= tri i) by (apply tri_mono; lia); lia.
        - assert (tri (S i) <= tri j) by (apply tri_mono; lia); rewrite tri_S in *; lia. }
      subst j; congruence. }
  split; [|split; [|split]]; auto.
  - intros E; apply (same_must_fail _ _ _ (same_sym _ _ HS)); rewrite E; cbn; auto.
  - intros E; apply (same_must _ _ _ (same_sym _ _ HS)).
    apply must_bind, must_gen_range_incl; split; [lia|]; intros t Ht.
    destruct (rank_at t p) as (j & y & -> & _); [fold n; lia|cbn; auto].
  - intros i x H; apply Hiff in H as [_ H]; fold (tri i) in H.
    pose proof (reduced_fittest w n H1 H2).
    destruct (Nat.lt_ge_cases i (n - 1)) as [Hi|Hi]; auto; pose proof (tri_mono _ _ Hi); lia.
Qed.

(** 2^h individuals on a machine of 2h bits: about the 2^(h/2) least fit ones *)
Lemma rank_half_word h (p : population I) : 1 <= h -> N.of_nat (length (individuals p)) = (2 ^ N.of_nat h)%N ->
  must (rank_select_word Wrapping (2 * h) p) (fun _ => True) /\
  forall i x, may (rank_select_word Wrapping (2 * h) p) (i, x) <->
    nth_error (individuals p) i = Some x /\ i * (i + 1) < length (individuals p).
Proof.
  intros Hh Hn.
  assert (E2 : (2 ^ N.of_nat (2 * h) = 2 ^ N.of_nat h * 2 ^ N.of_nat h)%N).
  { rewrite <- N.pow_add_r; f_equal; lia. }
  assert (E1 : (2 ^ N.of_nat h = 2 * 2 ^ N.of_nat (h - 1))%N).
  { rewrite <- N.pow_succ_r'; f_equal; lia. }
  assert (Hp : (0 < 2 ^ N.of_nat (h - 1))%N) by apply (room_pos (h - 1)).
  destruct (rank_wrapping (2 * h) p) as (_ & A & B & _); [lia|rewrite Hn, E2; nia|rewrite Hn, E2; nia|].
  assert (Et : N.to_nat ((N.of_nat (length (individuals p)) * (N.of_nat (length (individuals p)) + 1)) mod 2 ^ N.of_nat (2 * h) / 2) =
               N.to_nat (2 ^ N.of_nat (h - 1))).
  { rewrite Hn, E2; replace (2 ^ N.of_nat h * (2 ^ N.of_nat h + 1))%N with (2 ^ N.of_nat h + 1 * (2 ^ N.of_nat h * 2 ^ N.of_nat h))%N by lia.
    rewrite N.mod_add by nia; rewrite N.mod_small by nia; rewrite E1, N.mul_comm, N.div_mul by lia; reflexivity. }
  rewrite Et in A, B; split; [apply A; lia|].
  intros i x; rewrite B; fold (tri i); pose proof (tri_double i).
  assert (length (individuals p) = 2 * N.to_nat (2 ^ N.of_nat (h - 1))) by lia.
  split; intros [Hx Hi]; split; auto; lia.
Qed.

(** ** Linear selection: an offset that is too large panics in every build. *)
Lemma offset_bound n b u : (N.of_nat (linear_offset n b u) < 2 ^ 64)%N.
Proof.
  unfold linear_offset; set (v := fdiv _ _); clearbody v; unfold f_to_usize.
  assert (Hu : (usize_max = 2 ^ 64 - 1)%Z) by reflexivity.
  assert (G : forall z, (N.of_nat (Z.to_nat (Z.min z usize_max)) < 2 ^ 64)%N).
  { intros z; rewrite Hu; change (2 ^ 64)%N with 18446744073709551616%N; change (2 ^ 64)%Z with 18446744073709551616%Z; lia. }
  destruct v as [s|[|]| |s m e H]; [reflexivity|reflexivity| |reflexivity|apply G].
  specialize (G usize_max); rewrite Z.min_id in G; exact G.
Qed.

Lemma linear_same (io : individual_ops I) (fexp : f64 -> f64) o b (p : population I) :
  (N.of_nat (length (individuals p)) < 2 ^ 64)%N ->
  same_execution (linear_select_word o 64 b p) (select io fexp (Linear b) p).
Proof.
  intros Hn; cbn [select]; unfold linear_select_word, linear_select; set (n := length (individuals p)) in *.
  apply same_bind; [apply same_refl|]; intros u _.
  pose proof (offset_bound n b u) as Ho; set (off := linear_offset n b u) in *; clearbody off.
  unfold usize_sub; destruct (Nat.leb_spec off n) as [H|H]; cbn [bind].
  - destruct (N.leb_spec 1 (N.of_nat (n - off))) as [H1|H1]; cbn [bind].
    + destruct (N.ltb_spec (N.of_nat (n - off) - 1) (N.of_nat n)) as [H2|H2]; [|lia].
      destruct (Nat.ltb_spec off n) as [H3|H3]; [|lia]; cbn [massert bind].
      replace (N.to_nat (N.of_nat (n - off) - 1)) with (n - off - 1) by lia; apply same_refl.
    + destruct (Nat.ltb_spec off n) as [H3|H3]; [lia|]; cbn [massert bind].
      destruct o; cbn [bind]; [reflexivity|].
      change (2 ^ N.of_nat 64)%N with (2 ^ 64)%N; destruct (N.ltb_spec (2 ^ 64 - 1) (N.of_nat n)); [lia|reflexivity].
  - destruct (Nat.ltb_spec off n) as [H3|H3]; [lia|]; cbn [massert bind].
    destruct o; cbn [bind]; [reflexivity|].
    change (2 ^ N.of_nat 64)%N with (2 ^ 64)%N.
    destruct (N.leb_spec 1 (2 ^ 64 - N.of_nat (off - n))) as [H1|H1]; [|lia]; cbn [bind].
    destruct (N.ltb_spec (2 ^ 64 - N.of_nat (off - n) - 1) (N.of_nat n)); [lia|reflexivity].
Qed.
End Rank.

(** ** Ranges *)
Definition range_of (r : N * N) : nat * nat := (N.to_nat (fst r), N.to_nat (snd r)).

Lemma range_checked w n mn mx : (N.of_nat n < 2 ^ N.of_nat w)%N ->
  same_execution (r <- bounded_random_range_word Checked w n mn mx ;; Ret (N.to_nat (fst r), N.to_nat (snd r)))
    (bounded_random_range n mn mx).
Proof.
  intros Hn; fold (room w) in *; unfold bounded_random_range_word, bounded_random_range.
  eapply same_trans; [apply same_assoc|]; apply same_bind; [apply same_refl|]; intros len _.
  unfold usize_sub; destruct (Nat.leb_spec len n) as [H|H]; cbn [bind massert]; [|reflexivity].
  unfold gen_range_incl; cbn [Nat.leb]; cbn -[Nat.sub N.add N.of_nat].
  split; [lia|]; intros i Hi; fold (room w).
  destruct (N.ltb_spec (i + N.of_nat len) (room w)) as [H1|H1]; [|lia]; cbn -[N.add N.to_nat]; f_equal; lia.
Qed.

Lemma range_wrapping w n mn mx :
  (N.of_nat n < 2 ^ N.of_nat w)%N -> (N.of_nat mx < 2 ^ N.of_nat w)%N -> mn <= mx ->
  must (bounded_random_range_word Wrapping w n mn mx) (fun r =>
    (exists len, mn <= len <= mx /\ len <= n /\ (fst r + N.of_nat len = snd r)%N /\ (snd r <= N.of_nat n)%N) \/
    (n < mx /\ ((snd r < fst r)%N \/ (N.of_nat n < snd r)%N))) /\
  (forall len, mn <= len <= mx -> may (bounded_random_range_word Wrapping w n mn mx) (0%N, N.of_nat len)).
Proof.
  intros Hn Hmx Hm; fold (room w) in *; split.
  - unfold bounded_random_range_word; apply must_bind, must_gen_range_incl; split; auto; intros len Hl.
    unfold usize_sub; destruct (Nat.leb_spec len n) as [H|H]; cbn [bind must].
    + split; [lia|]; intros i Hi; fold (room w).
      destruct (N.ltb_spec (i + N.of_nat len) (room w)) as [H1|H1]; [|lia]; cbn [bind must fst snd].
      left; exists len; lia.
    + fold (room w); split; [lia|]; intros i Hi.
      destruct (N.ltb_spec (i + N.of_nat len) (room w)) as [H1|H1]; cbn [bind must fst snd]; right; split; try lia.
      left.
      assert (E : ((i + N.of_nat len) mod room w = (i + N.of_nat len - room w) mod room w)%N).
      { replace (i + N.of_nat len)%N with (i + N.of_nat len - room w + 1 * room w)%N at 1 by lia; apply N.mod_add; lia. }
      rewrite E, N.mod_small by lia; lia.
  - intros len Hl; unfold bounded_random_range_word; apply may_bind; exists len; split; [apply may_gen_range_incl; auto|].
    assert (Hr : (N.of_nat len < room w)%N) by lia.
    unfold usize_sub; destruct (Nat.leb_spec len n) as [H|H]; cbn [bind may]; exists 0%N; (split; [lia|]); fold (room w);
    destruct (N.ltb_spec (0 + N.of_nat len) (room w)) as [H1|H1]; try lia; cbn; f_equal; lia.
Qed.

(** ** Example: 256 individuals on a 16-bit machine *)
Definition c97_population : population nat := ex_popn ex_io (seq 0 256).
Lemma c97_example :
  N.of_nat (length (individuals c97_population)) = (2 ^ N.of_nat 8)%N /\
  (forall i x, may (rank_select_word Wrapping 16 c97_population) (i, x) -> i <= 15) /\
  must_fail (rank_select_word Checked 16 c97_population) Panic /\
  run (select ex_io ex_exp Rank c97_population) [32895%N] = Some (255, 255).
Proof.
  assert (E : N.of_nat (length (individuals c97_population)) = (2 ^ N.of_nat 8)%N) by (vm_compute; reflexivity).
  split; [exact E|]; split; [|split].
  - intros i x H; destruct (rank_half_word 8 c97_population ltac:(lia) E) as [_ G].
    destruct (proj1 (G i x) H) as [_ G']; clear G H; rename G' into H.
    replace (length (individuals c97_population)) with 256 in H by (vm_compute; reflexivity); nia.
  - apply rank_checked; rewrite E; vm_compute; discriminate.
  - vm_compute; reflexivity.
Qed.
