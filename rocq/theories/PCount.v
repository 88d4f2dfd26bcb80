(** * PCount: how many new individuals have some property (C135). *)
From Coq Require Import List Bool Arith NArith ZArith Reals Lia Lra.
From Flocq Require Import Core BinarySingleNaN.
From Verif Require Import Rnd LRnd Prob LProb F64 LF64 MStats MPopulation MSelection MModel MAlgorithms MOneMax SpecF SpecCount ExF ExM
  PSelection PSelection2 PModel PMix PIndep.
Import ListNotations.
Local Open Scope R_scope.

Lemma draws_no_pick {A} (m : M A) : draws_only m -> no_pick m.
Proof. induction m; cbn; auto. Qed.
Lemma no_pick_draws {A} (m : M A) : no_pick m -> draws_only m.
Proof. induction m; cbn; auto. Qed.

Lemma C_0 n : C n 0 = 1.
Proof. unfold C; rewrite Nat.sub_0_r; cbn [fact INR]; rewrite Rmult_1_l; apply Rinv_r; apply INR_fact_neq_0. Qed.
Lemma C_n n : C n n = 1.
Proof. unfold C; rewrite Nat.sub_diag; cbn [fact INR]; rewrite Rmult_1_r; apply Rinv_r; apply INR_fact_neq_0. Qed.

Section Count.
Context {A : Type} (m : M A) (Q : A -> bool).
Hypothesis Hnp : no_pick m.
Hypothesis Hm : must m (fun _ => True).
Let s := prob m Q.

Lemma must_rep n : must (repeatM n m) (fun _ => True).
Proof. eapply must_mono; [|apply (must_repeatM n m (fun _ => True)); exact Hm]; auto. Qed.

(** The first individual has the property or not. *)
Lemma count_expect n (g : nat -> R) :
  expect (repeatM (S n) m) (fun l => g (how_many Q l)) =
  s * expect (repeatM n m) (fun l => g (S (how_many Q l))) + (1 - s) * expect (repeatM n m) (fun l => g (how_many Q l)).
Proof.
  cbn [repeatM]; rewrite expect_bind.
  set (X := expect (repeatM n m) (fun l => g (S (how_many Q l)))); set (Y := expect (repeatM n m) (fun l => g (how_many Q l))).
  rewrite (expect_ext _ _ (fun a => (X - Y) * (if Q a then 1 else 0) + Y)).
  - rewrite (expect_affine m _ (fun a => if Q a then 1 else 0) (X - Y) Y Hnp Hm), <- prob_expect; fold s; ring.
  - intros a; rewrite expect_bind; cbn [expect]; unfold X, Y, how_many; cbn [filter]; destruct (Q a); cbn [length]; ring.
Qed.

Lemma count_step n j :
  prob (repeatM (S n) m) (fun l => how_many Q l =? j)%nat =
  s * prob (repeatM n m) (fun l => S (how_many Q l) =? j)%nat + (1 - s) * prob (repeatM n m) (fun l => how_many Q l =? j)%nat.
Proof. rewrite !prob_expect; apply (count_expect n (fun c => if (c =? j)%nat then 1 else 0)). Qed.

Lemma count_none n (P : list A -> bool) : (forall l, may (repeatM n m) l -> P l = false) -> prob (repeatM n m) P = 0.
Proof.
  intros H; rewrite (prob_supp' _ P (fun _ => false) H), prob_expect.
  apply (expect_const _ _ 0 (no_pick_repeat m n Hnp) (must_rep n)).
Qed.

Lemma how_many_le l : (how_many Q l <= length l)%nat.
Proof. unfold how_many; induction l as [|a l IH]; cbn; auto; destruct (Q a); cbn; lia. Qed.

Lemma count_above n j : (n < j)%nat -> prob (repeatM n m) (fun l => how_many Q l =? j)%nat = 0.
Proof.
  intros H; apply count_none; intros l Hl; apply repeat_length in Hl; pose proof (how_many_le l); apply Nat.eqb_neq; lia.
Qed.

Lemma count_law n : forall j, (j <= n)%nat -> prob (repeatM n m) (fun l => how_many Q l =? j)%nat = binomial n s j.
Proof.
  induction n as [|n IH]; intros j Hj.
  - assert (j = 0)%nat as -> by lia; cbn; unfold binomial; rewrite C_0; cbn; ring.
  - rewrite count_step; destruct j as [|j].
    + rewrite count_none by reflexivity; rewrite IH by lia; unfold binomial; rewrite !C_0, !Nat.sub_0_r; cbn [pow]; ring.
    + change (fun l => S (how_many Q l) =? S j)%nat with (fun l => how_many Q l =? j)%nat; rewrite IH by lia.
      destruct (Nat.eq_dec j n) as [->|Hne].
      * rewrite count_above by lia; unfold binomial; rewrite !C_n, !Nat.sub_diag; cbn [pow]; ring.
      * rewrite IH by lia; unfold binomial; rewrite <- (pascal n j) by lia.
        replace (S n - S j)%nat with (S (n - S j)) by lia; replace (n - j)%nat with (S (n - S j)) by lia; cbn [pow]; ring.
Qed.

(** The mean of a function of the number, by way of the law *)
Lemma mean_of {B} (w : M B) (c : B -> nat) (f : nat -> R) n : no_pick w -> must w (fun _ => True) -> (forall l, may w l -> (c l <= n)%nat) ->
  Rsum (S n) (fun j => f j * prob w (fun l => c l =? j)%nat) = expect w (fun l => f (c l)).
Proof.
  intros Hp Hw Hc.
  assert (H : forall K, Rsum K (fun j => f j * prob w (fun l => c l =? j)%nat) =
                        expect w (fun l => Rsum K (fun j => f j * (if (c l =? j)%nat then 1 else 0)))).
  { induction K as [|K IH].
    - rewrite Rsum_0, (expect_ext _ _ (fun _ => 0)) by (intros; apply Rsum_0); symmetry; apply (expect_const _ _ 0 Hp Hw).
    - rewrite Rsum_S, IH.
      rewrite (expect_ext _ (fun l => Rsum (S K) _) (fun l => Rsum K (fun j => f j * (if (c l =? j)%nat then 1 else 0)) + (if (c l =? K)%nat then 1 else 0) * f K))
        by (intros l; rewrite Rsum_S; ring).
      rewrite expect_plus, PSelection2.expect_scale, <- prob_expect by exact Hp; ring. }
  rewrite H; apply expect_supp; [exact Hp|]; intros l Hl; pose proof (Hc l Hl).
  rewrite (Rsum_ext _ _ (fun j => if (j =? c l)%nat then f (c l) else 0)).
  - clear - H0; induction n as [|n IH]; rewrite Rsum_S.
    + rewrite Rsum_0; assert (c l = 0)%nat as -> by lia; cbn; ring.
    + destruct (Nat.eq_dec (c l) (S n)) as [E|E].
      * rewrite E, Nat.eqb_refl, (Rsum_ext _ _ (fun _ => 0)), Rsum_const; [ring|].
        intros i Hi; rewrite (proj2 (Nat.eqb_neq i (S n))) by lia; reflexivity.
      * rewrite IH by lia; rewrite (proj2 (Nat.eqb_neq (S n) (c l))) by lia; ring.
  - intros j _; rewrite (Nat.eqb_sym j); destruct (Nat.eqb_spec (c l) j) as [->|_]; ring.
Qed.

(** The mean *)
Lemma count_mean n : expect (repeatM n m) (fun l => INR (how_many Q l)) = INR n * s.
Proof.
  induction n as [|n IH]; [cbn; ring|].
  rewrite (count_expect n INR).
  rewrite (expect_ext _ (fun l => INR (S (how_many Q l))) (fun l => 1 * INR (how_many Q l) + 1)) by (intros l; rewrite S_INR; ring).
  rewrite (expect_affine _ _ (fun l => INR (how_many Q l)) 1 1 (no_pick_repeat m n Hnp) (must_rep n)), IH, S_INR; ring.
Qed.

(** The second moment and the variance *)
Lemma shifted_square n (a d : R) :
  expect (repeatM n m) (fun l => (INR (how_many Q l) - a + d) ^ 2) =
  expect (repeatM n m) (fun l => (INR (how_many Q l) - a) ^ 2) + (2 * d * (INR n * s - a) + d ^ 2).
Proof.
  rewrite (expect_ext _ _ (fun l => (INR (how_many Q l) - a) ^ 2 + (2 * d * INR (how_many Q l) + (d ^ 2 - 2 * d * a)))) by (intros l; ring).
  rewrite expect_plus by (apply no_pick_repeat; exact Hnp).
  rewrite (expect_affine _ _ (fun l => INR (how_many Q l)) (2 * d) (d ^ 2 - 2 * d * a) (no_pick_repeat m n Hnp) (must_rep n)), count_mean; ring.
Qed.
Lemma count_variance n : expect (repeatM n m) (fun l => (INR (how_many Q l) - INR n * s) ^ 2) = INR n * (s * (1 - s)).
Proof.
  induction n as [|n IH]; [cbn; ring|].
  rewrite (count_expect n (fun c => (INR c - INR (S n) * s) ^ 2)).
  rewrite (expect_ext _ (fun l => (INR (S (how_many Q l)) - _) ^ 2) (fun l => (INR (how_many Q l) - INR n * s + (1 - s)) ^ 2)) by (intros l; rewrite !S_INR; ring).
  rewrite (expect_ext _ (fun l => (INR (how_many Q l) - INR (S n) * s) ^ 2) (fun l => (INR (how_many Q l) - INR n * s + (- s)) ^ 2)) by (intros l; rewrite !S_INR; ring).
  rewrite !shifted_square, IH, S_INR; ring.
Qed.
End Count.

Section Breed.
Context {I : Type} (io : individual_ops I) (fexp : f64 -> f64) {MS : Type} (mdl : model I MS).

Lemma no_pick_distinct s p tries ex : builtin s -> no_pick (select_distinct io fexp s p tries ex).
Proof.
  intros H; induction tries as [|t IH]; cbn [select_distinct]; [exact Logic.I|].
  apply no_pick_bind; [apply no_pick_select; auto|]; intros [i c]; destruct (negb _); cbn; auto.
Qed.

Lemma breed_draws ms p b : match parent_selector b with Custom _ _ _ _ => False | _ => True end -> drawing_model mdl ->
  draws_only (breed io fexp mdl ms p b).
Proof.
  intros Hb (H1 & H2 & H3 & H4 & H5); apply no_pick_draws; unfold breed.
  apply no_pick_bind; [apply no_pick_select; exact Hb|]; intros [i x].
  apply no_pick_bind; [unfold breed_parent2; destruct (_ <? _)%nat; [|exact Logic.I]|].
  - cbn [gen_f64 bind no_pick]; intros u; destruct (flt _ _); [|exact Logic.I]; apply no_pick_bind; [apply no_pick_distinct; exact Hb|cbn; auto].
  - intros o; unfold breed_from; apply no_pick_bind; [destruct o; [apply draws_no_pick, H1|exact Logic.I]|]; intros y.
    cbn [gen_f64 bind no_pick]; intros u.
    apply no_pick_bind; [destruct (flt _ _); [apply draws_no_pick, H2|exact Logic.I]|]; intros y1.
    apply no_pick_bind; [apply draws_no_pick, H3|]; intros y2; apply no_pick_bind; [apply draws_no_pick, H4|]; intros y3.
    apply no_pick_bind; [destruct (is_valid io y3); [apply draws_no_pick, H5|exact Logic.I]|]; intros y4; exact Logic.I.
Qed.

Lemma offspring_count ms b size p offspring Q j : draws_only (breed io fexp mdl ms p b) -> must (breed io fexp mdl ms p b) (fun _ => True) ->
  (2 <= size - length offspring)%nat -> (j <= size - length offspring)%nat ->
  prob (generate_new_population io fexp mdl ms (b, size) p offspring) (fun l => how_many Q (skipn (length offspring) l) =? j)%nat
  = binomial (size - length offspring) (prob (breed io fexp mdl ms p b) Q) j.
Proof.
  intros Hd Hm H2 Hj; rewrite <- count_law; auto using draws_no_pick; unfold generate_new_population.
  destruct (size - length offspring)%nat as [|[|k]]; [lia|lia|].
  apply (prob_app (repeatM (S (S k)) (breed io fexp mdl ms p b)) offspring (fun l => how_many Q l =? j)%nat).
Qed.

Lemma offspring_mean ms b size p offspring Q : draws_only (breed io fexp mdl ms p b) -> must (breed io fexp mdl ms p b) (fun _ => True) ->
  (2 <= size - length offspring)%nat ->
  Rsum (S (size - length offspring)) (fun j => INR j *
    prob (generate_new_population io fexp mdl ms (b, size) p offspring) (fun l => how_many Q (skipn (length offspring) l) =? j)%nat)
  = INR (size - length offspring) * prob (breed io fexp mdl ms p b) Q.
Proof.
  intros Hd Hm H2; pose proof (draws_no_pick _ Hd) as Hp.
  rewrite <- (count_mean _ Q Hp Hm), <- (mean_of (repeatM (size - length offspring) (breed io fexp mdl ms p b)) (how_many Q) INR (size - length offspring)).
  - apply Rsum_ext; intros j Hj; rewrite offspring_count, count_law by (auto; lia); reflexivity.
  - apply no_pick_repeat; auto.
  - apply must_rep; auto.
  - intros l Hl; apply repeat_length in Hl as <-; apply how_many_le.
Qed.

Lemma offspring_variance ms b size p offspring Q : draws_only (breed io fexp mdl ms p b) -> must (breed io fexp mdl ms p b) (fun _ => True) ->
  (2 <= size - length offspring)%nat ->
  Rsum (S (size - length offspring)) (fun j => (INR j - INR (size - length offspring) * prob (breed io fexp mdl ms p b) Q) ^ 2 *
    prob (generate_new_population io fexp mdl ms (b, size) p offspring) (fun l => how_many Q (skipn (length offspring) l) =? j)%nat)
  = INR (size - length offspring) * (prob (breed io fexp mdl ms p b) Q * (1 - prob (breed io fexp mdl ms p b) Q)).
Proof.
  intros Hd Hm H2; pose proof (draws_no_pick _ Hd) as Hp.
  rewrite <- (count_variance _ Q Hp Hm), <- (mean_of (repeatM (size - length offspring) (breed io fexp mdl ms p b)) (how_many Q) (fun j => (INR j - INR (size - length offspring) * prob (breed io fexp mdl ms p b) Q) ^ 2) (size - length offspring)).
  - apply Rsum_ext; intros j Hj; rewrite offspring_count, count_law by (auto; lia); reflexivity.
  - apply no_pick_repeat; auto.
  - apply must_rep; auto.
  - intros l Hl; apply repeat_length in Hl as <-; apply how_many_le.
Qed.

Lemma initial_count (new_random : M I) size Q j : draws_only new_random -> must new_random (fun _ => True) -> (j <= size)%nat ->
  prob (extend_population new_random [] size) (fun l => how_many Q l =? j)%nat = binomial size (prob new_random Q) j.
Proof.
  intros Hd Hm Hj; rewrite <- count_law; auto using draws_no_pick; unfold extend_population.
  destruct (Nat.eqb_spec size 0) as [->|_]; [reflexivity|].
  apply (prob_app (repeatM size new_random) [] (fun l => how_many Q l =? j)%nat).
Qed.
End Breed.

(** ** Random bits *)
Lemma coin_half (P : bool -> bool) : prob gen_bool P = ((if P true then 1 else 0) + (if P false then 1 else 0)) / 2.
Proof. unfold gen_bool; cbn [prob]; change (N.to_nat 2) with 2%nat; rewrite !Rsum_S, Rsum_0; cbn; destruct (P true), (P false); lra. Qed.

Lemma onemax_count n j : (j <= n)%nat -> prob (onemax_new_random n) (fun x => how_many (fun b => b) (genome x) =? j)%nat = C n j / 2 ^ n.
Proof.
  intros Hj; unfold onemax_new_random; rewrite prob_expect, expect_bind; cbn [expect onemax_from genome].
  rewrite <- (prob_expect (repeatM n gen_bool) (fun bits => how_many (fun b => b) bits =? j)%nat).
  rewrite count_law; [|cbn; auto|apply c107_coins|exact Hj].
  rewrite coin_half; unfold binomial; replace ((1 + 0) / 2) with (/ 2) by lra; replace (1 - / 2) with (/ 2) by lra.
  rewrite Rmult_assoc, <- pow_add; replace (j + (n - j))%nat with n by lia; rewrite pow_inv; reflexivity.
Qed.

(** ** Examples *)
Lemma c135_coins : draws_only gen_bool /\ must gen_bool (fun _ => True) /\
  prob (extend_population gen_bool [] 3) (fun l => how_many (fun b => b) l =? 2)%nat = (3 / 8)%R.
Proof.
  split; [cbn; auto|]; split; [apply c107_coins|].
  rewrite initial_count; [|cbn; auto|apply c107_coins|lia].
  rewrite coin_half; unfold binomial, C; cbn; lra.
Qed.

Lemma c135_breed : drawing_model ex_model /\
  must (breed ex_io ex_exp ex_model tt (ex_popn ex_io [4; 5; 6]%nat) (mkBreeding f1 f0 Rank)) (fun _ => True).
Proof. split; [repeat split; intros; exact Logic.I|apply c107_breed]. Qed.
