(** * PCrossoverLaw: the distributions of the crossover strategies (C93). *)
From Coq Require Import List Bool Arith NArith Reals Lia Lra Permutation Factorial.
From Verif Require Import Rnd Prob LRnd LProb LGenes MOperators MCrossover Spec PCrossoverGpx PCrossoverScx PCrossoverErx
  PCrossoverAll POperatorsNeighbors POperatorsRandom PMutationProb PModel PConv DocExamples.
Import ListNotations.

Lemma prob_bind_range {B} n (f : nat -> M B) P : 0 < n ->
  prob (bind (gen_range 0 n) f) P = (Rsum n (fun i => prob (f i) P) / INR n)%R.
Proof.
  intros Hn; rewrite prob_expect, expect_bind, expect_gen_range by lia.
  rewrite Nat.sub_0_r; f_equal; apply Rsum_ext; intros i _; rewrite prob_expect; reflexivity.
Qed.

Lemma prob_none {A} (m : M A) P : must m (fun a => P a = false) -> prob m P = 0%R.
Proof.
  induction m as [a|e|n k IH|n k IH]; cbn [must prob]; intros H; auto.
  - rewrite H; auto.
  - destruct H as [Hn H]; rewrite (Rsum_ext _ _ (fun _ => 0%R)), Rsum_const; [unfold Rdiv; lra|].
    intros i Hi; apply IH, H; lia.
  - destruct H as [Hn H]; apply Rle_antisym.
    + destruct (N.to_nat n) as [|j] eqn:E; [lia|]; cbn [seq map fold_right].
      eapply Rle_trans; [apply Rmin_l|]; right; apply IH, H; cbn; lia.
    + apply fold_min_ge; [lra|]; apply Forall_forall; intros x Hx; apply in_map_iff in Hx as (i & <- & _); apply prob_nonneg.
Qed.

Lemma prob_must_eq {A} (m : M A) (P Q : A -> bool) : (forall a, may m a -> P a = Q a) -> prob m P = prob m Q.
Proof. apply prob_ext_supp. Qed.

Section Laws.
Context {G : Type} (eqb ltb : G -> G -> bool).

(** ** Single point *)
Lemma spx_law fuel (p1 p2 : list G) P :
  length p1 = length p2 -> p1 <> [] ->
  prob (crossover eqb ltb fuel SinglePoint p1 p2) P =
  (Rsum (length p1) (fun c => if P (firstn c p1 ++ skipn c p2) then 1 else 0) / INR (length p1))%R.
Proof.
  intros Hl Hne; cbn [crossover].
  assert (Hn : 0 < length p1) by (destruct p1; cbn; [congruence|lia]).
  rewrite prob_bind_range by auto; f_equal; apply Rsum_ext; intros c _.
  destruct (P (firstn c p1 ++ skipn c p2)) eqn:E.
  - apply prob_one; eapply must_mono; [|apply spx_spec; auto]; cbn; intros r ->; auto.
  - apply prob_none; eapply must_mono; [|apply spx_spec; auto]; cbn; intros r ->; auto.
Qed.

(** ** PMX and OX *)
Lemma random_range_law {B} n (f : nat * nat -> M B) P : 0 < n ->
  prob (bind (random_range n) f) P =
  (Rsum n (fun k => Rsum (n - k) (fun s => prob (f (s, (s + S k)%nat)) P) / INR (n - k)) / INR n)%R.
Proof.
  intros Hn; unfold random_range, massert, bounded_random_range.
  rewrite (proj2 (Nat.eqb_neq n 0)) by lia; cbn [negb bind].
  rewrite prob_expect, expect_bind, expect_bind, expect_gen_range_incl by lia.
  replace (S n - 1) with n by lia; f_equal; apply Rsum_ext; intros k Hk.
  unfold massert; rewrite (proj2 (Nat.leb_le (1 + k) n)) by lia; cbn [bind].
  rewrite expect_bind, expect_gen_range_incl by lia.
  replace (S (n - (1 + k)) - 0) with (n - k) by lia; f_equal; apply Rsum_ext; intros s Hs.
  cbn [expect]; rewrite prob_expect; cbn [Nat.add]; reflexivity.
Qed.

Lemma pmx_law fuel (p1 p2 : list G) P : p1 <> [] ->
  prob (crossover eqb ltb fuel PartiallyMapped p1 p2) P =
  (Rsum (length p1) (fun k => Rsum (length p1 - k) (fun s =>
     prob (partially_mapped_crossover eqb fuel p1 p2 (s, (s + S k)%nat)) P) / INR (length p1 - k)) / INR (length p1))%R.
Proof. intros Hne; cbn [crossover]; apply random_range_law; destruct p1; cbn; [congruence|lia]. Qed.

Lemma ox_law fuel (p1 p2 : list G) P : p1 <> [] ->
  prob (crossover eqb ltb fuel Order p1 p2) P =
  (Rsum (length p1) (fun k => Rsum (length p1 - k) (fun s =>
     prob (order_crossover eqb fuel p1 p2 (s, (s + S k)%nat)) P) / INR (length p1 - k)) / INR (length p1))%R.
Proof. intros Hne; cbn [crossover]; apply random_range_law; destruct p1; cbn; [congruence|lia]. Qed.

(** ** SCX and ERX *)
Lemma choose_law {B} (l : list G) (f : G -> M B) P d : l <> [] ->
  prob (o <- choose l ;; x <- unwrap o ;; f x) P = (Rsum (length l) (fun i => prob (f (nth i l d)) P) / INR (length l))%R.
Proof.
  intros Hne; unfold choose; destruct l as [|h t]; [congruence|].
  rewrite prob_assoc, prob_bind_range by (cbn; lia); f_equal; apply Rsum_ext; intros i Hi.
  unfold idx; rewrite (nth_error_nth' _ d) by auto; reflexivity.
Qed.

Lemma scx_law fuel (p1 p2 : list G) P d : p1 <> [] ->
  prob (crossover eqb ltb fuel SequentialConstructive p1 p2) P =
  (Rsum (length p1) (fun i => prob (sequential_constructive_crossover eqb p1 p2 (nth i p1 d)) P) / INR (length p1))%R.
Proof. intros Hne; cbn [crossover]; apply choose_law; auto. Qed.

Lemma erx_law fuel (p1 p2 : list G) P d : p1 <> [] ->
  prob (crossover eqb ltb fuel EdgeRecombination p1 p2) P =
  (Rsum (length p1) (fun i => prob (edge_recombination_crossover eqb p1 p2 (nth i p1 d)) P) / INR (length p1))%R.
Proof. intros Hne; cbn [crossover]; apply choose_law; auto. Qed.

Lemma first_uniform (l : list G) (f : G -> M (list G)) (P : list G -> bool) x : NoDup l -> In x l ->
  (forall y, In y l -> must (f y) (fun r => hd_error r = Some y)) ->
  (forall r, P r = true <-> hd_error r = Some x) ->
  prob (o <- choose l ;; y <- unwrap o ;; f y) P = (1 / INR (length l))%R.
Proof.
  intros Hnd Hx Hf HP.
  assert (Hne : l <> []) by (intros ->; destruct Hx).
  rewrite (choose_law l f P x Hne); f_equal.
  destruct (In_nth l x x Hx) as (i & Hi & Ei).
  rewrite (Rsum_single _ i); auto.
  - apply prob_one; rewrite Ei; eapply must_mono; [|apply Hf; auto]; intros r; apply HP.
  - intros j Hj Hne'; apply prob_none; eapply must_mono; [|apply Hf, nth_In; auto].
    cbn; intros r Hr; apply not_true_iff_false; rewrite HP, Hr; intros E; injection E as E.
    apply Hne'; eapply (proj1 (NoDup_nth l x)); eauto; congruence.
Qed.

Hypothesis Heq : eq_ok eqb.

Lemma first_gene_uniform fuel s (p1 p2 : list G) x (P : list G -> bool) :
  s = SequentialConstructive \/ s = EdgeRecombination ->
  perm_parents p1 p2 -> In x p1 -> (forall r, P r = true <-> hd_error r = Some x) ->
  prob (crossover eqb ltb fuel s p1 p2) P = (1 / INR (length p1))%R.
Proof.
  intros Hs Hp Hx HP; pose proof (proj1 Hp) as Hnd.
  destruct Hs as [-> | ->]; cbn [crossover].
  - apply (first_uniform p1 _ P x); auto; intros y Hy; eapply must_mono; [|apply scx_perm; eauto]; cbn; tauto.
  - apply (first_uniform p1 _ P x); auto; intros y Hy; eapply must_mono; [|apply erx_perm; eauto]; cbn; tauto.
Qed.

(** ** GPX2 *)
Definition uni : unit -> option G -> list (list G) -> M (nat * unit) :=
  fun _ _ partitions => i <- gen_range 0 (length partitions) ;; Ret (i, tt).

Lemma concat_head (p q : list G) ps qs : NoDup (concat (p :: ps)) -> Permutation (p :: ps) (q :: qs) ->
  p <> [] -> q <> [] -> forall a b c, a ++ p ++ b = a ++ q ++ c -> p = q.
Proof.
  intros Hnd HP Hp Hq a b c E; apply app_inv_head in E.
  destruct p as [|x p]; [congruence|]; destruct q as [|y q]; [congruence|]; cbn in E; injection E as Ex E.
  subst y.
  assert (Hin : In (x :: q) ((x :: p) :: ps)) by (rewrite HP; left; auto).
  destruct Hin as [Hin|Hin]; [auto|].
  exfalso; cbn [concat] in Hnd; apply NoDup_app_inv in Hnd as (_ & _ & H).
  apply (H x); [left; auto|apply in_concat; exists (x :: q); split; auto; left; auto].
Qed.

Lemma gpx2_loop_uniform fuel acc ps qs (P : list G -> bool) :
  length ps < fuel -> NoDup (concat ps) -> (forall p, In p ps -> p <> []) -> Permutation ps qs ->
  (forall r, P r = true <-> r = acc ++ concat qs) ->
  prob (gpx2_loop eqb uni fuel tt acc ps) P = (/ INR (fact (length ps)))%R.
Proof.
  revert acc ps qs; induction fuel as [|f IH]; intros acc ps qs Hf Hnd Hne HPq HP; [lia|].
  destruct ps as [|q0 qs0].
  { apply Permutation_nil in HPq; subst; cbn; rewrite (proj2 (HP acc)); [rewrite Rinv_1; auto|cbn; rewrite app_nil_r; auto]. }
  remember (q0 :: qs0) as ps eqn:Eps.
  assert (Hps : 0 < length ps) by (subst; cbn; lia).
  cbn [gpx2_loop]; replace (match ps with [] => Ret acc | _ :: _ => _ end) with
    ('(i, s') <- uni tt (last (map Some acc) None) ps ;;
     '(partition, rest) <- swap_remove ps i ;;
      gpx2_loop eqb uni f s' (acc ++ partition)
        (filter (fun p => negb (length p =? 0)) (map (filter (fun g => negb (mem eqb g partition))) rest)))
    by (subst; reflexivity).
  clear Eps q0 qs0.
  unfold uni at 1; rewrite prob_assoc, prob_bind_range by auto; cbn [bind].
  destruct qs as [|q qs]; [apply Permutation_length in HPq; cbn in HPq; lia|].
  assert (Hq : In q ps) by (rewrite HPq; left; auto).
  assert (Hstep : forall i p, nth_error ps i = Some p -> exists rest, Permutation ps (p :: rest) /\ ('(partition, rest) <- swap_remove ps i ;;
      gpx2_loop eqb uni f tt (acc ++ partition)
        (filter (fun p => negb (length p =? 0)) (map (filter (fun g => negb (mem eqb g partition))) rest)))
    = gpx2_loop eqb uni f tt (acc ++ p) rest).
  { intros i p Hp; destruct (swap_remove_ok ps i p Hp) as (rest & Er & HPr); exists rest; split; auto.
    rewrite Er; cbn [bind].
    assert (Hnd' : NoDup (concat (p :: rest))) by (eapply Permutation_NoDup; [apply Permutation_concat; exact HPr|auto]).
    cbn [concat] in Hnd'; destruct (NoDup_app_inv _ _ Hnd') as (H1 & H2 & H3).
    f_equal; transitivity (filter (fun p => negb (length p =? 0)) rest).
    - f_equal; rewrite <- (map_id rest) at 2; apply map_ext_in; intros u Hu.
      apply filter_id; intros x Hx; apply negb_true_iff, (mem_notIn eqb Heq).
      intros Hxp; eapply H3; eauto; apply in_concat; eauto.
    - apply filter_id; intros u Hu; apply negb_true_iff, Nat.eqb_neq.
      assert (Hu' : u <> []) by (apply Hne; rewrite HPr; right; auto); destruct u; cbn; congruence. }
  assert (Hrest : forall p rest, Permutation ps (p :: rest) ->
     length rest < f /\ NoDup (concat rest) /\ (forall u, In u rest -> u <> [])).
  { intros p rest HPr; split; [apply Permutation_length in HPr; cbn in HPr; lia|split].
    - assert (Hnd' : NoDup (concat (p :: rest))) by (eapply Permutation_NoDup; [apply Permutation_concat; exact HPr|auto]).
      cbn [concat] in Hnd'; apply NoDup_app_inv in Hnd'; tauto.
    - intros u Hu; apply Hne; rewrite HPr; right; auto. }
  destruct (In_nth ps q [] Hq) as (i & Hi & Ei).
  rewrite (Rsum_single _ i); auto.
  - assert (Ei' : nth_error ps i = Some q) by (rewrite (nth_error_nth' ps [] Hi), Ei; auto).
    destruct (Hstep i q Ei') as (rest & HPr & ->).
    destruct (Hrest q rest HPr) as (L1 & L2 & L3).
    rewrite (IH (acc ++ q) rest qs); auto.
    + pose proof (Permutation_length HPr) as EL; cbn in EL; rewrite EL; cbn [fact].
      replace (fact (length rest) + length rest * fact (length rest)) with (S (length rest) * fact (length rest)) by lia.
      rewrite mult_INR; field; split; apply not_0_INR; [apply fact_neq_0|lia].
    + rewrite HPr in HPq; apply Permutation_cons_inv in HPq; auto.
    + intros r; rewrite HP; cbn [concat]; rewrite app_assoc; tauto.
  - intros j Hj Hji; destruct (nth_error_lt ps j Hj) as [p Hp].
    destruct (Hstep j p Hp) as (rest & HPr & ->).
    destruct (Hrest p rest HPr) as (L1 & L2 & L3).
    apply prob_none; eapply must_mono; [|apply gpx2_loop_spec; auto; exact gpx2_selector_ok].
    intros r Ha; apply assembled_concat in Ha as (us & HPu & ->).
    apply not_true_iff_false; rewrite HP; intros E; rewrite <- app_assoc in E; cbn [concat] in E.
    assert (Hpq : p = q).
    { eapply (concat_head p q rest qs); [| | | |exact E].
      - eapply Permutation_NoDup; [apply Permutation_concat; exact HPr|auto].
      - rewrite <- HPr; auto.
      - apply Hne; eapply nth_error_In; eauto.
      - apply Hne; auto. }
    subst p; clear Hstep.
    assert (Hndp : NoDup ps).
    { clear - Hnd Hne; induction ps as [|u us IHu]; constructor.
      - cbn [concat] in Hnd; apply NoDup_app_inv in Hnd as (_ & _ & H); intros Hin.
        destruct u as [|x u]; [apply (Hne []); [left; auto|auto]|].
        apply (H x); [left; auto|apply in_concat; exists (x :: u); split; auto; left; auto].
      - apply IHu; [cbn [concat] in Hnd; apply NoDup_app_inv in Hnd; tauto|intros v Hv; apply Hne; right; auto]. }
    apply Hji; eapply (proj1 (NoDup_nth_error ps)); auto; rewrite Hp; symmetry; rewrite (nth_error_nth' ps [] Hi), Ei; auto.
Qed.

Lemma gpx2_uniform fuel (p1 p2 : list G) ps qs (P : list G -> bool) :
  common_partitions eqb ltb p1 p2 = Ret ps -> Permutation ps qs ->
  (forall r, P r = true <-> r = concat qs) ->
  prob (crossover eqb ltb fuel GeneralizedPartition2 p1 p2) P = (/ INR (fact (length ps)))%R.
Proof.
  intros E HPq HP; cbn [crossover]; unfold generalized_partition_2_crossover.
  destruct (common_partitions_raw eqb ltb Heq p1 p2) as (ps' & E' & Hnd & Hin & Hne & _).
  rewrite E in E'; injection E' as <-; rewrite E; cbn [bind].
  apply (gpx2_loop_uniform _ [] ps qs P); auto.
Qed.
End Laws.

Lemma c93_example :
  perm_parents parent1 parent2 /\ In 3 parent1 /\
  common_partitions Nat.eqb Nat.ltb parent1 parent2 = Ret [[0; 9; 8]; [1; 2; 3]; [4; 5; 6]; [7]].
Proof. split; [exact (proj1 (proj2 doc_parents_perm))|split; [cbn; auto|]]. vm_compute. reflexivity. Qed.
