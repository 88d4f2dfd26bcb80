(** * PCustomEx: the examples of C90 and C91. *)
From Coq Require Import List Bool Arith NArith ZArith Lia Reals Lra.
From Flocq Require Import Core BinarySingleNaN.
From Verif Require Import Rnd LRnd F64 LF64 MStats MPopulation MSelection MModel MAlgorithms SpecF SpecA SpecG ExF ExM ExR ExG
  PModel PSelection PAlgorithms PAlgorithms2 PRun PRun3 PRun4 PRun5 PHistEx PReach3.
Import ListNotations.
Local Open Scope nat_scope.

(** A run on a tape that checks that every draw has an alternative *)
Fixpoint checked {A} (m : M A) (tape : list N) : option A :=
  match m with
  | Ret a => Some a
  | Fail _ => None
  | Draw n k | Pick n k =>
      if (n =? 0)%N then None else
      match tape with
      | [] => checked (k 0%N) []
      | t :: ts => checked (k (t mod n)%N) ts
      end
  end.

Lemma checked_may {A} (m : M A) tape v : checked m tape = Some v -> may m v.
Proof.
  revert tape; induction m as [a|e'|n k IH|n k IH]; cbn; try discriminate; intros tape; [congruence| |];
    destruct (N.eqb_spec n 0) as [|Hn]; try discriminate; destruct tape as [|t ts]; intros Hr.
  - exists 0%N; split; [lia|eapply IH; eauto].
  - exists (t mod n)%N; split; [apply N.mod_lt; auto|eapply IH; eauto].
  - exists 0%N; split; [lia|eapply IH; eauto].
  - exists (t mod n)%N; split; [apply N.mod_lt; auto|eapply IH; eauto].
Qed.

Lemma shown {S0} (m : M (run_result nat S0 unit)) (tr : list (list nat)) :
  match checked m [] with Some r => if list_eq_dec (list_eq_dec Nat.eq_dec) (map (@individuals nat) (r_trace r)) tr then true else false | None => false end = true ->
  exists r, may m r /\ map (@individuals nat) (r_trace r) = tr.
Proof.
  destruct (checked m []) as [r|] eqn:E; [|discriminate]; intros H; exists r; split; [eapply checked_may; eauto|].
  destruct (list_eq_dec _ _ _); [assumption|discriminate].
Qed.

Definition ex_kept (s : ga_state nat unit) : Prop := ga_size s <= 4 /\ known (parent_selector (ga_breeding s)).

Lemma custom_kept n : n <= 4 -> kept ex_custom (quiet (stop_at 2)) (ex_eager n) ex_kept.
Proof.
  intros Hn; split; [|split].
  - intros s s' H; cbn [alg_configure ex_custom] in H.
    destruct (ga_configured s (ex_eager n) s' (small_fits n ltac:(lia)) H) as (_ & e & _ & (J1 & _ & J3) & _).
    split; [rewrite J1; exact Hn|exact J3].
  - intros s p s' [H1 H2] H; cbn [alg_prepare ex_custom] in H.
    destruct (ga_prep ex_io ex_exp ex_model _ _ _ _ _ ex_selector_alone (conj eq_refl (conj eq_refl H2)) H) as (A & _ & B).
    split; [rewrite A; auto|exact B].
  - intros ps s p c ps' s' H1 H2; apply quiet_may in H2 as [_ ->]; exact H1.
Qed.

Lemma custom_members : breeds_members ex_io ex_exp ex_custom ex_kept.
Proof.
  intros s [H1 H2]; split; [apply small_fits; cbn; lia|].
  intros p o Hp Hf Ho; exact (known_members ex_io ex_exp _ p H2 Hp Hf o Ho).
Qed.

Lemma custom_elites : default_elites ex_custom ex_kept.
Proof. intros s p l _; reflexivity. Qed.

Lemma c90_example : (exists J, kept ex_custom (quiet (stop_at 2)) (ex_eager 4) J /\ breeds_members ex_io ex_exp ex_custom J /\
  default_elites ex_custom J) /\ valid_is_number ex_io /\ equal_means_equal_fitness ex_io /\
  exists r, may (ex_custom_run 4) r /\ map (@individuals nat) (r_trace r) = [[3; 9]; [4; 9]; [5; 9]].
Proof.
  split; [exists ex_kept; split; [apply custom_kept; lia|split; [apply custom_members|apply custom_elites]]|].
  split; [apply c64_example|]; split; [apply c64_example|]; apply shown; vm_compute; reflexivity.
Qed.

Lemma c90_small_example : (exists J, kept ex_custom (quiet (stop_at 2)) (ex_eager 2) J /\ default_elites ex_custom J /\
    forall s, J s -> snd (alg_reproduction_parameters ex_custom s) <= 2) /\
  exists r, may (ex_custom_run 2) r /\ map (@individuals nat) (r_trace r) = [[3; 9]; [9]; [9]].
Proof.
  split; [|apply shown; vm_compute; reflexivity].
  exists (fun s => ex_kept s /\ ga_size s = 2); split; [|split; [intros s p l _; reflexivity|intros s [_ H]; cbn; lia]].
  destruct (custom_kept 2 ltac:(lia)) as (A & B & C); split; [|split].
  - intros s s' H; split; [eapply A; eauto|]; cbn [alg_configure ex_custom] in H.
    destruct (ga_configured s (ex_eager 2) s' (small_fits 2 ltac:(lia)) H) as (_ & e & _ & (J1 & _ & J3) & _); exact J1.
  - intros s p s' [H1 H2] H; split; [eapply B; eauto|]; cbn [alg_prepare ex_custom] in H.
    destruct (ga_prep ex_io ex_exp ex_model _ _ _ _ _ ex_selector_alone (conj H2 (conj eq_refl (proj2 H1))) H) as (X & _); exact X.
  - intros ps s p c ps' s' H1 H2; apply quiet_may in H2 as [_ ->]; exact H1.
Qed.

Lemma half_size : (INR 2 - 1 <= INR 2 * B2R (f_lit 1 2))%R.
Proof. rewrite (proj2 one_half); change (INR 2) with 2%R; lra. Qed.

Lemma different39 : all_different ex_io [3; 9].
Proof. intros [|[|i]] [|[|j]] x y Hij; cbn; try congruence; try (destruct i; discriminate); try (destruct j; discriminate); intros [= <-] [= <-]; reflexivity. Qed.

Lemma c91_example : (INR (ga_population_size (ex_eager 2)) - 1 <= INR (ga_population_size (ex_eager 2)) * B2R (ga_elitism_rate (ex_eager 2)))%R /\
  all_different ex_io [3; 9] /\
  (exists r, may ex_stuck r /\ map (@individuals nat) (r_trace r) = [[3; 9]; [9]; [9]]) /\
  (exists r, may ex_stuck_a r /\ map (@individuals nat) (r_trace r) = [[3; 9]; [9]; [9]]).
Proof.
  split; [exact half_size|]; split; [exact different39|]; split; apply shown; vm_compute; reflexivity.
Qed.
