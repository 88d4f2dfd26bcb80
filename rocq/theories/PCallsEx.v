(** * PCallsEx: concrete cases for C115. *)
From Coq Require Import List Bool Arith NArith Lia ZArith.
From Verif Require Import Rnd LRnd F64 Spec SpecA SpecF SpecP MStats MPopulation MSelection MModel MAlgorithms ExF ExM ExR ExH ExP PCalls.
Import ListNotations.

(** An execution with its marks, against a tape *)
Fixpoint run_calls {A} (m : M A) (tape : list N) : option (nat * A) :=
  match m with
  | Ret a => Some (0, a)
  | Fail _ => None
  | Draw b k =>
      if (b =? 0)%N then match run_calls (k 0%N) tape with Some (n, a) => Some (S n, a) | None => None end
      else match tape with [] => run_calls (k 0%N) [] | t :: ts => run_calls (k (t mod b)%N) ts end
  | Pick b k =>
      if (b =? 0)%N then None
      else match tape with [] => run_calls (k 0%N) [] | t :: ts => run_calls (k (t mod b)%N) ts end
  end.

Lemma run_calls_may {A} (m : M A) : forall tape n a, run_calls m tape = Some (n, a) -> may_calls m n a.
Proof.
  induction m as [b|e|b k IH|b k IH]; intros tape n a; cbn [run_calls may_calls].
  - intros [= <- <-]. auto.
  - discriminate.
  - destruct (N.eqb_spec b 0) as [_|Hb].
    + destruct (run_calls (k 0%N) tape) as [(n', a')|] eqn:E; [|discriminate]. intros [= <- <-]. eapply IH; exact E.
    + destruct tape as [|t ts]; intros H; eexists; (split; [|eapply IH; exact H]); [lia|apply N.mod_lt, Hb].
  - destruct (N.eqb_spec b 0) as [_|Hb]; [discriminate|].
    destruct tape as [|t ts]; intros H; eexists; (split; [|eapply IH; exact H]); [lia|apply N.mod_lt, Hb].
Qed.

Lemma run_calls_has {A} (m : M A) tape (n : nat) (P : A -> bool) :
  match run_calls m tape with Some (n', a) => (n' =? n) && P a | None => false end = true ->
  exists a, may_calls m n a /\ P a = true.
Proof.
  destruct (run_calls m tape) as [(n', a)|] eqn:E; [|discriminate]. intros H. apply andb_true_iff in H. destruct H as (H1 & H2).
  apply Nat.eqb_eq in H1. subst n'. exists a. split; [eapply run_calls_may; exact E|exact H2].
Qed.

Lemma ex_unmarked : unmarked_model ex_model.
Proof.
  split; [intros; exact I|]. split; [intros; exact I|]. split; [intros; exact I|]. split; [intros; exact I|].
  split; [intros; exact I|]. intros ms p b. split; [exact I|]. intros U ms' b' H. cbn in H. injection H as <- <-. exact U.
Qed.
Lemma ex_stop_unmarked ps p : unmarked (stop_at (I := nat) 2 ps p).
Proof. exact I. Qed.

Definition ex_shown (r : run_result nat (ga_state nat unit) unit) (l : list (list nat)) : bool :=
  if list_eq_dec (list_eq_dec Nat.eq_dec) (map (@individuals nat) (r_trace r)) l then true else false.
Lemma ex_shown_eq r l : ex_shown r l = true -> map (@individuals nat) (r_trace r) = l.
Proof. unfold ex_shown. destruct (list_eq_dec _ _ _); [auto|discriminate]. Qed.

Lemma c115_example : unmarked_model ex_model /\ (forall ps p, unmarked (stop_at (I := nat) 2 ps p)) /\
  (exists r, may_calls (ex_watched Evaluate) (3 + 2 + 2) r /\ map (@individuals nat) (r_trace r) = [[3; 9]; [3; 4; 9]; [4; 9]]) /\
  (exists r, may_calls (ex_watched Mutate) 4 r /\ map (@individuals nat) (r_trace r) = [[3; 9]; [3; 4; 9]; [4; 9]]) /\
  (exists r, may_calls (ex_watched Crossover) 0 r /\ map (@individuals nat) (r_trace r) = [[3; 9]; [3; 4; 9]; [4; 9]]) /\
  (exists r, may_calls (ex_watched PreGeneration) 2 r /\ map (@individuals nat) (r_trace r) = [[3; 9]; [3; 4; 9]; [4; 9]]).
Proof.
  split; [exact ex_unmarked|]. split; [exact ex_stop_unmarked|].
  split; [|split; [|split]].
  - destruct (run_calls_has (ex_watched Evaluate) [] 7 (fun r => ex_shown r [[3; 9]; [3; 4; 9]; [4; 9]])) as (r & H & E); [vm_compute; reflexivity|].
    exists r. split; [exact H|apply ex_shown_eq, E].
  - destruct (run_calls_has (ex_watched Mutate) [] 4 (fun r => ex_shown r [[3; 9]; [3; 4; 9]; [4; 9]])) as (r & H & E); [vm_compute; reflexivity|].
    exists r. split; [exact H|apply ex_shown_eq, E].
  - destruct (run_calls_has (ex_watched Crossover) [] 0 (fun r => ex_shown r [[3; 9]; [3; 4; 9]; [4; 9]])) as (r & H & E); [vm_compute; reflexivity|].
    exists r. split; [exact H|apply ex_shown_eq, E].
  - destruct (run_calls_has (ex_watched PreGeneration) [] 2 (fun r => ex_shown r [[3; 9]; [3; 4; 9]; [4; 9]])) as (r & H & E); [vm_compute; reflexivity|].
    exists r. split; [exact H|apply ex_shown_eq, E].
Qed.
