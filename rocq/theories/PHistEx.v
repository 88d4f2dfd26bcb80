(** * PHistEx: the examples of Properties_History. *)
From Coq Require Import List Bool Arith NArith ZArith Lia.
From Verif Require Import Rnd LRnd F64 MStats MPopulation MSelection MModel MAlgorithms SpecF SpecA SpecH ExF ExM ExR ExH
  PModel PAlgorithms PRun PRun3 PRun4 PRun5.
Import ListNotations.
Local Open Scope nat_scope.

Lemma hist_must cr mr st : rate cr -> rate mr -> strategy_accepted st -> robust_strategy st -> must (ex_hist (ex_ga4 cr mr st)) (fun _ => True).
Proof.
  intros Hc Hm Hs Hr; eapply must_mono; [|refine (proj2 (ga_total ex_io ex_exp ex_model (fun _ => True) (stop_at 2) (ga_from tt) [0; 3; 9] (ex_ga4 cr mr st) tt _ _ _ _ _ _ _ _) 2 _)].
  - auto.
  - split; [discriminate|]; split; [apply ratio_lit; vm_compute; reflexivity|]; split; [exact Hc|]; split; [exact Hm|exact Hs].
  - cbn; lia.
  - apply small_fits; cbn; lia.
  - apply small_fits; cbn; lia.
  - exact Hr.
  - exact ex_total_any.
  - split; [repeat constructor|]; exists 3; split; [right; left; auto|reflexivity].
  - intros; apply stop_total.
  - intros; apply stop_stops; auto.
Qed.
Lemma hista_must cr mr st : rate (fst cr) -> rate (snd cr) -> rate (fst mr) -> rate (snd mr) -> strategy_accepted st -> robust_strategy st ->
  must (ex_hista (ex_aga4 cr mr st)) (fun _ => True).
Proof.
  intros Hc Hc' Hm Hm' Hs Hr; eapply must_mono; [|refine (proj2 (aga_total ex_io ex_exp ex_model (fun _ => True) (stop_at 2) (aga_from tt) [0; 3; 9] (ex_aga4 cr mr st) tt _ _ _ _ _ _ _ _) 2 _)].
  - auto.
  - split; [discriminate|]; split; [apply ratio_lit; vm_compute; reflexivity|]; repeat (split; [assumption|]); exact Hs.
  - cbn; lia.
  - apply small_fits; cbn; lia.
  - apply small_fits; cbn; lia.
  - exact Hr.
  - exact ex_total_any.
  - split; [repeat constructor|]; exists 3; split; [right; left; auto|reflexivity].
  - intros; apply stop_total.
  - intros; apply stop_stops; auto.
Qed.

Lemma rate0 : rate f0. Proof. apply rate_spec; vm_compute; reflexivity. Qed.
Lemma rate1 : rate f1. Proof. apply rate_spec; vm_compute; reflexivity. Qed.

Lemma possible {S0} (m : M (run_result nat S0 unit)) (c : run_result nat S0 unit -> bool) : must m (fun _ => True) ->
  match run m [] with Some r => c r | None => false end = true -> exists r, may m r /\ c r = true.
Proof. intros Hm H; destruct (run m []) as [r|] eqn:E; [|discriminate]; exists r; split; [exact (run_may _ _ _ _ Hm E)|exact H]. Qed.

Lemma c78_example :
  (exists r, may (ex_hist (ex_ga4 f1 f1 StRank)) r /\ map (@individuals nat) (r_trace r) = [[3; 9]; [3; 4; 9]; [4; 9]]) /\
  (exists r, may (ex_hista (ex_aga4 (f0, f1) (f0, f1) StRank)) r /\ length (r_trace r) = 3).
Proof.
  split.
  - destruct (possible (ex_hist (ex_ga4 f1 f1 StRank)) (fun r => if list_eq_dec (list_eq_dec Nat.eq_dec) (map (@individuals nat) (r_trace r)) [[3; 9]; [3; 4; 9]; [4; 9]] then true else false)
      (hist_must _ _ StRank rate1 rate1 Logic.I Logic.I)) as (r & Hr & E); [vm_compute; reflexivity|].
    exists r; split; [exact Hr|]; destruct (list_eq_dec _ _ _); [assumption|discriminate].
  - destruct (possible (ex_hista (ex_aga4 (f0, f1) (f0, f1) StRank)) (fun r => length (r_trace r) =? 3)
      (hista_must (f0, f1) (f0, f1) StRank rate0 rate1 rate0 rate1 Logic.I Logic.I)) as (r & Hr & E); [vm_compute; reflexivity|].
    exists r; split; [exact Hr|apply Nat.eqb_eq; exact E].
Qed.

Lemma ex_selector_alone : selector_left_alone ex_model.
Proof. intros ms p b ms' b' [= <- <-]; auto. Qed.
Lemma ex_rates_alone : rates_left_alone ex_model.
Proof. intros ms p b ms' b' [= <- <-]; auto. Qed.

Lemma half_not_zero sg : f_lit 1 2 <> BinarySingleNaN.B754_zero sg.
Proof.
  intros E; assert (H : feq (f_lit 1 2) f0 = false) by (vm_compute; reflexivity).
  rewrite E in H; destruct sg; vm_compute in H; discriminate.
Qed.
Lemma c79_example : selector_left_alone ex_model /\
  exists r, may (ex_hist (ex_ga4 f1 f1 (StBoltzmann f1 (f_lit 1 2)))) r /\ length (r_trace r) = 3.
Proof.
  split; [apply ex_selector_alone|].
  destruct (possible (ex_hist (ex_ga4 f1 f1 (StBoltzmann f1 (f_lit 1 2)))) (fun r => length (r_trace r) =? 3)
      (hist_must _ _ (StBoltzmann f1 (f_lit 1 2)) rate1 rate1 half_not_zero Logic.I)) as (r & Hr & E); [vm_compute; reflexivity|].
  exists r; split; [exact Hr|apply Nat.eqb_eq; exact E].
Qed.

Lemma ex_settled : settled ex_model.
Proof. split; [intros ms x y H; cbn in H; auto|intros ms ms' x y z H1 H2; cbn in H1, H2; congruence]. Qed.
Lemma c80_example : selector_left_alone ex_model /\ rates_left_alone ex_model /\ settled ex_model /\
  (exists r, may (ex_hist (ex_ga4 f0 f0 StRank)) r /\ length (r_trace r) = 3) /\
  (exists r, may (ex_hista (ex_aga4 (f0, f0) (f0, f0) StRank)) r /\ length (r_trace r) = 3).
Proof.
  split; [apply ex_selector_alone|]; split; [apply ex_rates_alone|]; split; [apply ex_settled|]; split.
  - destruct (possible (ex_hist (ex_ga4 f0 f0 StRank)) (fun r => length (r_trace r) =? 3)
      (hist_must _ _ StRank rate0 rate0 Logic.I Logic.I)) as (r & Hr & E); [vm_compute; reflexivity|].
    exists r; split; [exact Hr|apply Nat.eqb_eq; exact E].
  - destruct (possible (ex_hista (ex_aga4 (f0, f0) (f0, f0) StRank)) (fun r => length (r_trace r) =? 3)
      (hista_must (f0, f0) (f0, f0) StRank rate0 rate0 rate0 rate0 Logic.I Logic.I)) as (r & Hr & E); [vm_compute; reflexivity|].
    exists r; split; [exact Hr|apply Nat.eqb_eq; exact E].
Qed.

(** With rates above 0 something new does appear. *)
Lemma c80_new : exists r, may (ex_hist (ex_ga4 f1 f1 StRank)) r /\ ~ nothing_new (r_trace r).
Proof.
  destruct (possible (ex_hist (ex_ga4 f1 f1 StRank)) (fun r => match r_trace r with
      | [p0; p1; p2] => existsb (fun x => negb (existsb (Nat.eqb x) (individuals p0))) (individuals p1) | _ => false end)
      (hist_must _ _ StRank rate1 rate1 Logic.I Logic.I)) as (r & Hr & E); [vm_compute; reflexivity|].
  exists r; split; [exact Hr|]; destruct (r_trace r) as [|p0 [|p1 [|p2 [|? ?]]]]; try discriminate.
  apply existsb_exists in E as (x & Hx & E); intros H; specialize (H p0 1 p1 x eq_refl eq_refl Hx).
  apply negb_true_iff in E; assert (X : existsb (Nat.eqb x) (individuals p0) = true) by (apply existsb_exists; exists x; rewrite Nat.eqb_refl; auto).
  congruence.
Qed.
