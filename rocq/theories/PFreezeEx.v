(** * PFreezeEx: the example of C89. *)
From Coq Require Import List Bool Arith NArith ZArith Lia.
From Flocq Require Import BinarySingleNaN.
From Verif Require Import Rnd LRnd F64 MStats MPopulation MSelection MModel MAlgorithms SpecF SpecA SpecH ExF ExM ExR ExH
  PModel PAlgorithms PRun PRun3 PRun4 PRun5 PHistEx.
Import ListNotations.
Local Open Scope nat_scope.

Lemma frozen_must : must ex_frozen (fun _ => True).
Proof.
  eapply must_mono; [|refine (proj2 (aga_total ex_io ex_exp ex_model (fun _ => True) (stop_at 2) (aga_from tt) [0; 3] (ex_aga4 (f0, f1) (f0, f1) StRank) tt _ _ _ _ _ _ _ _) 2 _)].
  - auto.
  - split; [discriminate|]; split; [apply ratio_lit; vm_compute; reflexivity|]; repeat (split; [apply rate0||apply rate1|]); exact Logic.I.
  - cbn; lia.
  - apply small_fits; cbn; lia.
  - apply small_fits; cbn; lia.
  - exact Logic.I.
  - exact ex_total_any.
  - split; [repeat constructor|]; exists 3; split; [right; left; auto|reflexivity].
  - intros; apply stop_total.
  - intros; apply stop_stops; auto.
Qed.

Lemma same3 : same_fitness ex_io [3].
Proof. exists (fitness ex_io 3); split; [vm_compute; reflexivity|intros x [<-|[]]; vm_compute; reflexivity]. Qed.

Lemma c89_example : selector_left_alone ex_model /\ rates_left_alone ex_model /\ settled ex_model /\
  adjusts (aga_parameter_adjustment_interval (ex_aga4 (f0, f1) (f0, f1) StRank)) 1 /\ same_fitness ex_io [3] /\
  exists r, may ex_frozen r /\ map (@individuals nat) (r_trace r) = [[3]; [3]; [3]].
Proof.
  split; [apply ex_selector_alone|]; split; [apply ex_rates_alone|]; split; [apply ex_settled|].
  split; [repeat split; try discriminate; exists 1; reflexivity|]; split; [apply same3|].
  destruct (possible ex_frozen (fun r => if list_eq_dec (list_eq_dec Nat.eq_dec) (map (@individuals nat) (r_trace r)) [[3]; [3]; [3]] then true else false)
    frozen_must) as (r & Hr & E); [vm_compute; reflexivity|].
  exists r; split; [exact Hr|]; destruct (list_eq_dec _ _ _); [assumption|discriminate].
Qed.
