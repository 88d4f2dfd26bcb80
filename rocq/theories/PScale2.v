(** * PScale2: runs on fitness in other units. *)
From Coq Require Import List Bool Arith NArith ZArith Reals Lia Lra Permutation.
From Flocq Require Import Core BinarySingleNaN.
From Verif Require Import Rnd LRnd F64 LF64 Prob LAlike MStats MPopulation MSelection MModel MAlgorithms SpecF SpecA SpecO SpecScale
  PPopulation PAlgorithms PIso PIso2 PScale.
From Verif Require PStats.
Import ListNotations.

Lemma alike_with {A B} (Q : A -> B -> Prop) (P : A -> Prop) m m' :
  alike Q m m' -> (forall a, may m a -> P a) -> alike (fun a b => Q a b /\ P a) m m'.
Proof.
  revert m'; induction m as [a|e|n k IH|n k IH]; intros [b|e'|n' k'|n' k'] H HP; cbn in *; try contradiction; auto.
  - destruct H as [-> H]; split; [reflexivity|]; intros i Hi; apply IH; auto; intros a Ha; apply HP; eauto.
  - destruct H as [-> H]; split; [reflexivity|]; intros i Hi; apply IH; auto; intros a Ha; apply HP; eauto.
Qed.
Lemma alike_with2 {A B} (Q : A -> B -> Prop) (P : A -> Prop) (P' : B -> Prop) m m' :
  alike Q m m' -> (forall a, may m a -> P a) -> (forall b, may m' b -> P' b) -> alike (fun a b => Q a b /\ P a /\ P' b) m m'.
Proof.
  revert m'; induction m as [a|e|n k IH|n k IH]; intros [b|e'|n' k'|n' k'] H HP HP'; cbn in *; try contradiction; auto.
  - destruct H as [-> H]; split; [reflexivity|]; intros i Hi; apply IH; auto; [intros a Ha; apply HP|intros a Ha; apply HP']; eauto.
  - destruct H as [-> H]; split; [reflexivity|]; intros i Hi; apply IH; auto; [intros a Ha; apply HP|intros a Ha; apply HP']; eauto.
Qed.
(** A population with individuals and their own statistics *)
Definition own {A} (ao : individual_ops A) (p : population A) : Prop :=
  individuals p <> [] /\ pop_stats p = stats_of ao (individuals p).
Lemma may_mapM_len {A B} (f : A -> M B) l r : may (mapM f l) r -> length r = length l.
Proof.
  revert r; induction l as [|a l IH]; intros r Hr; cbn [mapM] in Hr; [cbn in Hr; subst; reflexivity|].
  apply (proj1 (may_bind _ _ _)) in Hr as (b & _ & Hr); apply (proj1 (may_bind _ _ _)) in Hr as (t & Ht & Hr).
  cbn in Hr; subst; cbn; rewrite (IH t Ht); reflexivity.
Qed.
Lemma sublist_len {A} (a b : list A) : sublist a b -> length a <= length b.
Proof. intros H; induction H; cbn; lia. Qed.
Lemma filter_len {A} (f : A -> bool) l : length (filter f l) <= length l.
Proof. induction l; cbn; [lia|destruct (f a); cbn; lia]. Qed.

Section Units.
Context {I J : Type} (k : Z) (io : individual_ops I) (jo : individual_ops J) (R : I -> J -> Prop) (fexp : f64 -> f64).
Hypothesis (HU : other_units k io jo R).
Variable (B : nat).
Hypothesis (HB : exact_count B).

Lemma units_order : same_order io jo R.
Proof.
  destruct HU as (V & Q & F); split; [exact V|]; split; [exact Q|]; intros a b a' b' H H'.
  destruct (F a b H) as ([F1 _] & [F2 _] & E), (F a' b' H') as ([F1' _] & [F2' _] & E').
  apply (two_compare k); auto.
Qed.
Lemma units_weights l l' : Forall2 R l l' -> Forall2 (two_sums k 1) (map (fitness io) l) (map (fitness jo) l').
Proof. apply F2_map; intros a b H; apply two_sums_1; apply (proj2 (proj2 HU) a b H). Qed.

Lemma HF0 : False -> same_fitness io jo R.
Proof. intros []. Qed.
Let pop0 := rpop io jo R False.
Definition upop (p : population I) (q : population J) : Prop := pop0 p q /\ length (individuals p) <= B /\ own io p /\ own jo q.

Lemma collect_facts {A} (ao : individual_ops A) l r : may (sort_dedup_and_collect_stats ao l) r ->
  length (fst r) <= length l /\ fst r <> [] /\ snd r = stats_of ao (fst r).
Proof.
  unfold sort_dedup_and_collect_stats; intros Hr; apply (proj1 (may_bind _ _ _)) in Hr as (s & Hs & Hr).
  apply (proj1 (may_sort ao l s)) in Hs as [Hs _].
  apply (proj1 (may_bind _ _ _)) in Hr as (st & Hst & Hr); cbn in Hr; subst; cbn [fst snd].
  split; [rewrite (Permutation_length Hs); apply sublist_len, dedup_sub|].
  unfold populated_try_from in Hst; rewrite PStats.from_iter_count, map_length in Hst.
  destruct (dedup ao s); cbn in Hst; [contradiction|]; subst; split; [discriminate|reflexivity].
Qed.
Lemma new_facts {A} (ao : individual_ops A) l p : may (population_new ao l) p -> length (individuals p) <= length l /\ own ao p.
Proof.
  intros Hp; unfold population_new in Hp; apply (proj1 (may_bind _ _ _)) in Hp as ([a s] & Ha & Hp); cbn in Hp; subst; cbn.
  apply collect_facts in Ha; cbn in Ha; unfold own; cbn; tauto.
Qed.
Lemma replace_facts {A} (ao : individual_ops A) p l r : may (population_replace ao p l) r -> length (individuals (fst r)) <= length l /\ own ao (fst r).
Proof.
  intros Hp; unfold population_replace in Hp; apply (proj1 (may_bind _ _ _)) in Hp as ([a s] & Ha & Hp); cbn in Hp; subst; cbn.
  apply collect_facts in Ha; cbn in Ha; unfold own; cbn; tauto.
Qed.
Lemma units_new l l' : Forall2 R l l' -> length l <= B -> alike upop (population_new io l) (population_new jo l').
Proof.
  intros H Hl; eapply alike_mono; [|apply (alike_with2 pop0 (fun p => length (individuals p) <= B /\ own io p) (own jo));
    [apply (iso_new io jo R units_order False HF0); auto|..]].
  - intros a b (H1 & (H2 & H3) & H4); repeat split; auto; apply H1 || apply H3 || apply H4.
  - intros p Hp; apply new_facts in Hp; split; [lia|apply Hp].
  - intros p Hp; apply new_facts in Hp; apply Hp.
Qed.
Lemma units_replace p q l l' : upop p q -> Forall2 R l l' -> length l <= B ->
  alike (fun x y => upop (fst x) (fst y)) (population_replace io p l) (population_replace jo q l').
Proof.
  intros [Hp _] H Hl.
  eapply alike_mono; [|apply (alike_with2 (fun x y => pop0 (fst x) (fst y)) (fun x => length (individuals (fst x)) <= B /\ own io (fst x)) (fun y => own jo (fst y)));
    [apply (iso_replace io jo R units_order False HF0); eauto|..]].
  - intros a b (H1 & (H2 & H3) & H4); repeat split; auto; apply H1 || apply H3 || apply H4.
  - intros p' Hp'; apply replace_facts in Hp'; split; [lia|apply Hp'].
  - intros p' Hp'; apply replace_facts in Hp'; apply Hp'.
Qed.

(** ** Selection *)
Definition usel (s : selector I) (t : selector J) : Prop :=
  match s, t with
  | Tournament n, Tournament m => n = m
  | Rank, Rank => True
  | Elitist r, Elitist r' => r = r'
  | Linear b, Linear b' => b = b'
  | RouletteWheel t, RouletteWheel t' => two_sums k (2 ^ 53) t t'
  | _, _ => False
  end.
Definition ubreed (b : breeding I) (c : breeding J) : Prop :=
  crossover_rate b = crossover_rate c /\ mutation_rate b = mutation_rate c /\ usel (parent_selector b) (parent_selector c).

Lemma units_create st : unit_free st -> alike usel (create_selector st) (create_selector st).
Proof.
  intros H; destruct st; cbn in *; unfold tournament_new, elitist_new;
    try (apply alike_massert; [reflexivity|]; intros _); cbn; auto; try contradiction.
  eapply two_sums_mono; [|apply two_sums_0]; lia.
Qed.
Lemma units_prepare s t p q : usel s t -> Forall2 R (individuals p) (individuals q) -> length (individuals p) <= B ->
  alike usel (prepare io fexp s p) (prepare jo fexp t q).
Proof.
  intros Hs Ht Hl; pose proof (Forall2_len _ _ _ Ht) as El.
  destruct s, t; cbn [usel] in Hs; try contradiction; subst; cbn [prepare]; try exact Logic.I; try reflexivity.
  rewrite <- El; eapply alike_bind.
  - apply (two_par_sums k (length (individuals p)) _ _ (units_weights _ _ Ht)); rewrite map_length; unfold exact_count in HB; lia.
  - intros x y Hxy; cbn; eapply two_sums_mono; [|exact Hxy]; rewrite map_length; unfold exact_count in HB; lia.
Qed.

Let at2 := rat R.
Lemma units_wheel l l' : Forall2 R l l' -> forall x y c d e i, is_finite x = true -> is_finite y = true -> times_power k x y ->
  (0 <= e)%Z -> (e + Z.of_nat (length l) <= 2 ^ 53)%Z -> two_sums k e c d ->
  opt_rel at2 (wheel (fitness io) x c i l) (wheel (fitness jo) y d i l').
Proof.
  intros H; induction H as [|a b l l' Hab H IH]; intros x y c d e i Fx Fy E He Hn Hcd; cbn [wheel]; [exact Logic.I|].
  cbn [length] in Hn.
  destruct (proj2 (proj2 HU) a b Hab) as (M1 & M2 & M3).
  assert (Hs : two_sums k (e + 1) (fadd c (fitness io a)) (fadd d (fitness jo b))).
  { apply two_sums_add; auto; try lia; apply two_sums_1; auto. }
  pose proof Hs as (G1 & G2 & G3 & _).
  rewrite (proj1 (two_compare k _ _ _ _ G1 G2 Fx Fy G3 E)).
  destruct (fge _ _); [split; auto|]; apply (IH x y _ _ (e + 1)%Z); auto; lia.
Qed.
Lemma units_wheel_select l l' t t' u : Forall2 R l l' -> (Z.of_nat (length l) <= 2 ^ 53)%Z -> (u < 2 ^ 53)%N -> two_sums k (2 ^ 53) t t' ->
  alike at2 (wheel_select (fitness io) t (f_unit u) l) (wheel_select (fitness jo) t' (f_unit u) l').
Proof.
  intros H Hn Hu Ht; unfold wheel_select; destruct (two_targets k u t t' Hu Ht) as (F1 & F2 & E).
  pose proof (units_wheel l l' H _ _ f0 f0 0 0 F1 F2 E ltac:(lia) ltac:(lia) (two_sums_0 k)) as Hw.
  destruct (wheel (fitness io) _ _ _ _), (wheel (fitness jo) _ _ _ _); cbn in *; auto; try contradiction; apply iso_last_entry; auto.
Qed.
Lemma units_select s t p q : usel s t -> twins R p q -> length (individuals p) <= B -> alike at2 (select io fexp s p) (select jo fexp t q).
Proof.
  intros Hs Hpq Hl; destruct s, t; cbn [usel] in Hs; try contradiction; subst.
  1,3,4,5: apply (iso_select io jo R fexp False HF0); [cbn; auto|exact Hpq].
  cbn [select]; unfold gen_f64; cbn [bind alike]; split; [reflexivity|]; intros u Hu.
  apply units_wheel_select; auto; [apply Hpq|unfold exact_count in HB; lia].
Qed.
Lemma units_distinct s t p q n a b : usel s t -> twins R p q -> length (individuals p) <= B -> R a b ->
  alike (opt_rel at2) (select_distinct io fexp s p n a) (select_distinct jo fexp t q n b).
Proof.
  intros Hs Ht Hl Hab; induction n; cbn [select_distinct]; [exact Logic.I|].
  eapply alike_bind; [apply units_select; eauto|]; intros [i x] [j y] [E Hxy]; cbn in E, Hxy; subst.
  rewrite (proj1 (proj2 HU) x y a b) by auto; destruct (negb _); auto; cbn; split; auto.
Qed.

(** ** Breeding *)
Context {MS : Type} (mdl : model I MS) (ndl : model J MS).
Hypothesis (HM : models_alike R mdl ndl).

Lemma units_breed ms p q b c : ubreed b c -> twins R p q -> length (individuals p) <= B ->
  alike R (breed io fexp mdl ms p b) (breed jo fexp ndl ms q c).
Proof.
  destruct HM as (Hx & Hmu & Him & Hev & Hsu & _); intros (Ecr & Emr & Hs) Ht Hl; unfold breed.
  pose proof (Forall2_len _ _ _ (proj1 Ht)) as El.
  eapply alike_bind; [apply units_select; eauto|]; intros [i x] [j y] [_ Hxy]; cbn in Hxy.
  eapply (alike_bind (opt_rel R)).
  - unfold breed_parent2; rewrite El, Ecr; apply alike_if; [reflexivity| |exact Logic.I].
    eapply alike_bind; [apply alike_eq|]; intros u ? <-; apply alike_if; [reflexivity| |exact Logic.I].
    eapply alike_bind; [apply units_distinct; eauto|]; intros [[k0 u1]|] [[k' v1]|] Ho; cbn in *; auto; apply Ho.
  - intros o o' Ho; unfold breed_from; rewrite Emr.
    assert (Hfit : R (match o with Some q0 => if fgt (fitness io q0) (fitness io x) then q0 else x | None => x end)
                     (match o' with Some q0 => if fgt (fitness jo q0) (fitness jo y) then q0 else y | None => y end)).
    { destruct o as [u|], o' as [v|]; cbn in Ho; try contradiction; auto.
      change (fgt (fitness io u) (fitness io x)) with (flt (fitness io x) (fitness io u)).
      change (fgt (fitness jo v) (fitness jo y)) with (flt (fitness jo y) (fitness jo v)).
      rewrite (iso_lt io jo R units_order x y u v) by auto; destruct (flt _ _); auto. }
    set (fp := match o with Some q0 => if fgt (fitness io q0) (fitness io x) then q0 else x | None => x end) in *.
    set (fp' := match o' with Some q0 => if fgt (fitness jo q0) (fitness jo y) then q0 else y | None => y end) in *.
    eapply (alike_bind R); [destruct o as [u|], o' as [v|]; cbn in Ho; try contradiction; cbn; auto|]; intros o1 o1' H1.
    eapply alike_bind; [apply alike_eq|]; intros u ? <-.
    eapply (alike_bind R); [apply alike_if; [reflexivity|auto|exact H1]|]; intros o2 o2' H2.
    eapply alike_bind; [apply Him; eauto|]; intros o3 o3' H3.
    eapply alike_bind; [apply Hev; eauto|]; intros o4 o4' H4.
    rewrite (proj1 HU o4 o4' H4).
    eapply (alike_bind eq); [apply alike_if; [reflexivity|apply Hsu; auto|reflexivity]|]; intros sv ? <-.
    cbn; destruct sv; auto.
Qed.
Lemma units_generate ms p q b c n l l' : ubreed b c -> twins R p q -> length (individuals p) <= B -> Forall2 R l l' -> length l <= B -> n <= B ->
  alike (fun u v => Forall2 R u v /\ length u <= B) (generate_new_population io fexp mdl ms (b, n) p l) (generate_new_population jo fexp ndl ms (c, n) q l').
Proof.
  intros Hb Ht HL Hl HlB Hn; apply alike_with.
  - unfold generate_new_population; rewrite (Forall2_len _ _ _ Hl).
    pose proof (units_breed ms p q b c Hb Ht HL) as Hbr.
    destruct (n - length l') as [|[|k0]]; [exact Hl| |].
    + eapply alike_bind; [exact Hbr|]; intros _ _ _; exact Hl.
    + eapply alike_bind; [apply alike_repeatM, Hbr|]; intros u v Huv; cbn; apply Forall2_app; auto.
  - intros r Hr; apply generate_may in Hr as (news & -> & E & _); rewrite app_length, E; unfold appended.
    destruct (n - length l) as [|[|m]] eqn:En; cbn; lia.
Qed.
Lemma units_initialize ms l l' : Forall2 R l l' -> length l <= B -> alike upop (initialize_population io mdl ms l) (initialize_population jo ndl ms l').
Proof.
  intros H Hl; unfold initialize_population.
  eapply alike_bind; [apply (alike_with (Forall2 R) (fun r => length r = length l)); [eapply alike_mapM; [apply HM|exact H]|intros r; apply may_mapM_len]|].
  intros u v [Huv Hu]; apply units_new; [apply F2_filter; auto; apply HU|]; pose proof (filter_len (is_valid io) u); lia.
Qed.

(** ** Runs of two algorithms *)
Section Alg.
Context {P S0 S1 PS : Type} (alg : algorithm I MS P S0) (blg : algorithm J MS P S1) (RS : S0 -> S1 -> Prop) (R0 : S0 -> S1 -> Prop) (q0 : P).
Hypothesis (Hcfg : forall s t, R0 s t -> alike RS (alg_configure alg s q0) (alg_configure blg t q0)).
Hypothesis (Hmod0 : forall s t, R0 s t -> alg_model alg s = alg_model blg t).
Hypothesis (Hmod : forall s t, RS s t -> alg_model alg s = alg_model blg t).
Hypothesis (Hrep : forall s t, RS s t -> ubreed (fst (alg_reproduction_parameters alg s)) (fst (alg_reproduction_parameters blg t)) /\
  snd (alg_reproduction_parameters alg s) = snd (alg_reproduction_parameters blg t) /\ snd (alg_reproduction_parameters alg s) <= B).
Hypothesis (Hprep : forall s t p q, RS s t -> upop p q -> alike RS (alg_prepare alg s p) (alg_prepare blg t q)).
Hypothesis (Hel : forall s t p q, RS s t -> upop p q ->
  alike (fun u v => Forall2 R u v /\ length u <= B) (alg_select_elites alg s p []) (alg_select_elites blg t q [])).
Hypothesis (Hsize : alg_initial_population_size alg q0 = alg_initial_population_size blg q0 /\ alg_initial_population_size alg q0 <= B).
Variables (f : PS -> population I -> M (bool * PS)) (g : PS -> population J -> M (bool * PS)).
Hypothesis (Hfg : forall ps p q, twins R p q -> alike eq (f ps p) (g ps q)).

Lemma upop_twins p q : upop p q -> twins R p q.
Proof. intros [[H _] _]; exact H. Qed.

Lemma units_step s t p q : RS s t -> upop p q ->
  alike (fun x y => RS (fst x) (fst y) /\ upop (snd x) (snd y)) (evolve_step io fexp mdl alg s p) (evolve_step jo fexp ndl blg t q).
Proof.
  intros Hs Hp; unfold evolve_step; eapply alike_bind; [apply Hprep; eauto|]; intros s1 t1 H1.
  eapply alike_bind; [apply Hel; eauto|]; intros e e' [He Hle].
  destruct (Hrep _ _ H1) as (Hb & Hn & HnB); rewrite (Hmod _ _ H1).
  destruct (alg_reproduction_parameters alg s1) as [b n], (alg_reproduction_parameters blg t1) as [c m]; cbn in Hb, Hn, HnB; subst m.
  eapply alike_bind; [apply units_generate; eauto; [apply upop_twins; auto|apply Hp]|]; intros u v [Huv HuB].
  eapply alike_bind; [apply units_replace; eauto|]; intros [p' o] [q' o'] Hpq; cbn in *; auto.
Qed.
Lemma units_loop fuel : forall s t p q ps tr tr', RS s t -> upop p q -> Forall2 upop tr tr' ->
  alike (twin_runs upop) (evolve_loop io fexp mdl alg (quiet f) fuel s p ps tr) (evolve_loop jo fexp ndl blg (quiet g) fuel t q ps tr').
Proof.
  induction fuel as [|fuel IH]; intros s t p q ps tr tr' Hs Hp Htr; cbn [evolve_loop]; [reflexivity|].
  eapply (alike_bind (fun x y => fst x = fst y /\ RS (snd x) (snd y))).
  - unfold quiet; eapply alike_bind; [apply Hfg, upop_twins; eauto|]; intros [c ps'] ? <-; cbn; auto.
  - intros [[c ps'] s1] [[c' ps''] t1] [[= -> ->] H1]; cbn in H1; destruct c'.
    + eapply alike_bind; [apply units_step; eauto|]; intros [s2 p2] [t2 q2] [H2 H3]; apply IH; auto; apply Forall2_app; auto.
    + cbn; split; [exact Hp|]; split; [reflexivity|]; cbn; apply Forall2_app; auto.
Qed.
Lemma units_evolve fuel s t init init' ps : R0 s t -> Forall2 R init init' -> length init <= B ->
  alike (twin_runs upop) (evolve_population io fexp mdl alg (quiet f) fuel s init q0 ps) (evolve_population jo fexp ndl blg (quiet g) fuel t init' q0 ps).
Proof.
  intros Hs Hi HiB; unfold evolve_population; eapply alike_bind; [apply Hcfg; eauto|]; intros s1 t1 H1.
  rewrite (Hmod _ _ H1); eapply alike_bind; [apply units_initialize; eauto|]; intros p q Hp; apply units_loop; auto.
Qed.
Lemma units_run fuel s t nr nr' ps : R0 s t -> alike R nr nr' ->
  alike (twin_results R upop) (evolution_run io fexp mdl alg (quiet f) fuel s nr q0 ps) (evolution_run jo fexp ndl blg (quiet g) fuel t nr' q0 ps).
Proof.
  intros Hs Hn; unfold evolution_run; eapply (alike_bind (fun u v => Forall2 R u v /\ length u <= B)).
  - unfold extend_population; rewrite <- (proj1 Hsize); apply alike_if; [reflexivity|split; [constructor|cbn; lia]|].
    eapply (alike_bind (fun u v => Forall2 R u v /\ length u = alg_initial_population_size alg q0)).
    + apply (alike_with (Forall2 R)); [apply alike_repeatM, Hn|]; intros r Hr; apply may_repeatM in Hr; apply Hr.
    + intros u v [Huv E]; split; [exact Huv|]; cbn in E |- *; lia.
  - intros u v [Huv E]; eapply alike_bind; [apply units_evolve; eauto|]; intros r r' Hr.
    eapply alike_bind; [apply (iso_take io jo R False), Hr|]; intros x y Hxy; split; auto.
Qed.
Lemma units_individual fuel s t x y ps : R0 s t -> R x y ->
  alike (twin_results R upop) (evolve_individual io fexp mdl alg (quiet f) fuel s x q0 ps) (evolve_individual jo fexp ndl blg (quiet g) fuel t y q0 ps).
Proof.
  intros Hs Hn; unfold evolve_individual; eapply (alike_bind (fun u v => Forall2 R u v /\ length u <= B)).
  - unfold extend_population_with; rewrite <- (proj1 Hsize), (Hmod0 _ _ Hs).
    destruct Hsize as [_ Hs1]; remember (alg_initial_population_size alg q0) as n eqn:En.
    destruct n as [|[|n]]; [split; [constructor|cbn; lia]|split; [cbn; auto|exact Hs1]|cbn [Nat.eqb]].
    eapply (alike_bind (fun u v => Forall2 R u v /\ length u = S n)).
    + apply (alike_with (Forall2 R)); [apply alike_repeatM, HM; eauto|]; intros r Hr; apply may_repeatM in Hr; rewrite (proj1 Hr); lia.
    + intros u v [Huv E]; cbn [alike]; split; [cbn; auto|cbn; lia].
  - intros u v [Huv E]; eapply alike_bind; [apply units_evolve; eauto|]; intros r r' Hr.
    eapply alike_bind; [apply (iso_take io jo R False), Hr|]; intros a b Hab; split; auto.
Qed.
End Alg.

Lemma units_select_top n p q : upop p q -> alike (fun u v => Forall2 R u v /\ length u <= B) (select_top n p []) (select_top n q []).
Proof.
  intros [[(Ht & _) _] [Hl _]]; unfold select_top; rewrite <- (Forall2_len _ _ _ Ht); apply alike_if; [reflexivity| |split; [constructor|cbn; lia]].
  eapply (alike_bind (fun u v => Forall2 R u v /\ length u <= B)); [|intros u v Huv; exact Huv].
  apply (alike_with (Forall2 R)); [apply alike_slice; auto|].
  intros r Hr; unfold slice in Hr; destruct (_ && _); cbn in Hr; [subst|contradiction].
  rewrite firstn_length, skipn_length; lia.
Qed.

(** ** GA *)
Definition uga (s : ga_state I MS) (t : ga_state J MS) : Prop :=
  ga_model s = ga_model t /\ ga_size s = ga_size t /\ ga_elite_size s = ga_elite_size t /\ ubreed (ga_breeding s) (ga_breeding t) /\ ga_size s <= B.
Lemma units_ga_configure q s t : unit_free (ga_selection_strategy q) -> ga_population_size q <= B -> ga_model s = ga_model t ->
  alike uga (ga_configure s q) (ga_configure t q).
Proof.
  intros Hr Hq Hm; unfold ga_configure; eapply alike_bind; [apply alike_eq|]; intros _ _ _.
  eapply alike_bind; [apply alike_eq|]; intros e ? <-; eapply alike_bind; [apply units_create; eauto|]; intros u v Huv.
  cbn; repeat split; auto.
Qed.
Lemma units_ga_prepare s t p q : uga s t -> upop p q -> alike uga (ga_prepare io fexp mdl s p) (ga_prepare jo fexp ndl t q).
Proof.
  intros (H1 & H2 & H3 & (H4 & H5 & H6) & H7) [[(Hp & _) _] [HpB _]]; destruct HM as (_ & _ & _ & _ & _ & P1 & P2).
  unfold ga_prepare; rewrite P1, P2; cbn [bind]; eapply alike_bind; [apply units_prepare; eauto|]; intros u v Huv.
  cbn; repeat split; auto.
Qed.

Variables (PS : Type) (f : PS -> population I -> M (bool * PS)) (g : PS -> population J -> M (bool * PS)).
Hypothesis (Hfg : forall ps p q, twins R p q -> alike eq (f ps p) (g ps q)).

Lemma units_ga_evolve q fuel s t init init' ps : unit_free (ga_selection_strategy q) -> ga_population_size q <= B -> ga_model s = ga_model t ->
  Forall2 R init init' -> length init <= B ->
  alike (twin_runs (twins R)) (evolve_population io fexp mdl (ga_algorithm io fexp mdl) (quiet f) fuel s init q ps)
    (evolve_population jo fexp ndl (ga_algorithm jo fexp ndl) (quiet g) fuel t init' q ps).
Proof.
  intros Hr Hq Hm Hi HiB; eapply alike_mono; [|apply (units_evolve (ga_algorithm io fexp mdl) (ga_algorithm jo fexp ndl) uga (fun s t => ga_model s = ga_model t)); auto].
  - intros a b; apply twin_runs_mono, upop_twins.
  - intros; apply units_ga_configure; auto.
  - intros ? ? H; apply H.
  - intros ? ? H; split; [apply H|split; apply H].
  - intros; apply units_ga_prepare; auto.
  - intros s' t' p' q' (_ & _ & E & _) Hp; cbn; rewrite E; apply units_select_top; auto.
Qed.
Lemma units_ga_run q fuel s t nr nr' ps : unit_free (ga_selection_strategy q) -> ga_population_size q <= B -> ga_model s = ga_model t -> alike R nr nr' ->
  alike (twin_results R (twins R)) (evolution_run io fexp mdl (ga_algorithm io fexp mdl) (quiet f) fuel s nr q ps)
    (evolution_run jo fexp ndl (ga_algorithm jo fexp ndl) (quiet g) fuel t nr' q ps).
Proof.
  intros Hr Hq Hm Hi; eapply alike_mono; [|apply (units_run (ga_algorithm io fexp mdl) (ga_algorithm jo fexp ndl) uga (fun s t => ga_model s = ga_model t)); auto].
  - intros a b; apply twin_results_mono, upop_twins.
  - intros; apply units_ga_configure; auto.
  - intros ? ? H; apply H.
  - intros ? ? H; split; [apply H|split; apply H].
  - intros; apply units_ga_prepare; auto.
  - intros s' t' p' q' (_ & _ & E & _) Hp; cbn; rewrite E; apply units_select_top; auto.
Qed.
Lemma units_ga_individual q fuel s t x y ps : unit_free (ga_selection_strategy q) -> ga_population_size q <= B -> ga_model s = ga_model t -> R x y ->
  alike (twin_results R (twins R)) (evolve_individual io fexp mdl (ga_algorithm io fexp mdl) (quiet f) fuel s x q ps)
    (evolve_individual jo fexp ndl (ga_algorithm jo fexp ndl) (quiet g) fuel t y q ps).
Proof.
  intros Hr Hq Hm Hi; eapply alike_mono; [|apply (units_individual (ga_algorithm io fexp mdl) (ga_algorithm jo fexp ndl) uga (fun s t => ga_model s = ga_model t)); auto].
  - intros a b; apply twin_results_mono, upop_twins.
  - intros; apply units_ga_configure; auto.
  - intros ? ? H; apply H.
  - intros ? ? H; split; [apply H|split; apply H].
  - intros; apply units_ga_prepare; auto.
  - intros s' t' p' q' (_ & _ & E & _) Hp; cbn; rewrite E; apply units_select_top; auto.
Qed.
End Units.
