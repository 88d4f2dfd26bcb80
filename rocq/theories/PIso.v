(** * PIso: runs of two models that do the same on related individuals (C113). *)
From Coq Require Import List Bool Arith NArith ZArith Lia.
From Flocq Require Import IEEE754.BinarySingleNaN.
From Verif Require Import Rnd LRnd F64 MStats MPopulation MSelection MModel MAlgorithms SpecO LAlike.
Import ListNotations.

Lemma fcmp_nan x : f_is_nan x = match fcmp x x with None => true | _ => false end.
Proof.
  destruct x as [s|s| |s m e H]; unfold fcmp, f_is_nan; cbn; auto; try (destruct s; reflexivity).
Qed.
Lemma flt_fcmp x y : flt x y = match fcmp x y with Some Lt => true | _ => false end.
Proof. reflexivity. Qed.
Lemma fle_fcmp x y : fle x y = match fcmp x y with Some Lt | Some Eq => true | _ => false end.
Proof. unfold fle, Bleb, SpecFloat.SFleb, fcmp, Bcompare; destruct (SpecFloat.SFcompare _ _) as [[]|]; reflexivity. Qed.

Section Iso.
Context {I J : Type} (io : individual_ops I) (jo : individual_ops J) (R : I -> J -> Prop) (fexp : f64 -> f64).
Hypothesis (HR : same_order io jo R).
(** [Full]: the fitness values themselves agree. *)
Variables (Full : Prop).
Hypothesis (HF : Full -> same_fitness io jo R).

Definition opt_rel {A B} (Q : A -> B -> Prop) (o : option A) (o' : option B) : Prop :=
  match o, o' with Some a, Some b => Q a b | None, None => True | _, _ => False end.

Lemma iso_cmp a b a' b' : R a b -> R a' b' -> fcmp (fitness io a) (fitness io a') = fcmp (fitness jo b) (fitness jo b').
Proof. apply HR. Qed.
Lemma iso_lt a b a' b' : R a b -> R a' b' -> flt (fitness io a) (fitness io a') = flt (fitness jo b) (fitness jo b').
Proof. intros; rewrite !flt_fcmp, (iso_cmp a b a' b'); auto. Qed.
Lemma iso_le a b a' b' : R a b -> R a' b' -> fle (fitness io a) (fitness io a') = fle (fitness jo b) (fitness jo b').
Proof. intros; rewrite !fle_fcmp, (iso_cmp a b a' b'); auto. Qed.
Lemma iso_valid a b : R a b -> is_valid io a = is_valid jo b.
Proof. apply HR. Qed.
Lemma iso_ieq a b a' b' : R a b -> R a' b' -> ieq io a a' = ieq jo b b'.
Proof. apply HR. Qed.

(** ** Populations *)
Lemma iso_sortedb l l' : Forall2 R l l' -> sortedb io l = sortedb jo l'.
Proof.
  intros H; induction H as [|x y l l' Hxy H IH]; auto; destruct H as [|x1 y1 l l' H1 H]; [reflexivity|].
  change (not_gt (compare_fitness io x x1) && sortedb io (x1 :: l) = not_gt (compare_fitness jo y y1) && sortedb jo (y1 :: l')).
  rewrite IH; unfold compare_fitness; rewrite (iso_cmp x y x1 y1); auto.
Qed.
Lemma iso_sort l l' : Forall2 R l l' -> alike (Forall2 R) (par_sort_unstable io l) (par_sort_unstable jo l').
Proof.
  intros H; unfold par_sort_unstable; apply alike_pick_from; unfold sort_results.
  rewrite (F2_forallb R (fun i => negb (f_is_nan (fitness io i))) (fun i => negb (f_is_nan (fitness jo i))) l l'); auto.
  - destruct (forallb _ _); [|apply F2_perms; auto]; apply F2_filter; [apply iso_sortedb|apply F2_perms; auto].
  - intros a b Hab; rewrite !fcmp_nan, (iso_cmp a b a b); auto.
Qed.
Lemma iso_dedup_from a b l l' : R a b -> Forall2 R l l' -> Forall2 R (dedup_from io a l) (dedup_from jo b l').
Proof.
  intros Hab H; revert a b Hab; induction H as [|x y l l' Hxy H IH]; intros a b Hab; cbn; auto.
  rewrite (iso_ieq x y a b); auto; destruct (ieq jo y b); auto.
Qed.
Lemma iso_dedup l l' : Forall2 R l l' -> Forall2 R (dedup io l) (dedup jo l').
Proof. intros []; cbn; auto using iso_dedup_from. Qed.

Definition rst (s : populated f64) (t : populated f64) : Prop :=
  ps_arg_max s = ps_arg_max t /\ (exists a b, R a b /\ ps_max s = fitness io a /\ ps_max t = fitness jo b) /\ (Full -> s = t).

Lemma iso_loop l l' : Forall2 R l l' -> forall c mn mn' amn amn' a b amx av av' sq sq', R a b ->
  let s := from_iter_loop f64ops (map (fitness io) l) c mn amn (fitness io a) amx av sq in
  let t := from_iter_loop f64ops (map (fitness jo) l') c mn' amn' (fitness jo b) amx av' sq' in
  s_arg_max s = s_arg_max t /\ s_count s = s_count t /\ (c <= s_count s) /\ exists a1 b1, R a1 b1 /\ s_max s = fitness io a1 /\ s_max t = fitness jo b1.
Proof.
  intros H; induction H as [|x y l l' Hxy H IH]; intros c mn mn' amn amn' a b amx av av' sq sq' Hab; cbn.
  - repeat split; auto; eauto 6.
  - rewrite (iso_lt a b x y) by auto.
    destruct (flt (fitness io x) mn), (flt (fitness jo y) mn'), (flt (fitness jo b) (fitness jo y));
      (edestruct IH as (E1 & E2 & E3 & E4); [|split; [exact E1|split; [exact E2|split; [|exact E4]]]; lia]); auto.
Qed.
Lemma iso_stats l l' : Forall2 R l l' ->
  opt_rel rst (populated_try_from (from_iter f64ops (map (fitness io) l))) (populated_try_from (from_iter f64ops (map (fitness jo) l'))).
Proof.
  intros H; destruct H as [|x y l l' Hxy H]; [exact Logic.I|].
  cbn [map from_iter]; unfold populated_try_from.
  pose proof (iso_loop l l' H 1 (fitness io x) (fitness jo y) 0 0 x y 0 (fitness io x) (fitness jo y) (n_zero f64ops) (n_zero f64ops) Hxy) as (E1 & E2 & E3 & E4).
  rewrite <- E2; destruct (s_count _) as [|c] eqn:Ec; [lia|]; cbn [Nat.eqb negb opt_rel].
  split; [exact E1|]; split; [exact E4|].
  intros F; rewrite <- (HF F x y Hxy), (F2_map_eq R (fitness io) (fitness jo) l l' (HF F) H); reflexivity.
Qed.
Lemma iso_collect l l' : Forall2 R l l' ->
  alike (fun x y => Forall2 R (fst x) (fst y) /\ rst (snd x) (snd y)) (sort_dedup_and_collect_stats io l) (sort_dedup_and_collect_stats jo l').
Proof.
  intros H; unfold sort_dedup_and_collect_stats; eapply alike_bind; [apply iso_sort; eauto|]; intros s s' Hs.
  eapply (alike_bind rst).
  - apply alike_unwrap; apply (iso_stats _ _ (iso_dedup _ _ Hs)).
  - intros t t' Ht; cbn; split; auto; apply iso_dedup; auto.
Qed.

Definition rpop (p : population I) (q : population J) : Prop := twins R p q /\ rst (pop_stats p) (pop_stats q).

Lemma iso_new l l' : Forall2 R l l' -> alike rpop (population_new io l) (population_new jo l').
Proof.
  intros H; unfold population_new; eapply alike_bind; [apply iso_collect; eauto|].
  intros [a s] [b t] [H1 H2]; cbn in *; split; auto; split; cbn; auto.
Qed.
Lemma iso_replace p q l l' : rpop p q -> Forall2 R l l' ->
  alike (fun x y => rpop (fst x) (fst y)) (population_replace io p l) (population_replace jo q l').
Proof.
  intros [(Ht & Hg & Hst) (Ea & (a & b & Hab & Ema & Emb) & Hf)] H; unfold population_replace.
  eapply alike_bind; [apply iso_collect; eauto|].
  intros [u s] [v t] [H1 (Ea' & (a' & b' & Hab' & Ema' & Emb') & Hf')]; cbn in *; split; [split; [|split]|]; cbn.
  - auto.
  - lia.
  - rewrite Ema, Emb, Ema', Emb'; unfold fgt; change (Bltb (fitness io a) (fitness io a')) with (flt (fitness io a) (fitness io a')).
    change (Bltb (fitness jo b) (fitness jo b')) with (flt (fitness jo b) (fitness jo b')).
    rewrite (iso_lt a b a' b'), Hst; auto.
  - split; [|split]; auto; exists a', b'; auto.
Qed.
Lemma iso_take p q : rpop p q -> alike R (take_fittest p) (take_fittest q).
Proof.
  intros [(Ht & _) (Ea & _)]; unfold take_fittest; rewrite Ea; eapply alike_bind; [apply alike_swap_remove; eauto|].
  intros [a l] [b l'] [H _]; exact H.
Qed.

(** ** Selection *)
Definition rsel (s : selector I) (t : selector J) : Prop :=
  match s, t with
  | Tournament n, Tournament m => n = m
  | Rank, Rank => True
  | Elitist r, Elitist r' => r = r'
  | Linear b, Linear b' => b = b'
  | RouletteWheel t, RouletteWheel t' => t = t' /\ Full
  | Boltzmann t c s, Boltzmann t' c' s' => t = t' /\ c = c' /\ s = s' /\ Full
  | _, _ => False
  end.
Definition rbreed (b : breeding I) (c : breeding J) : Prop :=
  crossover_rate b = crossover_rate c /\ mutation_rate b = mutation_rate c /\ rsel (parent_selector b) (parent_selector c).

Lemma iso_create st : Full \/ by_rank st -> alike rsel (create_selector st) (create_selector st).
Proof.
  intros H; destruct st; cbn in *; unfold tournament_new, boltzmann_new, elitist_new;
    try (apply alike_massert; [reflexivity|]; intros _); cbn; auto; destruct H; try contradiction; auto.
Qed.
Lemma iso_prepare s t p q : rsel s t -> rpop p q -> alike rsel (prepare io fexp s p) (prepare jo fexp t q).
Proof.
  intros Hs [(Ht & _) _]; pose proof (Forall2_len _ _ _ Ht) as El.
  destruct s, t; cbn [rsel] in Hs; try contradiction; subst; cbn [prepare]; try exact Logic.I; try reflexivity.
  - destruct Hs as [-> F]; rewrite El, (F2_map_eq R (fitness io) (fitness jo) _ _ (HF F) Ht).
    eapply alike_bind; [apply alike_eq|]; intros x ? <-; cbn; auto.
  - destruct Hs as (-> & -> & -> & F); rewrite El.
    rewrite (F2_map_eq R (scaled_fitness io fexp (fmul temperature0 cooling_rate0)) (scaled_fitness jo fexp (fmul temperature0 cooling_rate0)) _ (individuals q)); auto.
    2: { intros a b Hab; unfold scaled_fitness; rewrite (HF F a b Hab); reflexivity. }
    eapply alike_bind; [apply alike_eq|]; intros x ? <-; cbn; auto.
Qed.

Definition rat (x : nat * I) (y : nat * J) : Prop := fst x = fst y /\ R (snd x) (snd y).

Lemma iso_wheel (w : I -> f64) (w' : J -> f64) (Hw : forall a b, R a b -> w a = w' b) l l' : Forall2 R l l' -> forall t c i,
  opt_rel rat (wheel w t c i l) (wheel w' t c i l').
Proof.
  intros H; induction H as [|x y l l' Hxy H IH]; intros t c i; cbn; auto.
  rewrite (Hw x y Hxy); destruct (fge _ _); [split; auto|apply IH].
Qed.
Lemma iso_last_entry l l' : Forall2 R l l' -> alike rat (last_entry l) (last_entry l').
Proof.
  intros H; unfold last_entry; rewrite (Forall2_len _ _ _ H); apply alike_massert; [reflexivity|]; intros _.
  eapply (alike_bind R); [apply alike_unwrap, F2_last; auto|]; intros a b Hab; cbn; split; auto.
Qed.
Lemma iso_wheel_select (w : I -> f64) (w' : J -> f64) (Hw : forall a b, R a b -> w a = w' b) l l' t u : Forall2 R l l' ->
  alike rat (wheel_select w t u l) (wheel_select w' t u l').
Proof.
  intros H; unfold wheel_select; pose proof (iso_wheel w w' Hw l l' H (fmul u t) f0 0) as Hwh.
  destruct (wheel w _ _ _ _), (wheel w' _ _ _ _); cbn in *; auto; try contradiction; apply iso_last_entry; auto.
Qed.
Lemma iso_rank_loop l l' : Forall2 R l l' -> forall t c i, opt_rel rat (rank_loop t c i l) (rank_loop t c i l').
Proof. intros H; induction H as [|x y l l' Hxy H IH]; intros t c i; cbn; auto; destruct (_ <=? _); [split; auto|apply IH]. Qed.

Lemma iso_select s t p q : rsel s t -> twins R p q -> alike rat (select io fexp s p) (select jo fexp t q).
Proof.
  intros Hs (Ht & _); pose proof (Forall2_len _ _ _ Ht) as El.
  destruct s, t; cbn [rsel] in Hs; try contradiction; subst; cbn [select].
  - unfold tournament_select; rewrite El; apply alike_massert; [reflexivity|]; intros _.
    eapply alike_bind; [apply alike_eq|]; intros d ? <-; eapply alike_bind; [apply alike_eq|]; intros i ? <-.
    eapply alike_bind; [apply alike_idx; eauto|]; intros a b Hab; split; auto.
  - destruct Hs as [-> F]; eapply alike_bind; [apply alike_eq|]; intros u ? <-; apply iso_wheel_select; auto; apply HF; auto.
  - destruct Hs as (-> & -> & -> & F); eapply alike_bind; [apply alike_eq|]; intros u ? <-; apply iso_wheel_select; auto.
    intros a b Hab; unfold scaled_fitness; rewrite (HF F a b Hab); reflexivity.
  - unfold rank_select; rewrite El; eapply alike_bind; [apply alike_eq|]; intros u ? <-.
    pose proof (iso_rank_loop _ _ Ht u 0 0) as Hl; destruct (rank_loop u 0 0 (individuals p)), (rank_loop u 0 0 (individuals q)); cbn in Hl; try contradiction; auto.
    eapply (alike_bind R); [apply alike_unwrap, F2_hd; auto|]; intros a b Hab; split; auto.
  - unfold elitist_select; rewrite El; eapply alike_bind; [apply alike_eq|]; intros u ? <-.
    eapply alike_bind; [apply alike_idx; eauto|]; intros a b Hab; split; auto.
  - unfold linear_select; rewrite El; eapply alike_bind; [apply alike_eq|]; intros u ? <-; apply alike_massert; [reflexivity|]; intros _.
    eapply alike_bind; [apply alike_idx; eauto|]; intros a b Hab; split; auto.
Qed.
Lemma iso_distinct s t p q n a b : rsel s t -> twins R p q -> R a b ->
  alike (opt_rel rat) (select_distinct io fexp s p n a) (select_distinct jo fexp t q n b).
Proof.
  intros Hs Ht Hab; induction n; cbn [select_distinct]; [exact Logic.I|].
  eapply alike_bind; [apply iso_select; eauto|]; intros [i x] [j y] [E Hxy]; cbn in E, Hxy; subst.
  rewrite (iso_ieq x y a b) by auto; destruct (negb _); auto; cbn; split; auto.
Qed.

(** ** Breeding *)
Context {MS : Type} (mdl : model I MS) (ndl : model J MS).
Hypothesis (HM : models_alike R mdl ndl).

Lemma iso_breed ms p q b c : rbreed b c -> twins R p q -> alike R (breed io fexp mdl ms p b) (breed jo fexp ndl ms q c).
Proof.
  destruct HM as (Hx & Hmu & Him & Hev & Hsu & _); intros (Ecr & Emr & Hs) Ht; unfold breed.
  pose proof (Forall2_len _ _ _ (proj1 Ht)) as El.
  eapply alike_bind; [apply iso_select; eauto|]; intros [i x] [j y] [_ Hxy]; cbn in Hxy.
  eapply (alike_bind (opt_rel R)).
  - unfold breed_parent2; rewrite El, Ecr; apply alike_if; [reflexivity| |exact Logic.I].
    eapply alike_bind; [apply alike_eq|]; intros u ? <-; apply alike_if; [reflexivity| |exact Logic.I].
    eapply alike_bind; [apply iso_distinct; eauto|]; intros [[k u1]|] [[k' v1]|] Ho; cbn in *; auto; apply Ho.
  - intros o o' Ho; unfold breed_from; rewrite Emr.
    assert (Hfit : R (match o with Some q0 => if fgt (fitness io q0) (fitness io x) then q0 else x | None => x end)
                     (match o' with Some q0 => if fgt (fitness jo q0) (fitness jo y) then q0 else y | None => y end)).
    { destruct o as [u|], o' as [v|]; cbn in Ho; try contradiction; auto.
      change (fgt (fitness io u) (fitness io x)) with (flt (fitness io x) (fitness io u)).
      change (fgt (fitness jo v) (fitness jo y)) with (flt (fitness jo y) (fitness jo v)).
      rewrite (iso_lt x y u v) by auto; destruct (flt _ _); auto. }
    set (fp := match o with Some q0 => if fgt (fitness io q0) (fitness io x) then q0 else x | None => x end) in *.
    set (fp' := match o' with Some q0 => if fgt (fitness jo q0) (fitness jo y) then q0 else y | None => y end) in *.
    eapply (alike_bind R); [destruct o as [u|], o' as [v|]; cbn in Ho; try contradiction; cbn; auto|]; intros o1 o1' H1.
    eapply alike_bind; [apply alike_eq|]; intros u ? <-.
    eapply (alike_bind R); [apply alike_if; [reflexivity|auto|exact H1]|]; intros o2 o2' H2.
    eapply alike_bind; [apply Him; eauto|]; intros o3 o3' H3.
    eapply alike_bind; [apply Hev; eauto|]; intros o4 o4' H4.
    rewrite (iso_valid o4 o4' H4).
    eapply (alike_bind eq); [apply alike_if; [reflexivity|apply Hsu; auto|reflexivity]|]; intros sv ? <-.
    cbn; destruct sv; auto.
Qed.

Lemma iso_generate ms p q b c n l l' : rbreed b c -> twins R p q -> Forall2 R l l' ->
  alike (Forall2 R) (generate_new_population io fexp mdl ms (b, n) p l) (generate_new_population jo fexp ndl ms (c, n) q l').
Proof.
  intros Hb Ht Hl; unfold generate_new_population; rewrite (Forall2_len _ _ _ Hl).
  pose proof (iso_breed ms p q b c Hb Ht) as Hbr.
  destruct (n - length l') as [|[|k]]; [exact Hl| |].
  - eapply alike_bind; [exact Hbr|]; intros _ _ _; exact Hl.
  - eapply alike_bind; [apply alike_repeatM, Hbr|]; intros u v Huv; cbn; apply Forall2_app; auto.
Qed.
Lemma iso_initialize ms l l' : Forall2 R l l' -> alike rpop (initialize_population io mdl ms l) (initialize_population jo ndl ms l').
Proof.
  intros H; unfold initialize_population; eapply alike_bind; [eapply alike_mapM; [apply HM|exact H]|].
  intros u v Huv; apply iso_new, F2_filter; auto; apply iso_valid.
Qed.

(** ** Runs of two algorithms *)
Section Alg.
Context {P S0 S1 PS : Type} (alg : algorithm I MS P S0) (blg : algorithm J MS P S1) (RS : S0 -> S1 -> Prop) (R0 : S0 -> S1 -> Prop) (q0 : P).
Hypothesis (Hcfg : forall s t, R0 s t -> alike RS (alg_configure alg s q0) (alg_configure blg t q0)).
Hypothesis (Hmod0 : forall s t, R0 s t -> alg_model alg s = alg_model blg t).
Hypothesis (Hmod : forall s t, RS s t -> alg_model alg s = alg_model blg t).
Hypothesis (Hrep : forall s t, RS s t -> rbreed (fst (alg_reproduction_parameters alg s)) (fst (alg_reproduction_parameters blg t)) /\
  snd (alg_reproduction_parameters alg s) = snd (alg_reproduction_parameters blg t)).
Hypothesis (Hprep : forall s t p q, RS s t -> rpop p q -> alike RS (alg_prepare alg s p) (alg_prepare blg t q)).
Hypothesis (Hel : forall s t p q, RS s t -> rpop p q -> alike (Forall2 R) (alg_select_elites alg s p []) (alg_select_elites blg t q [])).
Hypothesis (Hsize : alg_initial_population_size alg q0 = alg_initial_population_size blg q0).
Variables (f : PS -> population I -> M (bool * PS)) (g : PS -> population J -> M (bool * PS)).
Hypothesis (Hfg : forall ps p q, rpop p q -> alike eq (f ps p) (g ps q)).

Definition rrun (r : run_result I S0 PS) (r' : run_result J S1 PS) : Prop := twin_runs rpop r r'.

Lemma iso_step s t p q : RS s t -> rpop p q ->
  alike (fun x y => RS (fst x) (fst y) /\ rpop (snd x) (snd y)) (evolve_step io fexp mdl alg s p) (evolve_step jo fexp ndl blg t q).
Proof.
  intros Hs Hp; unfold evolve_step; eapply alike_bind; [apply Hprep; eauto|]; intros s1 t1 H1.
  eapply alike_bind; [apply Hel; eauto|]; intros e e' He.
  destruct (Hrep _ _ H1) as [Hb Hn]; rewrite (Hmod _ _ H1).
  destruct (alg_reproduction_parameters alg s1) as [b n], (alg_reproduction_parameters blg t1) as [c m]; cbn in Hb, Hn; subst m.
  eapply alike_bind; [apply iso_generate; eauto; apply Hp|]; intros u v Huv.
  eapply alike_bind; [apply iso_replace; eauto|]; intros [p' o] [q' o'] Hpq; cbn in *; auto.
Qed.
Lemma iso_evolve_loop fuel : forall s t p q ps tr tr', RS s t -> rpop p q -> Forall2 rpop tr tr' ->
  alike rrun (evolve_loop io fexp mdl alg (quiet f) fuel s p ps tr) (evolve_loop jo fexp ndl blg (quiet g) fuel t q ps tr').
Proof.
  induction fuel as [|fuel IH]; intros s t p q ps tr tr' Hs Hp Htr; cbn [evolve_loop]; [reflexivity|].
  eapply (alike_bind (fun x y => fst x = fst y /\ RS (snd x) (snd y))).
  - unfold quiet; eapply alike_bind; [apply Hfg; eauto|]; intros [c ps'] ? <-; cbn; auto.
  - intros [[c ps'] s1] [[c' ps''] t1] [[= -> ->] H1]; cbn in H1; destruct c'.
    + eapply alike_bind; [apply iso_step; eauto|]; intros [s2 p2] [t2 q2] [H2 H3]; apply IH; auto; apply Forall2_app; auto.
    + cbn; split; [exact Hp|]; split; [reflexivity|]; cbn; apply Forall2_app; auto.
Qed.
Lemma iso_evolve fuel s t init init' ps : R0 s t -> Forall2 R init init' ->
  alike rrun (evolve_population io fexp mdl alg (quiet f) fuel s init q0 ps) (evolve_population jo fexp ndl blg (quiet g) fuel t init' q0 ps).
Proof.
  intros Hs Hi; unfold evolve_population; eapply alike_bind; [apply Hcfg; eauto|]; intros s1 t1 H1.
  rewrite (Hmod _ _ H1); eapply alike_bind; [apply iso_initialize; eauto|]; intros p q Hp; apply iso_evolve_loop; auto.
Qed.
Lemma iso_run fuel s t nr nr' ps : R0 s t -> alike R nr nr' ->
  alike (twin_results R rpop) (evolution_run io fexp mdl alg (quiet f) fuel s nr q0 ps) (evolution_run jo fexp ndl blg (quiet g) fuel t nr' q0 ps).
Proof.
  intros Hs Hn; unfold evolution_run; eapply (alike_bind (Forall2 R)).
  - unfold extend_population; rewrite Hsize; apply alike_if; [reflexivity|constructor|].
    eapply alike_bind; [apply alike_repeatM, Hn|]; intros u v Huv; exact Huv.
  - intros u v Huv; eapply alike_bind; [apply iso_evolve; eauto|]; intros r r' Hr.
    eapply alike_bind; [apply iso_take, Hr|]; intros x y Hxy; split; auto.
Qed.
Lemma iso_individual fuel s t x y ps : R0 s t -> R x y ->
  alike (twin_results R rpop) (evolve_individual io fexp mdl alg (quiet f) fuel s x q0 ps) (evolve_individual jo fexp ndl blg (quiet g) fuel t y q0 ps).
Proof.
  intros Hs Hn; unfold evolve_individual; eapply (alike_bind (Forall2 R)).
  - unfold extend_population_with; rewrite Hsize, (Hmod0 _ _ Hs); apply alike_if; [reflexivity|constructor|].
    apply alike_if; [reflexivity|cbn; auto|]; eapply alike_bind; [apply alike_repeatM, HM; eauto|]; intros u v Huv; cbn; auto.
  - intros u v Huv; eapply alike_bind; [apply iso_evolve; eauto|]; intros r r' Hr.
    eapply alike_bind; [apply iso_take, Hr|]; intros a b Hab; split; auto.
Qed.
End Alg.

Lemma iso_select_top n p q : rpop p q -> alike (Forall2 R) (select_top n p []) (select_top n q []).
Proof.
  intros [(Ht & _) _]; unfold select_top; rewrite (Forall2_len _ _ _ Ht); apply alike_if; [reflexivity| |constructor].
  eapply alike_bind; [apply alike_slice; eauto|]; intros u v Huv; exact Huv.
Qed.

(** ** GA *)
Definition rga (s : ga_state I MS) (t : ga_state J MS) : Prop :=
  ga_model s = ga_model t /\ ga_size s = ga_size t /\ ga_elite_size s = ga_elite_size t /\ rbreed (ga_breeding s) (ga_breeding t).

Lemma iso_ga_configure q s t : Full \/ by_rank (ga_selection_strategy q) -> ga_model s = ga_model t ->
  alike rga (ga_configure s q) (ga_configure t q).
Proof.
  intros Hr Hm; unfold ga_configure; eapply alike_bind; [apply alike_eq|]; intros _ _ _.
  eapply alike_bind; [apply alike_eq|]; intros e ? <-; eapply alike_bind; [apply iso_create; eauto|]; intros u v Huv.
  cbn; repeat split; auto.
Qed.
Lemma iso_ga_prepare s t p q : rga s t -> rpop p q -> alike rga (ga_prepare io fexp mdl s p) (ga_prepare jo fexp ndl t q).
Proof.
  intros (H1 & H2 & H3 & H4 & H5 & H6) Hp; destruct HM as (_ & _ & _ & _ & _ & P1 & P2).
  unfold ga_prepare; rewrite P1, P2; cbn [bind]; eapply alike_bind; [apply iso_prepare; eauto|]; intros u v Huv.
  cbn; repeat split; auto.
Qed.

Variables (PS : Type) (f : PS -> population I -> M (bool * PS)) (g : PS -> population J -> M (bool * PS)).
Hypothesis (Hfg : forall ps p q, rpop p q -> alike eq (f ps p) (g ps q)).

Lemma iso_ga_evolve q fuel s t init init' ps : Full \/ by_rank (ga_selection_strategy q) -> ga_model s = ga_model t -> Forall2 R init init' ->
  alike (twin_runs rpop) (evolve_population io fexp mdl (ga_algorithm io fexp mdl) (quiet f) fuel s init q ps)
    (evolve_population jo fexp ndl (ga_algorithm jo fexp ndl) (quiet g) fuel t init' q ps).
Proof.
  intros Hr Hm Hi; apply (iso_evolve (ga_algorithm io fexp mdl) (ga_algorithm jo fexp ndl) rga (fun s t => ga_model s = ga_model t)); auto.
  - intros; apply iso_ga_configure; auto.
  - intros ? ? H; apply H.
  - intros ? ? H; split; apply H.
  - intros; apply iso_ga_prepare; auto.
  - intros s' t' p' q' (_ & _ & E & _) Hp; cbn; rewrite E; apply iso_select_top; auto.
Qed.
Lemma iso_ga_run q fuel s t nr nr' ps : Full \/ by_rank (ga_selection_strategy q) -> ga_model s = ga_model t -> alike R nr nr' ->
  alike (twin_results R rpop) (evolution_run io fexp mdl (ga_algorithm io fexp mdl) (quiet f) fuel s nr q ps)
    (evolution_run jo fexp ndl (ga_algorithm jo fexp ndl) (quiet g) fuel t nr' q ps).
Proof.
  intros Hr Hm Hi; apply (iso_run (ga_algorithm io fexp mdl) (ga_algorithm jo fexp ndl) rga (fun s t => ga_model s = ga_model t)); auto.
  - intros; apply iso_ga_configure; auto.
  - intros ? ? H; apply H.
  - intros ? ? H; split; apply H.
  - intros; apply iso_ga_prepare; auto.
  - intros s' t' p' q' (_ & _ & E & _) Hp; cbn; rewrite E; apply iso_select_top; auto.
Qed.
Lemma iso_ga_individual q fuel s t x y ps : Full \/ by_rank (ga_selection_strategy q) -> ga_model s = ga_model t -> R x y ->
  alike (twin_results R rpop) (evolve_individual io fexp mdl (ga_algorithm io fexp mdl) (quiet f) fuel s x q ps)
    (evolve_individual jo fexp ndl (ga_algorithm jo fexp ndl) (quiet g) fuel t y q ps).
Proof.
  intros Hr Hm Hi; apply (iso_individual (ga_algorithm io fexp mdl) (ga_algorithm jo fexp ndl) rga (fun s t => ga_model s = ga_model t)); auto.
  - intros; apply iso_ga_configure; auto.
  - intros ? ? H; apply H.
  - intros ? ? H; split; apply H.
  - intros; apply iso_ga_prepare; auto.
  - intros s' t' p' q' (_ & _ & E & _) Hp; cbn; rewrite E; apply iso_select_top; auto.
Qed.

(** ** Adaptive GA *)
Definition raga0 (s : aga_state I MS) (t : aga_state J MS) : Prop :=
  aga_model s = aga_model t /\ crossover_rate (aga_breeding s) = crossover_rate (aga_breeding t) /\
  mutation_rate (aga_breeding s) = mutation_rate (aga_breeding t) /\ (Full -> aga_reference_std s = aga_reference_std t).
Definition raga (s : aga_state I MS) (t : aga_state J MS) : Prop :=
  aga_model s = aga_model t /\ aga_size s = aga_size t /\ aga_elite_size s = aga_elite_size t /\ aga_interval s = aga_interval t /\
  aga_crossover_range s = aga_crossover_range t /\ aga_mutation_range s = aga_mutation_range t /\ rbreed (aga_breeding s) (aga_breeding t) /\
  (Full -> aga_reference_std s = aga_reference_std t) /\ (Full \/ aga_interval s = 0).

Lemma iso_aga_configure q s t : Full \/ (by_rank (aga_selection_strategy q) /\ aga_parameter_adjustment_interval q = 0) -> raga0 s t ->
  alike raga (aga_configure s q) (aga_configure t q).
Proof.
  intros Hr (Hm & Hc & Hu & Hf); unfold aga_configure; eapply alike_bind; [apply alike_eq|]; intros _ _ _.
  eapply alike_bind; [apply alike_eq|]; intros e ? <-; eapply alike_bind; [apply iso_create; destruct Hr as [|[]]; eauto|]; intros u v Huv.
  cbn; split; [exact Hm|]; cbn; repeat split; auto; destruct Hr as [|[]]; auto.
Qed.
Lemma iso_aga_prepare s t p q : raga s t -> rpop p q -> alike raga (aga_prepare io fexp mdl s p) (aga_prepare jo fexp ndl t q).
Proof.
  intros (H1 & H2 & H3 & H4 & H5 & H6 & (H7 & H8 & H9) & H10 & H11) Hp; destruct HM as (_ & _ & _ & _ & _ & P1 & P2).
  assert (Hadj : snd (fst (aga_adjust s p)) = snd (fst (aga_adjust t q)) /\ snd (aga_adjust s p) = snd (aga_adjust t q) /\
    (Full -> fst (fst (aga_adjust s p)) = fst (fst (aga_adjust t q)))).
  { destruct Hp as [(_ & Hg & _) (_ & _ & Hst)]; unfold aga_adjust; rewrite <- Hg, <- H4, <- H5, <- H6, <- H7, <- H8.
    destruct (generation p) as [|n].
    - cbn; repeat split; auto; intros F; rewrite (Hst F); reflexivity.
    - destruct (negb (aga_interval s =? 0) && (S n mod aga_interval s =? 0)) eqn:Ei; [|cbn; auto].
      destruct H11 as [F|E]; [|rewrite E in Ei; discriminate].
      cbn; rewrite (Hst F), (H10 F); auto. }
  unfold aga_prepare; destruct (aga_adjust s p) as [[r1 c1] m1], (aga_adjust t q) as [[r2 c2] m2]; cbn in Hadj; destruct Hadj as (-> & -> & Hr).
  rewrite P1, P2; cbn [bind parent_selector]; eapply alike_bind; [apply iso_prepare; eauto|]; intros u v Huv.
  cbn; split; [exact H1|]; cbn; repeat split; auto.
Qed.

Lemma iso_aga_evolve q fuel s t init init' ps :
  Full \/ (by_rank (aga_selection_strategy q) /\ aga_parameter_adjustment_interval q = 0) -> raga0 s t -> Forall2 R init init' ->
  alike (twin_runs rpop) (evolve_population io fexp mdl (aga_algorithm io fexp mdl) (quiet f) fuel s init q ps)
    (evolve_population jo fexp ndl (aga_algorithm jo fexp ndl) (quiet g) fuel t init' q ps).
Proof.
  intros Hr Hm Hi; apply (iso_evolve (aga_algorithm io fexp mdl) (aga_algorithm jo fexp ndl) raga raga0); auto.
  - intros; apply iso_aga_configure; auto.
  - intros ? ? H; apply H.
  - intros ? ? H; split; apply H.
  - intros; apply iso_aga_prepare; auto.
  - intros s' t' p' q' (_ & _ & E & _) Hp; cbn; rewrite E; apply iso_select_top; auto.
Qed.
Lemma iso_aga_run q fuel s t nr nr' ps :
  Full \/ (by_rank (aga_selection_strategy q) /\ aga_parameter_adjustment_interval q = 0) -> raga0 s t -> alike R nr nr' ->
  alike (twin_results R rpop) (evolution_run io fexp mdl (aga_algorithm io fexp mdl) (quiet f) fuel s nr q ps)
    (evolution_run jo fexp ndl (aga_algorithm jo fexp ndl) (quiet g) fuel t nr' q ps).
Proof.
  intros Hr Hm Hi; apply (iso_run (aga_algorithm io fexp mdl) (aga_algorithm jo fexp ndl) raga raga0); auto.
  - intros; apply iso_aga_configure; auto.
  - intros ? ? H; apply H.
  - intros ? ? H; split; apply H.
  - intros; apply iso_aga_prepare; auto.
  - intros s' t' p' q' (_ & _ & E & _) Hp; cbn; rewrite E; apply iso_select_top; auto.
Qed.
Lemma iso_aga_individual q fuel s t x y ps :
  Full \/ (by_rank (aga_selection_strategy q) /\ aga_parameter_adjustment_interval q = 0) -> raga0 s t -> R x y ->
  alike (twin_results R rpop) (evolve_individual io fexp mdl (aga_algorithm io fexp mdl) (quiet f) fuel s x q ps)
    (evolve_individual jo fexp ndl (aga_algorithm jo fexp ndl) (quiet g) fuel t y q ps).
Proof.
  intros Hr Hm Hi; apply (iso_individual (aga_algorithm io fexp mdl) (aga_algorithm jo fexp ndl) raga raga0); auto.
  - intros; apply iso_aga_configure; auto.
  - intros ? ? H; apply H.
  - intros ? ? H; apply H.
  - intros ? ? H; split; apply H.
  - intros; apply iso_aga_prepare; auto.
  - intros s' t' p' q' (_ & _ & E & _) Hp; cbn; rewrite E; apply iso_select_top; auto.
Qed.
End Iso.
