(** * C112: KGB-DMOEA - the population after a change, whole generations, the shared default archive *)
From Coq Require Import List Arith Bool ZArith QArith Lia Lqa Permutation.
From Verif Require Import ListAux M_RMetric M_DNSGA M_KGB Thm_KGB.
Import ListNotations.
Local Open Scope nat_scope.

(** a point within the bounds *)
Definition inbox (xl xu : list Q) (x : list Q) : Prop := length x = length xl /\ forall i, i < length xl -> (nth i xl 0 <= nth i x 0 /\ nth i x 0 <= nth i xu 0)%Q.
(** what random_state.choice(n, k, replace=False) promises *)
Definition chooses (pick : nat -> nat -> list nat) : Prop := forall n k, k <= n -> length (pick n k) = k /\ NoDup (pick n k) /\ forall j, In j (pick n k) -> j < n.

Lemma clip1_spec l u x : (l <= u)%Q -> (l <= clip1 l u x /\ clip1 l u x <= u)%Q.
Proof.
  intros H. unfold clip1. destruct (Qle_bool x u) eqn:E1; cbn [negb].
  - apply Qle_bool_iff in E1. destruct (Qle_bool l x) eqn:E2; cbn [negb]; [apply Qle_bool_iff in E2; lra|lra].
  - lra.
Qed.
Lemma length_clip xl xu x : length xl = length xu -> length x = length xl -> length (clip xl xu x) = length xl.
Proof. intros H1 H2. unfold clip. rewrite length_map2, combine_length. lia. Qed.
Lemma nth_clip xl xu x i : length xl = length xu -> length x = length xl -> i < length xl -> nth i (clip xl xu x) 0%Q = clip1 (nth i xl 0%Q) (nth i xu 0%Q) (nth i x 0%Q).
Proof. intros H1 H2 H3. unfold clip. rewrite (nth_map2 _ _ _ i 0%Q (0, 0)%Q 0%Q) by (rewrite ?combine_length; lia). rewrite combine_nth by auto. reflexivity. Qed.
Lemma clip_inbox xl xu x : length xl = length xu -> (forall i, i < length xl -> (nth i xl 0 <= nth i xu 0)%Q) -> length x = length xl -> inbox xl xu (clip xl xu x).
Proof. intros H1 H2 H3. split; [now apply length_clip|]. intros i Hi. rewrite nth_clip by auto. now apply clip1_spec, H2. Qed.

(** C112: random solutions are drawn from [0, 1) and clipped: they lie within the bounds, but only the part of the box in [0, 1) and its
    borders is ever drawn - a variable whose bounds lie below 0 is always the upper one, one whose bounds lie above 1 always the lower one *)
Theorem C112_random_strategy : forall xl xu draws, length xl = length xu -> (forall i, i < length xl -> (nth i xl 0 <= nth i xu 0)%Q) ->
  (forall u, In u draws -> length u = length xl /\ forall i, i < length xl -> (0 <= nth i u 0 /\ nth i u 0 < 1)%Q) ->
  length (random_strategy xl xu draws) = length draws /\
  forall x, In x (random_strategy xl xu draws) -> inbox xl xu x /\
    forall i, i < length xl ->
      ((nth i xu 0 <= 0)%Q -> (nth i x 0 == nth i xu 0)%Q) /\ ((1 <= nth i xl 0)%Q -> (nth i x 0 == nth i xl 0)%Q) /\
      ((nth i xl 0 <= 0)%Q -> (1 <= nth i xu 0)%Q -> exists u, In u draws /\ nth i x 0%Q = nth i u 0%Q).
Proof.
  intros xl xu draws HL HB HU. unfold random_strategy. split; [apply map_length|]. intros x Hx. apply in_map_iff in Hx as (u & <- & Hu). destruct (HU u Hu) as [U1 U2]. split; [now apply clip_inbox|].
  intros i Hi. rewrite nth_clip by auto. specialize (U2 i Hi). specialize (HB i Hi). unfold clip1. destruct (Qle_bool (nth i u 0%Q) (nth i xu 0%Q)) eqn:E1; cbn [negb].
  - apply Qle_bool_iff in E1. destruct (Qle_bool (nth i xl 0%Q) (nth i u 0%Q)) eqn:E2; cbn [negb].
    + apply Qle_bool_iff in E2. split; [intros; lra|]. split; [intros; lra|]. intros _ _. exists u. auto.
    + assert (~ (nth i xl 0 <= nth i u 0)%Q) by (rewrite <- Qle_bool_iff; congruence). split; [intros; lra|]. split; [intros; lra|]. intros; lra.
  - assert (~ (nth i u 0 <= nth i xu 0)%Q) by (rewrite <- Qle_bool_iff; congruence). split; [intros; lra|]. split; [intros; lra|]. intros; lra.
Qed.

Lemma gather_incl {A} (d : A) l idx : (forall j, In j idx -> j < length l) -> incl (gather d l idx) l.
Proof. intros H x Hx. unfold gather in Hx. apply in_map_iff in Hx as (j & <- & Hj). apply nth_In. auto. Qed.
(** C112: with no more clusters than individuals the new population has exactly pop_size members - all centroids, then predicted, useful
    and random solutions and nothing else, the random ones only if the others are not enough *)
Theorem C112_population : forall pop_size c_size pick pick' rnd pred cents use, c_size <= pop_size -> length cents <= c_size -> chooses pick -> chooses pick' -> (forall k, length (rnd k) = k) ->
  exists xs, init_pop pop_size c_size pick pick' rnd pred cents use = Some xs /\ length xs = pop_size /\ incl cents xs /\
    (forall x, In x xs -> In x cents \/ In x pred \/ In x use \/ exists k, In x (rnd k)) /\
    ((exists x k, In x xs /\ In x (rnd k) /\ ~ In x (cents ++ pred ++ use)) -> Nat.min (length pred) (pop_size - c_size) + length cents + length use < pop_size).
Proof.
  intros ps cs pick pick' rnd pred cents use Hc HL HP HP' HR.
  assert (HH : exists h, head_part ps cs pick pred cents = Some h /\ length h = Nat.min (length pred) (ps - cs) + length cents /\ incl cents h /\ incl h (pred ++ cents)).
  { unfold head_part. destruct (Z.leb_spec (Z.of_nat ps - Z.of_nat cs) (Z.of_nat (length pred))) as [H|H].
    - unfold np_choice. replace ((0 <=? Z.of_nat ps - Z.of_nat cs)%Z) with true by (symmetry; apply Z.leb_le; lia). replace ((Z.of_nat ps - Z.of_nat cs <=? Z.of_nat (length pred))%Z) with true by (symmetry; apply Z.leb_le; lia). cbn [andb].
      replace (Z.to_nat (Z.of_nat ps - Z.of_nat cs)) with (ps - cs) by lia. destruct (HP (length pred) (ps - cs) ltac:(lia)) as (P1 & P2 & P3). eexists. split; [reflexivity|]. split; [rewrite app_length; unfold gather; rewrite map_length, P1; lia|]. split; [apply incl_appr, incl_refl|].
      apply incl_app; [apply incl_appl; now apply gather_incl|apply incl_appr, incl_refl].
    - eexists. split; [reflexivity|]. split; [rewrite app_length; lia|]. split; [apply incl_appr, incl_refl|apply incl_refl]. }
  destruct HH as (h & Eh & Lh & Ch & Ih). unfold init_pop. rewrite Eh.
  assert (HU : exists i, add_useful ps pick' use h = Some i /\ length i = Nat.min ps (length h + length use) /\ incl cents i /\ incl i (h ++ use)).
  { unfold add_useful. destruct (Nat.ltb_spec (length h) ps) as [H|H].
    - destruct (Nat.leb_spec (ps - length h) (length use)) as [H'|H'].
      + unfold np_choice. replace ((0 <=? Z.of_nat (ps - length h))%Z) with true by (symmetry; apply Z.leb_le; lia). replace ((Z.of_nat (ps - length h) <=? Z.of_nat (length use))%Z) with true by (symmetry; apply Z.leb_le; lia). cbn [andb option_map].
        rewrite Nat2Z.id. destruct (HP' (length use) (ps - length h) H') as (P1 & P2 & P3). eexists. split; [reflexivity|]. split; [rewrite app_length; unfold gather; rewrite map_length, P1; lia|]. split; [now apply incl_appl|]. apply incl_app; [apply incl_appl, incl_refl|apply incl_appr; now apply gather_incl].
      + eexists. split; [reflexivity|]. split; [rewrite app_length; lia|]. split; [now apply incl_appl|apply incl_refl].
    - exists h. split; auto. split; [lia|]. split; auto. apply incl_appl, incl_refl. }
  destruct HU as (i & -> & Li & Ci & Ii). exists (add_random ps rnd i). split; auto. unfold add_random.
  assert (HI : forall x, In x i -> In x cents \/ In x pred \/ In x use). { intros x Hx. apply Ii in Hx. apply in_app_iff in Hx as [Hx|Hx]; [apply Ih in Hx; apply in_app_iff in Hx; tauto|auto]. }
  destruct (Nat.ltb_spec (length i) ps) as [H|H].
  - rewrite app_length, HR. split; [lia|]. split; [now apply incl_appl|]. split; [|intros _; lia]. intros x Hx. apply in_app_iff in Hx as [Hx|Hx]; [apply HI in Hx; tauto|]. right; right; right. eauto.
  - split; [lia|]. split; auto. split; [intros x Hx; apply HI in Hx; tauto|]. intros (x & k & Hx & _ & Hn). exfalso. apply Hn. rewrite !in_app_iff. now apply HI.
Qed.
(** C112: with fewer individuals than clusters (pop_size < c_size, e.g. pop_size = 10 and the default c_size = 13) every detected change
    ends in an exception, whatever is predicted *)
Theorem C112_small_population : forall pop_size c_size pick pick' rnd pred cents use, pop_size < c_size -> init_pop pop_size c_size pick pick' rnd pred cents use = None.
Proof.
  intros ps cs pick pick' rnd pred cents use H. unfold init_pop, head_part, np_choice. replace ((Z.of_nat ps - Z.of_nat cs <=? Z.of_nat (length pred))%Z) with true by (symmetry; apply Z.leb_le; lia).
  replace ((0 <=? Z.of_nat ps - Z.of_nat cs)%Z) with false by (symmetry; apply Z.leb_gt; lia). reflexivity.
Qed.

(** ** whole generations *)
Definition conf_ok (c : kgb_conf) : Prop := 1 <= k_c_size c /\ k_c_size c <= k_pop_size c /\ length (k_xl c) = length (k_xu c) /\ forall i, i < length (k_xl c) -> (nth i (k_xl c) 0 <= nth i (k_xu c) 0)%Q.
(** everything drawn has the right shape *)
Definition step_ok (c : kgb_conf) (s : kgb_step) : Prop :=
  (forall u, In u (k_u s) -> length u = length (k_xl c)) /\ length (k_noise s) = length (k_xl c) /\ chooses (k_pick s) /\ chooses (k_pick' s) /\
  (forall k, length (k_rnd s k) = k) /\ forall k u, In u (k_rnd s k) -> length u = length (k_xl c).
(** the archive of a run: keys all different and not later than the counter, every cluster the mean of its solutions, those within the bounds *)
Definition state_ok (c : kgb_conf) (st : kgb_state) : Prop :=
  NoDup (map fst (s_ps st)) /\ forall k cl, In (k, cl) (s_ps st) -> snd k <= s_t st /\ centred (length (k_xl c)) cl /\ forall x, In x (c_sol cl) -> inbox (k_xl c) (k_xu c) x.

Lemma mean_box (n : Z) (xs : list Q) (l u m : Q) : (n = Z.of_nat (length xs))%Z -> (0 < n)%Z -> (forall x, In x xs -> (l <= x /\ x <= u)%Q) -> (m * inject_Z n == fold_right Qplus 0 xs)%Q -> (l <= m /\ m <= u)%Q.
Proof.
  intros En Hn HX HM.
  assert (HS : (l * inject_Z n <= fold_right Qplus 0 xs /\ fold_right Qplus 0 xs <= u * inject_Z n)%Q).
  { subst n. clear Hn HM. induction xs as [|x xs IH]; [cbn; change (inject_Z 0) with 0%Q; split; lra|]. cbn [length fold_right]. rewrite Nat2Z.inj_succ. unfold Z.succ. rewrite inject_Z_plus. destruct (HX x (or_introl eq_refl)). destruct IH; [intros; apply HX; now right|]. change (inject_Z 1) with 1%Q. split; lra. }
  assert (0 < inject_Z n)%Q by (change 0%Q with (inject_Z 0); rewrite <- Zlt_Qlt; lia). rewrite <- HM in HS. destruct HS as [H1 H2]. split; [apply Qmult_lt_0_le_reg_r in H1; auto|apply Qmult_lt_0_le_reg_r in H2; auto].
Qed.
Lemma centroid_inbox xl xu cl : centred (length xl) cl -> (forall x, In x (c_sol cl) -> inbox xl xu x) -> inbox xl xu (c_cen cl).
Proof.
  intros (C1 & C2 & C3 & C4) HB. split; auto. intros i Hi. apply (mean_box (Z.of_nat (length (c_sol cl))) (map (fun s => nth i s 0%Q) (c_sol cl))).
  - now rewrite map_length.
  - destruct (c_sol cl); [congruence|cbn [length]; lia].
  - intros x Hx. apply in_map_iff in Hx as (s & <- & Hs). destruct (HB s Hs) as [_ H]. now apply H.
  - now apply C4.
Qed.
Lemma useful_incl ranks ps s : In s (useful ranks ps) -> exists e, In e ps /\ In s (c_sol (snd e)).
Proof. unfold useful, labelled, members. intros H. apply in_flat_map in H as (cr & _ & H). destruct (snd cr =? 0); [|destruct H]. apply in_flat_map in H as (e & He & H). destruct (sol_eqb _ _); [eauto|destruct H]. Qed.
Lemma predicted_incl labels xs : incl (predicted labels xs) xs.
Proof. intros x Hx. unfold predicted in Hx. apply in_map_iff in Hx as ([l y] & <- & H). apply filter_In in H as [H _]. now apply in_combine_r in H. Qed.

(** C112: one generation from a state as above with the optimum within the bounds: no exception, and a state as above again; without a change
    the population mates as it is, at the same time; after one the parents are pop_size solutions within the bounds, evaluated with the
    objectives of now, among them all centroids, and the time moves on by one with at most c_size clusters left, no archived solution lost *)
Theorem C112_generation : forall c s opt pop st, conf_ok c -> step_ok c s -> (forall x, In x opt -> inbox (k_xl c) (k_xu c) x) -> state_ok c st ->
  exists st' parents, kgb_parents c s opt pop st = Some (st', parents) /\ state_ok c st' /\
    (kgb_changed c s pop = false -> parents = pop /\ s_t st' = s_t st /\ s_ps st' = add_to_ps (s_t st) opt (s_ps st)) /\
    (kgb_changed c s pop = true -> length parents = k_pop_size c /\ (forall p, In p parents -> inbox (k_xl c) (k_xu c) (fst p) /\ snd p = k_f s (fst p)) /\
      s_t st' = S (s_t st) /\ length (s_ps st') <= k_c_size c /\ (forall e, In e (s_ps st') -> In (c_cen (snd e), k_f s (c_cen (snd e))) parents) /\
      Permutation (flat_map (fun e => c_sol (snd e)) (s_ps st')) (flat_map (fun e => c_sol (snd e)) (add_to_ps (s_t st) opt (s_ps st)))).
Proof.
  intros c s opt pop st (C1 & C2 & C3 & C4) (S1 & S2 & S3 & S4 & S5 & S6) HO [H1 H2]. unfold kgb_parents. destruct (C112_archive (s_t st) opt (s_ps st) H1) as (A1 & A2 & A3 & A4). set (ps := add_to_ps (s_t st) opt (s_ps st)) in *.
  assert (HP : forall k cl, In (k, cl) ps -> snd k <= s_t st /\ centred (length (k_xl c)) cl /\ forall x, In x (c_sol cl) -> inbox (k_xl c) (k_xu c) x).
  { intros k cl Hk. destruct (A4 k cl Hk) as [(E & x & Hx & ->)|[Hi _]]; [|now apply (H2 k)]. apply nth_error_In in Hx. apply HO in Hx. split; [lia|]. split; [apply centred_single; apply Hx|]. intros y [<-|[]]. auto. }
  destruct (kgb_changed c s pop) eqn:EC.
  - destruct (C112_condense (k_c_size c) ps C1 A1) as (ps' & E & L & N & P & K & CE). unfold examine. rewrite E.
    set (ranks := k_ranking s _).
    assert (HC : forall k cl, In (k, cl) ps' -> centred (length (k_xl c)) cl) by (intros k cl Hk; apply (CE (length (k_xl c))) with (k := k); auto; intros k' cl' Hk'; eapply HP; eauto).
    assert (HX : forall k cl x, In (k, cl) ps' -> In x (c_sol cl) -> inbox (k_xl c) (k_xu c) x).
    { intros k cl x Hk Hx. assert (Ha : In x (flat_map (fun e : key * cluster => c_sol (snd e)) ps')) by (apply in_flat_map; exists (k, cl); auto). apply (Permutation_in _ P) in Ha. apply in_flat_map in Ha as ([k' cl'] & Hk' & Hx'). eapply HP; eauto. }
    assert (HU : forall x, In x (useful ranks ps') -> inbox (k_xl c) (k_xu c) x) by (intros x Hx; apply useful_incl in Hx as ([k cl] & He & Hx); eapply HX; eauto).
    assert (HCE : forall x, In x (centroids ps') -> inbox (k_xl c) (k_xu c) x). { intros x Hx. apply in_map_iff in Hx as ([k cl] & <- & Hk). apply centroid_inbox; [eapply HC; eauto|intros y; eapply HX; eauto]. }
    set (tests := _ ++ map _ (useful ranks ps')).
    assert (HT : forall x, In x tests -> inbox (k_xl c) (k_xu c) x).
    { intros x Hx. apply in_app_iff in Hx as [Hx|Hx]; apply in_map_iff in Hx as (u & <- & Hu); apply clip_inbox; auto. rewrite length_map2, S2. apply HU in Hu. destruct Hu as [-> _]. lia. }
    destruct (C112_population (k_pop_size c) (k_c_size c) (k_pick s) (k_pick' s) (fun k => random_strategy (k_xl c) (k_xu c) (k_rnd s k)) (predicted (k_labels s) tests) (centroids ps') (useful ranks ps') C2) as (xs & -> & Lx & Cx & Ix & _); auto.
    { unfold centroids. rewrite map_length. lia. } { intros k. unfold random_strategy. now rewrite map_length. }
    eexists _, _. split; [reflexivity|]. split.
    { split; auto. cbn [s_ps s_t]. intros k cl Hk. split; [|split; [eapply HC; eauto|intros x; eapply HX; eauto]]. assert (Hk' : In k (map fst ps)) by (apply K; change k with (fst (k, cl)); now apply in_map). apply in_map_iff in Hk' as ([k' cl'] & <- & Hk'). apply HP in Hk' as [Hk' _]. cbn. lia. }
    split; [discriminate|]. intros _. split; [now rewrite map_length|]. split.
    { intros p Hp. apply in_map_iff in Hp as (x & <- & Hx). cbn [fst snd]. split; auto. apply Ix in Hx as [Hx|[Hx|[Hx|(k & Hx)]]]; auto; [apply predicted_incl in Hx; auto|]. apply in_map_iff in Hx as (u & <- & Hu). apply clip_inbox; eauto. }
    cbn [s_t s_ps]. split; auto. split; [lia|]. split; auto. intros e He. apply in_map_iff. exists (c_cen (snd e)). split; auto. apply Cx. unfold centroids. apply in_map_iff. eauto.
  - eexists _, _. split; [reflexivity|]. split; [split; auto; intros k cl Hk; cbn [s_t s_ps] in *; now apply (HP k)|]. split; [intros _; auto|discriminate].
Qed.
(** C112: hence every generation of every run, whatever changes and is drawn *)
Fixpoint kgb_run (c : kgb_conf) (st : kgb_state) (gens : list (kgb_step * list sol * list (sol * list Q))) : option kgb_state :=
  match gens with [] => Some st | (s, opt, pop) :: r => match kgb_parents c s opt pop st with Some (st, _) => kgb_run c st r | None => None end end.
Theorem C112_runs : forall c gens, conf_ok c -> (forall s opt pop, In (s, opt, pop) gens -> step_ok c s /\ forall x, In x opt -> inbox (k_xl c) (k_xu c) x) ->
  exists st, kgb_run c {| s_t := 0; s_ps := [] |} gens = Some st /\ state_ok c st /\ s_t st = length (filter (fun g => kgb_changed c (fst (fst g)) (snd g)) gens).
Proof.
  intros c gens HC HG. assert (G : forall st, state_ok c st -> exists st', kgb_run c st gens = Some st' /\ state_ok c st' /\ s_t st' = s_t st + length (filter (fun g => kgb_changed c (fst (fst g)) (snd g)) gens)).
  { induction gens as [|[[s opt] pop] gens IH]; intros st Hst; cbn [kgb_run filter length fst snd]; [exists st; split; [auto|]; split; [auto|lia]|]. destruct (HG s opt pop (or_introl eq_refl)) as [G1 G2]. destruct (C112_generation c s opt pop st HC G1 G2 Hst) as (st1 & par & -> & H1 & H2 & H3).
    destruct (IH (fun s0 o0 p0 Hin => HG s0 o0 p0 (or_intror Hin)) st1 H1) as (st2 & -> & K1 & K2). exists st2. split; auto. split; auto. destruct (kgb_changed c s pop); cbn [length]; [destruct (H3 eq_refl) as (_ & _ & E & _)|destruct (H2 eq_refl) as (_ & E & _)]; lia. }
  destruct (G {| s_t := 0; s_ps := [] |}) as (st & H1 & H2 & H3); [split; [constructor|intros k cl []]|]. eauto.
Qed.

(** ** the default argument *)
(** which objects were made by KGB() without an archive of their own: true; by KGB(ps=..) or by a deep copy: false *)
Fixpoint plain (os : list kgb_op) (made : list bool) : list bool :=
  match os with
  | [] => made
  | New None :: r => plain r (made ++ [true])
  | New (Some _) :: r => plain r (made ++ [false])
  | Copy i :: r => plain r (if i <? length made then made ++ [false] else made)
  | Update _ _ :: r => plain r made
  end.
Definition heap_inv (h : kgb_heap) (made : list bool) : Prop :=
  length (h_objs h) = length made /\ 1 <= length (h_dicts h) /\
  (forall i ob, nth_error (h_objs h) i = Some ob -> o_ps ob < length (h_dicts h) /\ (nth_error made i = Some true -> o_ps ob = 0) /\ (nth_error made i = Some false -> o_ps ob <> 0)) /\
  (forall i j oi oj, nth_error (h_objs h) i = Some oi -> nth_error (h_objs h) j = Some oj -> nth_error made i = Some false -> o_ps oi = o_ps oj -> i = j).
Lemma inv_new h (made : list bool) (b : bool) (dicts : list archive) (ob : kgb_obj) : heap_inv h made -> length (h_dicts h) <= length dicts -> o_ps ob < length dicts -> (if b then o_ps ob = 0 else length (h_dicts h) <= o_ps ob) ->
  heap_inv {| h_dicts := dicts; h_objs := h_objs h ++ [ob] |} (made ++ [b]).
Proof.
  intros (H1 & H2 & H3 & H4) HD HO HB. unfold heap_inv. cbn [h_dicts h_objs]. split; [rewrite !app_length; cbn; lia|]. split; [lia|].
  assert (HI : forall i o, nth_error (h_objs h ++ [ob]) i = Some o -> (nth_error (h_objs h) i = Some o /\ i < length made /\ nth_error (made ++ [b]) i = nth_error made i) \/ (i = length made /\ o = ob /\ nth_error (made ++ [b]) i = Some b)).
  { intros i o Hi. destruct (Nat.lt_ge_cases i (length (h_objs h))) as [Hl|Hl].
    - rewrite nth_error_app1 in Hi by auto. left. split; auto. split; [lia|]. now rewrite nth_error_app1 by lia.
    - rewrite nth_error_app2 in Hi by auto. destruct (i - length (h_objs h)) as [|q] eqn:Eq; [|destruct q; discriminate]. right. split; [lia|]. split; [cbn in Hi; congruence|]. rewrite nth_error_app2 by lia. now replace (i - length made) with 0 by lia. }
  split.
  - intros i o Hi. destruct (HI i o Hi) as [(A & B & ->)|(-> & -> & ->)].
    + destruct (H3 i o A) as (K1 & K2 & K3). split; [lia|auto].
    + split; auto. split; intros [= ->]; auto. lia.
  - intros i j oi oj Hi Hj. destruct (HI i oi Hi) as [(A & B & ->)|(-> & -> & ->)]; destruct (HI j oj Hj) as [(A' & B' & _)|(-> & -> & _)]; intros Hm HE.
    + now apply (H4 i j oi oj).
    + exfalso. destruct (H3 i oi A) as (K1 & _ & K3). specialize (K3 Hm). destruct b; lia.
    + exfalso. injection Hm as ->. destruct (H3 j oj A') as (K1 & _ & _). lia.
    + auto.
Qed.
Lemma inv_do h made o : heap_inv h made -> heap_inv (kgb_do h o) (plain [o] made).
Proof.
  intros HI. pose proof HI as (H1 & H2 & H3 & H4). destruct o as [[ps|]|i g|i]; cbn [kgb_do plain].
  - apply inv_new; auto; rewrite ?app_length; cbn; lia.
  - apply inv_new; auto.
  - destruct (nth_error (h_objs h) i) as [ob|] eqn:E; auto. cbv zeta. set (nt := fst _). set (nd := snd _).
    assert (HU : forall j o, nth_error (upd (h_objs h) i {| o_ps := o_ps ob; o_t := nt |}) j = Some o -> exists o', nth_error (h_objs h) j = Some o' /\ o_ps o = o_ps o').
    { intros j o Hj. destruct (Nat.eq_dec j i) as [->|Hn].
      - exists ob. split; auto. assert (Hl : i < length (h_objs h)) by (apply nth_error_Some; congruence). rewrite (nth_error_nth' _ ob) in Hj by (now rewrite length_upd). rewrite nth_upd_eq in Hj by auto. injection Hj as <-. reflexivity.
      - exists o. split; auto. assert (Hl : j < length (h_objs h)) by (rewrite <- (length_upd (h_objs h) i {| o_ps := o_ps ob; o_t := nt |}); apply nth_error_Some; congruence). rewrite (nth_error_nth' _ ob) in Hj by (now rewrite length_upd). rewrite nth_upd_neq in Hj by auto. rewrite <- Hj. now apply nth_error_nth'. }
    unfold heap_inv. cbn [h_dicts h_objs]. rewrite !length_upd. split; auto. split; auto. split.
    + intros j o Hj. destruct (HU j o Hj) as (o' & Ho' & ->). now apply H3.
    + intros a b oa ob' Ha Hb. destruct (HU a oa Ha) as (a' & Ha' & ->). destruct (HU b ob' Hb) as (b' & Hb' & ->). now apply H4.
  - destruct (nth_error (h_objs h) i) as [ob|] eqn:E.
    + assert (Hl : i < length (h_objs h)) by (apply nth_error_Some; congruence). replace (i <? length made) with true by (symmetry; apply Nat.ltb_lt; lia). apply inv_new; auto; rewrite ?app_length; cbn; lia.
    + apply nth_error_None in E. replace (i <? length made) with false by (symmetry; apply Nat.ltb_ge; lia). auto.
Qed.
Lemma plain_cons o os made : plain (o :: os) made = plain os (plain [o] made).
Proof. destruct o as [[?|]|? ?|?]; reflexivity. Qed.
Lemma inv_ops os : forall h made, heap_inv h made -> heap_inv (kgb_ops h os) (plain os made).
Proof. induction os as [|o os IH]; intros h made H; auto. rewrite plain_cons. cbn [kgb_ops fold_left]. apply IH. now apply inv_do. Qed.
Lemma inv0 : heap_inv heap0 [].
Proof. split; auto. split; auto. split; [intros [|i] ob H; discriminate|intros [|i] j oi oj H; discriminate]. Qed.
(** C112: all the objects made without an archive of their own always have one and the same archive, whichever of them is used *)
Theorem C112_shared_default : forall os i j, nth_error (plain os []) i = Some true -> nth_error (plain os []) j = Some true ->
  archive_of (kgb_ops heap0 os) i = archive_of (kgb_ops heap0 os) j /\ archive_of (kgb_ops heap0 os) i <> None.
Proof.
  intros os i j Hi Hj. destruct (inv_ops os _ _ inv0) as (H1 & _ & H3 & _). set (h := kgb_ops heap0 os) in *. unfold archive_of.
  assert (K : forall k, nth_error (plain os []) k = Some true -> exists ob, nth_error (h_objs h) k = Some ob /\ o_ps ob = 0).
  { intros k Hk. destruct (nth_error (h_objs h) k) as [ob|] eqn:E; [exists ob; split; auto; now apply (H3 k)|]. apply nth_error_None in E. assert (k < length (plain os [])) by (apply nth_error_Some; congruence). lia. }
  destruct (K i Hi) as (oi & -> & Ei). destruct (K j Hj) as (oj & -> & Ej). cbn. rewrite Ei, Ej. split; [auto|discriminate].
Qed.
(** C112: the archive of an object given its own archive, or of a deep copy (what minimize runs), changes only when that object is used *)
Theorem C112_isolated : forall os i o, nth_error (plain os []) i = Some false -> (forall g, o <> Update i g) ->
  archive_of (kgb_do (kgb_ops heap0 os) o) i = archive_of (kgb_ops heap0 os) i.
Proof.
  intros os i o Hi Ho. destruct (inv_ops os _ _ inv0) as (H1 & _ & H3 & H4). set (h := kgb_ops heap0 os) in *. unfold archive_of.
  assert (Hl : i < length (h_objs h)) by (rewrite H1; apply nth_error_Some; congruence). destruct (nth_error (h_objs h) i) as [ob|] eqn:E; [|apply nth_error_None in E; lia]. destruct (H3 i ob E) as (K1 & _ & K3). specialize (K3 Hi).
  destruct o as [[ps|]|j g|j]; cbn [kgb_do]; cbn [h_objs h_dicts].
  - rewrite nth_error_app1, E by auto. cbn. now rewrite app_nth1 by auto.
  - rewrite nth_error_app1, E by auto. reflexivity.
  - destruct (nth_error (h_objs h) j) as [oj|] eqn:Ej; [|now rewrite E]. cbv zeta. cbn [h_objs h_dicts]. assert (Hn : i <> j) by (intros ->; apply (Ho g); reflexivity).
    assert (Eu : forall v, nth_error (upd (h_objs h) j v) i = Some ob). { intros v. rewrite (nth_error_nth' _ ob) by (now rewrite length_upd). rewrite nth_upd_neq by auto. rewrite <- E. symmetry. now apply nth_error_nth'. } rewrite Eu. cbn. rewrite nth_upd_neq; auto. intros Ep. apply Hn. eapply (H4 i j); eauto.
  - destruct (nth_error (h_objs h) j) as [oj|] eqn:Ej; [|now rewrite E]. cbn [h_objs h_dicts]. rewrite nth_error_app1, E by auto. cbn. now rewrite app_nth1 by auto.
Qed.

(** ** instances *)
Definition ex_conf : kgb_conf := {| k_pop_size := 4; k_c_size := 2; k_eps := 0; k_xl := [0; 2]%Q; k_xu := [1; 4]%Q |}.
Definition ex_rank (F : list (list Q)) : list nat := map (fun p => if existsb (fun q => forallb (fun ab => Qle_bool (fst ab) (snd ab)) (combine q p) && negb (forallb (fun ab => Qle_bool (fst ab) (snd ab)) (combine p q))) F then 1 else 0) F.
Definition ex_step (f : list Q -> list Q) : kgb_step :=
  {| k_f := f; k_ranking := ex_rank; k_sample := [0]; k_u := [[1 # 2; 1 # 2]; [1 # 4; 3 # 4]]%Q; k_noise := [1 # 8; -1]%Q; k_labels := [1; -1; 1; 1]%Z;
     k_pick := fun n k => seq 0 k; k_pick' := fun n k => seq 0 k; k_rnd := fun k => repeat [1 # 3; 1 # 3]%Q k |}.
Definition ex_opt : list (list Q) := [[0; 2]; [0; 3]; [1; 4]]%Q.
Lemma ex_chooses : chooses (fun _ k => seq 0 k).
Proof. intros n k H. split; [apply seq_length|]. split; [apply seq_NoDup|]. intros j Hj. apply in_seq in Hj. lia. Qed.
Example C112_conf_ex : conf_ok ex_conf /\ forall f, step_ok ex_conf (ex_step f).
Proof.
  split.
  - repeat split; cbn; try lia; auto. intros [|[|i]] Hi; cbn in *; [lra|lra|lia].
  - intros f. split; [intros u [<-|[<-|[]]]; reflexivity|]. split; auto. split; [apply ex_chooses|]. split; [apply ex_chooses|]. split; [intros k; apply repeat_length|]. intros k u Hu. apply repeat_spec in Hu as ->. reflexivity.
Qed.
(** a change: three solutions archived, merged into two clusters, four parents *)
Example C112_change_ex : match kgb_parents ex_conf (ex_step (fun x => x)) ex_opt [([0; 2]%Q, [7; 7]%Q)] {| s_t := 0; s_ps := [] |} with
  | Some (st, par) => map fst (s_ps st) = [(0, 0); (2, 0)] /\ s_t st = 1 /\ length par = 4 /\ length (c_sol (snd (nth 0 (s_ps st) ((0, 0), {| c_sol := []; c_cen := [] |})))) = 2
  | None => False end.
Proof. vm_compute. auto. Qed.
(** two optimizers used one after the other without minimize: the second starts with the archive of the first *)
Example C112_shared_ex : archive_of (kgb_ops heap0 [New None; New None; Update 0 (fun t ps => (t, add_to_ps t ex_opt ps))]) 1 <> Some [] /\
  archive_of (kgb_ops heap0 [New None; New None; Copy 1; Update 0 (fun t ps => (t, add_to_ps t ex_opt ps))]) 2 = Some [].
Proof. split; [vm_compute; discriminate|reflexivity]. Qed.
Example C112_ranks_ex : useful (ex_rank [[0; 2]; [1; 4]]%Q) [((0, 0), {| c_sol := [[0; 2]%Q]; c_cen := [0; 2]%Q |}); ((1, 0), {| c_sol := [[1; 4]%Q]; c_cen := [1; 4]%Q |})] = [[0; 2]%Q].
Proof. reflexivity. Qed.
(** a ranking as C112_labels asks for exists *)
Definition kdomb (p q : list Q) : bool := (length p =? length q) && forallb (fun ab => Qle_bool (fst ab) (snd ab)) (combine p q) && existsb (fun ab => negb (Qle_bool (snd ab) (fst ab))) (combine p q).
Lemma F2_len {A B} (R : A -> B -> Prop) l m : Forall2 R l m -> length l = length m.
Proof. induction 1; cbn; auto. Qed.
Lemma kdomb_iff p q : kdomb p q = true <-> kdom p q.
Proof.
  unfold kdomb, kdom. rewrite !andb_true_iff.
  assert (A : (length p =? length q) = true /\ forallb (fun ab => Qle_bool (fst ab) (snd ab)) (combine p q) = true <-> Forall2 Qle p q).
  { revert q. induction p as [|a p IH]; intros [|b q]; cbn; try (split; [intros [? _]; discriminate|intros H; inversion H]); [split; auto|]. rewrite andb_true_iff, Qle_bool_iff. split; [intros (H1 & H2 & H3); constructor; auto; apply IH; auto|intros H; inversion H; subst; apply IH in H5; tauto]. }
  rewrite <- A. split; intros [H1 H2]; (split; [auto|]); apply A in H1.
  - apply existsb_exists in H2 as ([a b] & Hab & Hlt). cbn in Hlt. apply negb_true_iff in Hlt. assert (Hn : (a < b)%Q) by (apply Qnot_le_lt; rewrite <- Qle_bool_iff; congruence). apply (In_nth _ _ (0, 0)%Q) in Hab as (i & Hi & E). rewrite combine_nth in E by (eapply F2_len; eauto). injection E as <- <-. eauto.
  - destruct H2 as (i & Hi). assert (Hl : i < length p). { destruct (Nat.lt_ge_cases i (length p)); auto. apply F2_len in H1. rewrite !nth_overflow in Hi by lia. lra. } apply existsb_exists. exists (nth i (combine p q) (0, 0)%Q). split; [apply nth_In; rewrite combine_length; apply F2_len in H1; lia|]. rewrite combine_nth by (eapply F2_len; eauto). cbn [fst snd]. apply negb_true_iff. apply not_true_iff_false. rewrite Qle_bool_iff. lra.
Qed.
Example C112_ranks_front_ex : ranks_front (fun F => map (fun p => if existsb (fun q => kdomb q p) F then 1 else 0) F).
Proof.
  intros F. split; [apply map_length|]. intros i p Hp. exists (if existsb (fun q => kdomb q p) F then 1 else 0). split; [erewrite map_nth_error; eauto|]. destruct (existsb _ F) eqn:E.
  - split; [discriminate|]. intros H. exfalso. apply existsb_exists in E as (q & Hq & Hd). apply kdomb_iff in Hd. eapply H; eauto.
  - split; auto. intros _ q Hq Hd. apply kdomb_iff in Hd. assert (X : existsb (fun q => kdomb q p) F = true) by (apply existsb_exists; eauto). congruence.
Qed.
