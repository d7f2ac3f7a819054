(** * C77: differential evolution *)
From Coq Require Import List Arith Bool QArith Lqa Lia Permutation.
From Verif Require Import Flt ListAux NpSort M_Survival M_Bounds M_Cross M_Swarm S_Survival P_Survival4 Thm_Survival P_Bounds P_Cross Thm_GA.
Import ListNotations.
Local Open Scope nat_scope.

Definition vok (v : ind1) : Prop := isnan (o_f v) = false /\ isnan (o_cv v) = false.
(** feasibility is the absence of violation, and a violation is not negative *)
Definition consistent (v : ind1) : Prop := fleb f_zero (o_cv v) = true /\ o_feas v = fleb (o_cv v) f_zero.
(** "strictly better" is a weak order on individuals without NaN *)
Lemma better_weak x b o : vok x -> vok b -> vok o -> better x o -> better x b \/ better b o.
Proof.
  intros [Fx Cx] [Fb Cb] [Fo Co] H. unfold better in *. destruct (o_feas b) eqn:Eb; destruct H as [[H1 H2]|[(H1 & H2 & H3)|(H1 & H2 & H3)]]; rewrite ?H1, ?H2; auto 6.
  - destruct (fltb (o_f x) (o_f b)) eqn:E; [left; right; right; auto|]. right. right. right. repeat split; auto. eapply fle_lt_trans; [|exact H3]. now apply nlt_le.
  - destruct (fltb (o_cv x) (o_cv b)) eqn:E; [left; right; left; auto|]. right. right. left. repeat split; auto. eapply fle_lt_trans; [|exact H3]. now apply nlt_le.
Qed.

Section Assign.
  Context {A : Type} (d : A).
  Lemma assign_length J : forall (pop vals : list A), length (assign pop J vals) = length pop.
  Proof. induction J as [|j J IH]; intros pop vals; [reflexivity|]. destruct vals as [|v vals]; [reflexivity|]. unfold assign. cbn [combine fold_left fst snd]. fold (assign (upd pop j v) J vals). rewrite IH. apply length_upd. Qed.
  Lemma assign_other J : forall (pop vals : list A) k, ~ In k J -> nth k (assign pop J vals) d = nth k pop d.
  Proof.
    induction J as [|j J IH]; intros pop vals k Hk; [reflexivity|]. destruct vals as [|v vals]; [reflexivity|]. unfold assign. cbn [combine fold_left fst snd]. fold (assign (upd pop j v) J vals).
    rewrite IH by (intros H; apply Hk; now right). apply nth_upd_neq. intros ->. apply Hk. now left.
  Qed.
  Lemma assign_at J : forall (pop vals : list A) i, NoDup J -> i < length J -> i < length vals -> nth i J 0 < length pop -> nth (nth i J 0) (assign pop J vals) d = nth i vals d.
  Proof.
    induction J as [|j J IH]; intros pop vals i HN Hi Hv Hp; [cbn in Hi; lia|]. destruct vals as [|v vals]; [cbn in Hv; lia|]. unfold assign. cbn [combine fold_left fst snd]. fold (assign (upd pop j v) J vals).
    inversion HN as [|? ? H1 H2]; subst. destruct i as [|i]; cbn [nth] in *.
    - rewrite assign_other by auto. now rewrite nth_upd_eq by lia.
    - apply IH; auto; try (cbn in *; lia). now rewrite length_upd.
  Qed.
End Assign.

Section DE.
  Context {A : Type} (d : A) (view : A -> ind1) (close : A -> A -> bool) (hc : bool).
  (** without constraints every individual is feasible *)
  Hypothesis Hfeas : hc = false -> forall a, o_feas (view a) = true.

  Lemma dup_spec off pop k : k < length off -> (In k (dup_idx d close off pop) <-> (exists j, j < k /\ close (nth k off d) (nth j off d) = true) \/ exists p, In p pop /\ close (nth k off d) p = true).
  Proof.
    intros Hk. unfold dup_idx. rewrite In_where. split.
    - intros [_ H]. apply orb_true_iff in H. destruct H as [H|H]; apply existsb_exists in H; destruct H as (j & Hj & H); apply in_seq in Hj.
      + apply andb_true_iff in H. destruct H as [H1 H2]. apply Nat.ltb_lt in H1. left. eauto.
      + right. exists (nth j pop d). split; [apply nth_In; lia|exact H].
    - intros H. split; [exact Hk|]. apply orb_true_iff. destruct H as [(j & H1 & H2)|(p & H1 & H2)].
      + left. apply existsb_exists. exists j. split; [apply in_seq; lia|]. apply andb_true_iff. split; [now apply Nat.ltb_lt|exact H2].
      + right. destruct (In_nth _ _ d H1) as (j & Hj & <-). apply existsb_exists. exists j. split; [apply in_seq; lia|exact H2].
  Qed.

  (** C77: the offspring of target t takes its place exactly if it is strictly better and equal neither to an earlier offspring nor to one of the targets; all other places
      are untouched *)
  Lemma advance_slot pop J infills i : NoDup J -> (forall t, In t J -> t < length pop) -> length infills = length J -> i < length J ->
    let pop' := de_advance d view close hc pop J infills in let t := nth i J 0 in let x := nth i infills d in
    let dup := (exists j, j < i /\ close x (nth j infills d) = true) \/ (exists s, In s J /\ close x (nth s pop d) = true) in
    (better (view x) (view (nth t pop d)) /\ ~ dup -> nth t pop' d = x) /\ (~ (better (view x) (view (nth t pop d)) /\ ~ dup) -> nth t pop' d = nth t pop d).
  Proof.
    intros HN HJ HL Hi pop' t x dup. set (sub := gather d pop J). assert (LS : length sub = length J) by (unfold sub; apply length_gather).
    assert (Ht : t < length pop) by (apply HJ, nth_In; auto).
    assert (Es : nth i sub d = nth t pop d) by (unfold sub; rewrite nth_gather by auto; reflexivity).
    assert (En : nth t pop' d = nth i (improvement_replacement d view hc sub infills (dup_idx d close infills sub)) d).
    { unfold pop', de_advance. fold sub. unfold t. apply assign_at; auto. rewrite length_improvement. lia. }
    destruct (C14_replacement A d view hc sub infills (dup_idx d close infills sub) ltac:(lia) Hfeas) as [_ HS]. destruct (HS i ltac:(lia)) as [S1 S2]. rewrite <- En, Es in *.
    assert (HD : In i (dup_idx d close infills sub) <-> dup).
    { rewrite dup_spec by lia. unfold dup. split; (intros [H|(p & H1 & H2)]; [left; exact H|right]).
      - unfold sub in H1. apply in_map_iff in H1. destruct H1 as (s & <- & Hs). eauto.
      - exists (nth p pop d). split; [unfold sub; apply in_map_iff; eauto|exact H2]. }
    rewrite HD in S1, S2. split; [intros [H1 H2]; auto|exact S2].
  Qed.
  Lemma advance_other pop J infills k : ~ In k J -> nth k (de_advance d view close hc pop J infills) d = nth k pop d.
  Proof. intros H. unfold de_advance. now apply assign_other. Qed.
  Lemma advance_length pop J infills : length (de_advance d view close hc pop J infills) = length pop.
  Proof. unfold de_advance. apply assign_length. Qed.

  (** equal design vectors have equal values *)
  Definition deterministic (l : list A) : Prop := forall a b, In a l -> In b l -> close a b = true -> view a = view b.

  Lemma advance_covers pop J infills : NoDup J -> (forall t, In t J -> t < length pop) -> length infills = length J -> deterministic (pop ++ infills) ->
    let pop' := de_advance d view close hc pop J infills in
    incl pop' (pop ++ infills) /\ forall x, In x (pop ++ infills) -> exists b, In b pop' /\ ~ better (view x) (view b).
  Proof.
    intros HN HJ HL HD pop'. assert (LP : length pop' = length pop) by apply advance_length.
    assert (Slot : forall k, k < length pop -> nth k pop' d = nth k pop d \/ (exists i, i < length J /\ nth i J 0 = k /\ nth k pop' d = nth i infills d /\ better (view (nth i infills d)) (view (nth k pop d)))).
    { intros k Hk. destruct (in_dec Nat.eq_dec k J) as [Hin|Hout]; [|left; now apply advance_other].
      destruct (In_nth _ _ 0 Hin) as (i & Hi & <-). destruct (advance_slot pop J infills i HN HJ HL Hi) as [S1 S2]. cbv zeta in *. fold pop' in S1, S2.
      set (x := nth i infills d) in *. set (t := nth i J 0) in *.
      destruct (existsb (fun j => close x (nth j infills d)) (seq 0 i) || existsb (fun s => close x (nth s pop d)) J) eqn:E.
      - left. apply S2. intros [_ H]. apply H. apply orb_true_iff in E. destruct E as [E|E]; apply existsb_exists in E; destruct E as (j & Hj & E); [left; exists j; split; [apply in_seq in Hj; lia|exact E]|right; eauto].
      - assert (Hnd : ~ ((exists j, j < i /\ close x (nth j infills d) = true) \/ (exists s, In s J /\ close x (nth s pop d) = true))).
        { apply orb_false_iff in E. destruct E as [E1 E2]. intros [(j & H1 & H2)|(s & H1 & H2)].
          - assert (existsb (fun j => close x (nth j infills d)) (seq 0 i) = true) by (apply existsb_exists; exists j; split; [apply in_seq; lia|exact H2]). congruence.
          - assert (existsb (fun s => close x (nth s pop d)) J = true) by (apply existsb_exists; eauto). congruence. }
        destruct (improvement hc (view (nth t pop d)) (view x)) eqn:Ei; pose proof (improvement_iff hc (view (nth t pop d)) (view x)) as HI.
        + right. exists i. repeat split; auto; [apply S1; split; auto|]; apply HI; auto.
        + left. apply S2. intros [H _]. apply HI in H; auto. congruence. }
    split.
    - intros y Hy. destruct (In_nth _ _ d Hy) as (k & Hk & <-). rewrite LP in Hk. apply in_or_app. destruct (Slot k Hk) as [->|(i & Hi & _ & -> & _)]; [left; now apply nth_In|right; apply nth_In; lia].
    - assert (Old : forall k, k < length pop -> ~ better (view (nth k pop d)) (view (nth k pop' d))).
      { intros k Hk. destruct (Slot k Hk) as [->|(i & Hi & _ & -> & Hb)]; [apply better_irrefl|]. intros H. apply (better_irrefl (view (nth i infills d))). eapply better_trans; eauto. }
      assert (OldP : forall x, In x pop -> exists b, In b pop' /\ ~ better (view x) (view b)).
      { intros x Hx. destruct (In_nth _ _ d Hx) as (k & Hk & <-). exists (nth k pop' d). split; [apply nth_In; lia|now apply Old]. }
      assert (New : forall i, i < length J -> exists b, In b pop' /\ ~ better (view (nth i infills d)) (view b)).
      { intros i. induction i as [i IH] using lt_wf_ind. intros Hi. destruct (advance_slot pop J infills i HN HJ HL Hi) as [S1 S2]. cbv zeta in *. fold pop' in S1, S2.
        set (x := nth i infills d) in *. set (t := nth i J 0) in *. assert (Ht : t < length pop) by (apply HJ, nth_In; auto). assert (Hx : In x infills) by (apply nth_In; lia).
        destruct (existsb (fun j => close x (nth j infills d)) (seq 0 i)) eqn:E1.
        { apply existsb_exists in E1. destruct E1 as (j & Hj & E1). apply in_seq in Hj. destruct (IH j ltac:(lia) ltac:(lia)) as (b & Hb & Hn). exists b. split; [exact Hb|].
          rewrite (HD x (nth j infills d)); auto; apply in_or_app; right; auto. apply nth_In. lia. }
        destruct (existsb (fun s => close x (nth s pop d)) J) eqn:E2.
        { apply existsb_exists in E2. destruct E2 as (s & Hs & E2). assert (Hsp : In (nth s pop d) pop) by (apply nth_In; auto). destruct (OldP (nth s pop d) Hsp) as (b & Hb & Hn). exists b. split; [exact Hb|].
          rewrite (HD x (nth s pop d)); auto; apply in_or_app; auto. }
        assert (Hnd : ~ ((exists j, j < i /\ close x (nth j infills d) = true) \/ (exists s, In s J /\ close x (nth s pop d) = true))).
        { intros [(j & H1 & H2)|(s & H1 & H2)].
          - assert (existsb (fun j => close x (nth j infills d)) (seq 0 i) = true) by (apply existsb_exists; exists j; split; [apply in_seq; lia|exact H2]). congruence.
          - assert (existsb (fun s => close x (nth s pop d)) J = true) by (apply existsb_exists; eauto). congruence. }
        exists (nth t pop' d). split; [apply nth_In; lia|]. intros Hb. destruct (improvement hc (view (nth t pop d)) (view x)) eqn:Ei; pose proof (improvement_iff hc (view (nth t pop d)) (view x)) as HI.
        - rewrite S1 in Hb by (split; [apply HI; auto|auto]). exact (better_irrefl _ Hb).
        - assert (nth t pop' d = nth t pop d) as E by (apply S2; intros [H _]; apply HI in H; auto; congruence). rewrite E in Hb. apply HI in Hb; auto. congruence. }
      intros x Hx. apply in_app_or in Hx. destruct Hx as [Hx|Hx]; [now apply OldP|]. destruct (In_nth _ _ d Hx) as (i & Hi & <-). apply New. lia.
  Qed.

  Lemma index_ok n_off pop_size perm (pop : list A) : Permutation perm (seq 0 n_off) -> n_off <= length pop ->
    let J := de_index n_off pop_size perm in NoDup J /\ (forall t, In t J <-> t < n_off) /\ length J = n_off.
  Proof.
    intros HP Hn. unfold de_index. destruct (n_off <? pop_size).
    - rewrite firstn_all2 by (rewrite (Permutation_length HP), seq_length; lia). split; [eapply perm_seq_NoDup; eauto|]. split; [intros t; apply (perm_seq_In _ _ t HP)|rewrite (Permutation_length HP); apply seq_length].
    - split; [apply seq_NoDup|]. split; [intros t; rewrite in_seq; lia|apply seq_length].
  Qed.
  (** the run of the algorithm keeps, for every individual evaluated so far, one that is at least as good *)
  Definition evaluated (pop : list A) (gens : list (list nat * list A)) : list A := pop ++ concat (map snd gens).
  Lemma run_covers n_off pop_size gens : forall pop final, n_off <= length pop -> Forall (fun g => Permutation (fst g) (seq 0 n_off) /\ length (snd g) = n_off) gens ->
    deterministic (evaluated pop gens) -> (forall x, In x (evaluated pop gens) -> vok (view x)) -> de_run d view close hc n_off pop_size gens pop = Some final ->
    length final = length pop /\ incl final (evaluated pop gens) /\ forall x, In x (evaluated pop gens) -> exists b, In b final /\ ~ better (view x) (view b).
  Proof.
    induction gens as [|[perm off] gens IH]; intros pop final Hn HG HD HV HR.
    - cbn [de_run] in HR. injection HR as <-. unfold evaluated. cbn [map concat]. rewrite app_nil_r. split; [reflexivity|]. split; [apply incl_refl|]. intros x Hx. exists x. split; [exact Hx|apply better_irrefl].
    - apply Forall_cons_iff in HG. destruct HG as [[HP HO] HG]. cbn [fst snd] in HP, HO. cbn [de_run] in HR. unfold de_infill in HR. destruct (Nat.leb_spec n_off (length pop)); [|lia].
      destruct (index_ok n_off pop_size perm pop HP Hn) as (N1 & N2 & N3). set (J := de_index n_off pop_size perm) in *. set (inf := gather d off J) in *.
      assert (LI : length inf = length J) by (unfold inf; apply length_gather).
      assert (InI : forall x, In x inf <-> In x off).
      { intros x. unfold inf, gather. rewrite in_map_iff. split; [intros (t & <- & Ht); apply nth_In; apply N2 in Ht; lia|]. intros Hx. destruct (In_nth _ _ d Hx) as (t & Ht & E). exists t. split; [exact E|apply N2; lia]. }
      assert (E0 : evaluated pop ((perm, off) :: gens) = (pop ++ off) ++ concat (map snd gens)) by (unfold evaluated; cbn [map concat snd]; apply app_assoc).
      assert (Sub : forall x, In x (pop ++ inf) -> In x (evaluated pop ((perm, off) :: gens))).
      { intros x Hx. rewrite E0. apply in_or_app. left. apply in_app_or in Hx. apply in_or_app. rewrite InI in Hx. exact Hx. }
      destruct (advance_covers pop J inf N1) as (A1 & A2); [intros t Ht; apply N2 in Ht; lia|exact LI|intros a b Ha Hb; apply HD; now apply Sub|].
      set (pop' := de_advance d view close hc pop J inf) in *. cbv zeta in *.
      assert (Sub' : forall x, In x (evaluated pop' gens) -> In x (evaluated pop ((perm, off) :: gens))).
      { intros x Hx. unfold evaluated in Hx. apply in_app_or in Hx. destruct Hx as [Hx|Hx]; [now apply Sub, A1|]. rewrite E0. apply in_or_app. now right. }
      assert (LP : length pop' = length pop) by apply advance_length.
      destruct (IH pop' final) as (B1 & B2 & B3); auto; [lia|intros a b Ha Hb; apply HD; now apply Sub'|].
      split; [lia|]. split; [intros x Hx; now apply Sub', B2|].
      intros x Hx. rewrite E0 in Hx. apply in_app_or in Hx. destruct Hx as [Hx|Hx].
      + destruct (A2 x) as (b & Hb & Hn1); [apply in_app_or in Hx; apply in_or_app; rewrite InI; exact Hx|].
        destruct (B3 b) as (b' & Hb' & Hn2); [unfold evaluated; apply in_or_app; now left|]. exists b'. split; [exact Hb'|]. intros H0.
        assert (Vx : vok (view x)) by (apply HV; rewrite E0; apply in_or_app; left; exact Hx).
        assert (Vb : vok (view b)) by (apply HV, Sub', in_or_app; now left). assert (Vb' : vok (view b')) by (apply HV, Sub', B2, Hb').
        destruct (better_weak (view x) (view b) (view b') Vx Vb Vb' H0); auto.
      + apply B3. unfold evaluated. apply in_or_app. now right.
  Qed.

  Lemma pos_zero i l : In i l -> (pos i l = 0 <-> nth 0 l 0 = i).
  Proof. destruct l as [|x l]; [intros []|]. intros _. cbn [pos nth]. destruct (Nat.eqb_spec x i); split; auto; [intros; discriminate|congruence]. Qed.
  (** the reported optimum is one member of the population, beaten by none *)
  Lemma opt_spec lex (pop : list A) : lex_ok lex -> pop <> [] -> (forall x, In x pop -> vok (view x) /\ consistent (view x)) ->
    exists o, de_opt d view lex pop = [o] /\ In o pop /\ forall x, In x pop -> ~ better (view x) (view o).
  Proof.
    intros HL Hne HV. unfold de_opt. set (key := fun a => (o_cv (view a), o_f (view a))). set (keys := map key pop).
    assert (HK : Forall key_ok keys) by (unfold keys; apply Forall_map, Forall_forall; intros a Ha; destruct (HV a Ha) as [[V1 V2] _]; split; auto).
    destruct (HL keys HK) as [HP HS]. set (order := lex keys) in *. assert (Lk : length keys = length pop) by (unfold keys; apply map_length). rewrite Lk in HP.
    assert (LO : length order = length pop) by (rewrite (Permutation_length HP); apply seq_length). set (j := nth 0 order 0).
    assert (Lp : 0 < length pop) by (destruct pop; [congruence|cbn; lia]). assert (Hj : j < length pop) by (apply (perm_seq_In _ _ j HP); apply nth_In; lia).
    assert (W : where_ (fun i => pos i order =? 0) (length pop) = [j]).
    { assert (Hin : forall i, In i (where_ (fun i => pos i order =? 0) (length pop)) <-> i = j).
      { intros i. rewrite In_where. split.
        - intros [H1 H2]. apply Nat.eqb_eq in H2. rewrite pos_zero in H2 by (apply (perm_seq_In _ _ i HP); auto). now symmetry.
        - intros ->. split; [exact Hj|]. apply Nat.eqb_eq. apply pos_zero; [apply (perm_seq_In _ _ j HP); auto|reflexivity]. }
      assert (ND : NoDup (where_ (fun i => pos i order =? 0) (length pop))) by (unfold where_; apply NoDup_filter, seq_NoDup).
      destruct (where_ (fun i => pos i order =? 0) (length pop)) as [|a [|b l]] eqn:Ew.
      - exfalso. apply (proj2 (Hin j) eq_refl).
      - f_equal. apply Hin. now left.
      - exfalso. assert (a = j) by (apply Hin; now left). assert (b = j) by (apply Hin; right; now left). subst. inversion ND as [|? ? H1 H2]. apply H1. now left. }
    rewrite W. exists (nth j pop d). split; [reflexivity|]. split; [now apply nth_In|]. intros x Hx. destruct (In_nth _ _ d Hx) as (i & Hi & <-).
    assert (Hio : In i order) by (apply (perm_seq_In _ _ i HP); auto). destruct (In_nth _ _ 0 Hio) as (q & Hq & Eq).
    assert (KN : forall i, i < length pop -> nth i keys (f_nan, f_nan) = key (nth i pop d)) by (intros i' Hi'; unfold keys; rewrite (nth_indep _ _ (key d)) by (rewrite map_length; exact Hi'); apply map_nth).
    destruct q as [|q]; [fold j in Eq; subst i; apply better_irrefl|].
    specialize (HS 0 (S q) ltac:(lia) Hq). rewrite Eq in HS. fold j in HS. rewrite !KN in HS by auto.
    destruct (HV _ (nth_In pop d Hi)) as [[Fx Cx] [Nx Ex]]. destruct (HV _ (nth_In pop d Hj)) as [[Fo Co] [No Eo]].
    set (x := nth i pop d) in *. set (o := nth j pop d) in *. unfold pair_lt, key in HS. cbn [fst snd] in HS. intros [[H1 H2]|[(H1 & H2 & H3)|(H1 & H2 & H3)]].
    - rewrite Ex in H1. rewrite Eo in H2. assert (Hlt : fltb (o_cv (view x)) (o_cv (view o)) = true).
      { apply fle_lt_trans with f_zero; auto. destruct (fltb f_zero (o_cv (view o))) eqn:E; auto. apply nlt_le in E; [congruence|reflexivity|exact Co]. }
      rewrite Hlt in HS. discriminate.
    - rewrite H3 in HS. discriminate.
    - rewrite Ex in H1. rewrite Eo in H2. assert (E1 : fleb (o_cv (view x)) (o_cv (view o)) = true) by (eapply fle_trans; eauto). assert (E2 : fleb (o_cv (view o)) (o_cv (view x)) = true) by (eapply fle_trans; eauto).
      rewrite (fle_not_lt _ _ E1), (fle_not_lt _ _ E2) in HS. congruence.
  Qed.
End DE.

(** C77: the offspring of target t takes its place exactly if it is strictly better and equal neither to an earlier offspring nor to one of the targets; all other places
    are untouched *)
Theorem C77_replacement (A : Type) (d : A) view close hc pop J infills : (hc = false -> forall a, o_feas (view a) = true) ->
  NoDup J -> (forall t, In t J -> t < length pop) -> length infills = length J ->
  let pop' := de_advance d view close hc pop J infills in
  length pop' = length pop /\ (forall k, ~ In k J -> nth k pop' d = nth k pop d) /\
  forall i, i < length J -> let t := nth i J 0 in let x := nth i infills d in
    let dup := (exists j, j < i /\ close x (nth j infills d) = true) \/ (exists s, In s J /\ close x (nth s pop d) = true) in
    (better (view x) (view (nth t pop d)) /\ ~ dup -> nth t pop' d = x) /\ (~ (better (view x) (view (nth t pop d)) /\ ~ dup) -> nth t pop' d = nth t pop d).
Proof.
  intros Hf HN HJ HL pop'. split; [apply advance_length|]. split; [intros k Hk; now apply advance_other|]. intros i Hi. now apply advance_slot.
Qed.
(** C77: after any number of generations the population still has its size, consists of evaluated individuals, and the single reported optimum is beaten by no individual
    that was ever evaluated (evaluation being deterministic and free of NaN) *)
Theorem C77_best (A : Type) (d : A) view close hc n_off pop_size lex gens pop final : (hc = false -> forall a, o_feas (view a) = true) -> lex_ok lex ->
  pop <> [] -> n_off <= length pop -> Forall (fun g => Permutation (fst g) (seq 0 n_off) /\ length (snd g) = n_off) gens ->
  deterministic view close (evaluated pop gens) -> (forall x, In x (evaluated pop gens) -> vok (view x) /\ consistent (view x)) ->
  de_run d view close hc n_off pop_size gens pop = Some final ->
  length final = length pop /\ incl final (evaluated pop gens) /\
  exists o, de_opt d view lex final = [o] /\ In o (evaluated pop gens) /\ forall x, In x (evaluated pop gens) -> ~ better (view x) (view o).
Proof.
  intros Hf HL Hne Hn HG HD HV HR. destruct (run_covers d view close hc Hf n_off pop_size gens pop final Hn HG HD ltac:(intros x Hx; apply HV; auto) HR) as (R1 & R2 & R3).
  split; [exact R1|]. split; [exact R2|]. destruct (opt_spec d view lex final HL) as (o & O1 & O2 & O3); [destruct final; [destruct pop; [congruence|discriminate]|discriminate]|intros x Hx; apply HV; auto|].
  exists o. split; [exact O1|]. split; [auto|]. intros x Hx H. destruct (R3 x Hx) as (b & Hb & Hnb). destruct (better_weak (view x) (view b) (view o)) as [H1|H1]; auto; try (apply HV; auto). apply (O3 b Hb H1).
Qed.
(** C77: with as many offspring as individuals the run always goes on *)
Theorem C77_runs (A : Type) (d : A) view close hc n_off pop_size gens : forall pop, n_off <= length pop -> exists final, de_run d view close hc n_off pop_size gens pop = Some final.
Proof.
  induction gens as [|[perm off] gens IH]; intros pop Hn; cbn [de_run]; [eauto|]. unfold de_infill. destruct (Nat.leb_spec n_off (length pop)); [|lia]. apply IH. now rewrite advance_length.
Qed.
(** "any number of offspring can be asked for" is false: more offspring than individuals end with an exception *)
Theorem C77_many_offspring_refuted (A : Type) (d : A) view close hc n_off pop_size g gens pop : length pop < n_off -> de_run d view close hc n_off pop_size (g :: gens) pop = None.
Proof. intros H. destruct g as [perm off]. cbn [de_run]. unfold de_infill. destruct (Nat.leb_spec n_off (length pop)); [lia|reflexivity]. Qed.
(** "with fewer offspring than individuals (steady state) every individual is a target now and then" is false: only the first n_offsprings places ever change *)
Theorem C77_steady_state_refuted (A : Type) (d : A) view close hc n_off pop_size gens : forall pop final, n_off < pop_size -> Forall (fun g => Permutation (fst g) (seq 0 n_off)) gens ->
  de_run d view close hc n_off pop_size gens pop = Some final -> forall k, n_off <= k -> nth k final d = nth k pop d.
Proof.
  induction gens as [|[perm off] gens IH]; intros pop final Hn HG HR k Hk; cbn [de_run] in HR; [injection HR as <-; reflexivity|]. apply Forall_cons_iff in HG. destruct HG as [HP HG]. cbn [fst] in HP.
  unfold de_infill in HR. destruct (Nat.leb_spec n_off (length pop)); [|discriminate]. rewrite (IH _ _ Hn HG HR k Hk). apply advance_other.
  intros Hin. destruct (index_ok n_off pop_size perm pop HP ltac:(lia)) as (_ & N2 & _). apply N2 in Hin. lia.
Qed.

(** ** the trial vectors *)
Local Open Scope Q_scope.
(** C77: trial vectors of individuals inside of the box stay inside, for every kind of crossover *)
Theorem C77_trial_box n target ps Fs xl xu r1 r2 c : length target = n ->
  (forall j, (j < n)%nat -> xl j <= nth j target 0 /\ nth j target 0 <= xu j) -> (forall j, (j < n)%nat -> xl j <= nth 0 (ps j) 0 /\ nth 0 (ps j) 0 <= xu j) ->
  (forall j, 0 <= r1 j /\ r1 j < 1 /\ 0 <= r2 j /\ r2 j < 1) ->
  match c with XMask _ => True | XLine w => 0 <= w /\ w <= 1 | XHypercube w => forall j, (j < n)%nat -> 0 <= nth j w 0 /\ nth j w 0 <= 1 end ->
  let t := de_trial n target (map (de_donor true ps Fs xl xu r1 r2) (seq 0 n)) c in
  length t = n /\ forall j, (j < n)%nat -> xl j <= nth j t 0 /\ nth j t 0 <= xu j.
Proof.
  intros Ht HT HP HR Hc t. set (donor := map (de_donor true ps Fs xl xu r1 r2) (seq 0 n)) in *.
  assert (Nm : forall (f : nat -> Q) j, (j < n)%nat -> nth j (map f (seq 0 n)) 0 = f j) by (intros f j Hj; rewrite (nth_indep _ 0 (f n)) by (rewrite map_length, seq_length; lia); rewrite map_nth; now rewrite seq_nth by lia).
  assert (HDn : forall j, (j < n)%nat -> xl j <= nth j donor 0 /\ nth j donor 0 <= xu j).
  { intros j Hj. unfold donor. rewrite Nm by auto. unfold de_donor. destruct (HP j Hj), (HR j) as (? & ? & ? & ?). now apply random_init_box. }
  assert (Cv : forall a b l u w, l <= a -> a <= u -> l <= b -> b <= u -> 0 <= w -> w <= 1 -> l <= a + w * (b - a) /\ a + w * (b - a) <= u).
  { clear. intros a b l u w H1 H2 H3 H4 H5 H6. pose proof (Qmult_le_0_compat w (b - l) H5 ltac:(lra)). pose proof (Qmult_le_0_compat w (u - b) H5 ltac:(lra)).
    pose proof (Qmult_le_0_compat (1 - w) (a - l) ltac:(lra) ltac:(lra)). pose proof (Qmult_le_0_compat (1 - w) (u - a) ltac:(lra) ltac:(lra)). split; lra. }
  unfold t, de_trial. destruct c as [M|w|w].
  - unfold masked. rewrite Ht. split; [now rewrite map_length, seq_length|]. intros j Hj. rewrite Nm by auto. destruct (nth j M false); auto.
  - split; [now rewrite map_length, seq_length|]. intros j Hj. rewrite Nm by auto. apply Cv; try apply HT; try apply HDn; auto; apply Hc.
  - split; [now rewrite map_length, seq_length|]. intros j Hj. rewrite Nm by auto. apply Cv; try apply HT; try apply HDn; auto; now apply Hc.
Qed.
(** the four kinds qualify *)
Theorem C77_weights u CR us : 0 <= u -> u < 1 -> 0 <= CR -> CR <= 1 -> Forall (fun u => 0 <= u /\ u < 1) us ->
  (exists w, de_line u CR = XLine w /\ 0 <= w /\ w <= 1) /\ exists w, de_hypercube us CR = XHypercube w /\ forall j, (j < length us)%nat -> 0 <= nth j w 0 /\ nth j w 0 <= 1.
Proof.
  intros H1 H2 H3 H4 HU. assert (B : forall u, 0 <= u -> u < 1 -> 0 <= u * CR /\ u * CR <= 1).
  { intros v V1 V2. pose proof (scale_range v CR V1 V2 H3). lra. }
  split; [eexists; split; [reflexivity|now apply B]|]. eexists. split; [reflexivity|]. intros j Hj. set (g := fun u => u * CR). rewrite (nth_indep _ 0 (g 0)) by (rewrite map_length; lia). rewrite (map_nth g).
  rewrite Forall_forall in HU. destruct (HU (nth j us 0) ltac:(apply nth_In; lia)). unfold g. now apply B.
Qed.
(** C77: with binomial or exponential crossover every coordinate comes from the target or the donor, and at least one from the donor *)
Theorem C77_mask n target donor CR draws r start ed : length target = n -> length draws = n -> (r < n)%nat -> (start < n)%nat ->
  (forall c, c = de_bin draws CR r \/ c = de_exp n start CR ed r ->
   (forall j, (j < n)%nat -> nth j (de_trial n target donor c) 0 = nth j target 0 \/ nth j (de_trial n target donor c) 0 = nth j donor 0) /\
   exists j, (j < n)%nat /\ nth j (de_trial n target donor c) 0 = nth j donor 0).
Proof.
  intros Ht Hd Hr Hs c Hc. assert (HM : exists M, c = XMask M /\ exists j, (j < n)%nat /\ nth j M false = true).
  { assert (R : forall M, length M = n -> exists j, (j < n)%nat /\ nth j (row_at_least_once_true M r) false = true).
    { intros M LM. destruct (existsb (fun b => b) M) eqn:E.
      - apply existsb_exists in E. destruct E as (b & Hb & Eb). destruct b; [|discriminate]. destruct (In_nth _ _ false Hb) as (j & Hj & Ej). exists j. split; [lia|]. apply row_once_spec; [lia|]. now left.
      - exists r. split; [exact Hr|]. apply row_once_spec; [lia|]. right. split; [|reflexivity]. intros k. destruct (nth k M false) eqn:Ek; [|reflexivity]. exfalso.
        destruct (Nat.lt_ge_cases k (length M)) as [Hk|Hk]; [|rewrite nth_overflow in Ek by lia; discriminate]. assert (existsb (fun b => b) M = true) by (apply existsb_exists; exists true; split; [rewrite <- Ek; now apply nth_In|reflexivity]). congruence. }
    destruct Hc as [->| ->].
    - eexists. split; [reflexivity|]. apply R. now rewrite map_length.
    - eexists. split; [reflexivity|]. apply R. assert (G : forall fuel j M, length (exp_run n start CR ed fuel j M) = length M).
      { induction fuel as [|fuel IH]; intros j M; [reflexivity|]. cbn [exp_run]. destruct (Qle_bool (ed j) CR); [|reflexivity]. rewrite IH. apply length_upd. }
      rewrite G. apply repeat_length. }
  destruct HM as (M & -> & j & Hj & Ej). cbn [de_trial].
  assert (Nm : forall i, (i < n)%nat -> nth i (masked 0 target donor M) 0 = if nth i M false then nth i donor 0 else nth i target 0).
  { intros i Hi. unfold masked. set (f := fun i => if nth i M false then nth i donor 0 else nth i target 0). rewrite (nth_indep _ 0 (f n)) by (rewrite map_length, seq_length; lia). rewrite map_nth. rewrite seq_nth by lia. reflexivity. }
  split; [intros i Hi; rewrite Nm by auto; destruct (nth i M false); auto|]. exists j. split; [exact Hj|]. rewrite Nm by auto. now rewrite Ej.
Qed.
(** a concrete run: three individuals, two generations *)
Definition de_zview (z : Z) : ind1 := {| o_f := fz z; o_cv := f_zero; o_feas := true |}.
Example C77_ex : let pop := [5; 2; 7]%Z in let gens := [([1; 0; 2]%nat, [4; 3; 1]%Z); ([2; 0; 1]%nat, [6; 0; 1]%Z)] in
  Forall (fun g => Permutation (fst g) (seq 0 3) /\ length (snd g) = 3%nat) gens /\ deterministic de_zview Z.eqb (evaluated pop gens) /\
  (forall x, In x (evaluated pop gens) -> vok (de_zview x) /\ consistent (de_zview x)) /\ de_run 9%Z de_zview Z.eqb false 3 3 gens pop = Some [4; 0; 1]%Z.
Proof.
  split; [constructor; [|constructor; [|constructor]]; (split; [|reflexivity]); cbn; [apply perm_swap|]|].
  - eapply perm_trans; [apply perm_swap|]. apply perm_skip. apply perm_swap.
  - split; [intros a b _ _ H; apply Z.eqb_eq in H; now subst|]. split; [|reflexivity]. intros x Hx. cbn in Hx. decompose [or] Hx; subst; try (repeat split; reflexivity). contradiction.
Qed.
Print Assumptions C77_replacement. Print Assumptions C77_best. Print Assumptions C77_steady_state_refuted. Print Assumptions C77_trial_box. Print Assumptions C77_mask.
