From Coq Require Import List Arith Bool Lia Permutation.
From Verif Require Import Flt ListAux NpSort M_NDS M_Survival M_Optimum M_NSGA3 S_Pareto S_NDS S_Survival S_NSGA3 P_Dominator P_Survival P_Optimum.
Import ListNotations.
Local Open Scope nat_scope.

Lemma mem_nat_In x l : mem_nat x l = true <-> In x l.
Proof.
  unfold mem_nat. rewrite existsb_exists. split.
  - intros (y & Hy & E). apply Nat.eqb_eq in E. now subst.
  - intros H. exists x. split; auto. apply Nat.eqb_refl.
Qed.
Lemma list_max_ge l x : In x l -> x <= list_max l.
Proof. intros H. pose proof (proj1 (list_max_le l (list_max l)) (Nat.le_refl _)) as HF. rewrite Forall_forall in HF. auto. Qed.
Lemma np_unique_In l x : In x (np_unique l) <-> In x l.
Proof.
  unfold np_unique. rewrite In_where, mem_nat_In. split; [tauto|]. intros H. split; auto. apply list_max_ge in H. lia.
Qed.
Lemma np_unique_NoDup l : NoDup (np_unique l).
Proof. apply NoDup_where. Qed.

Lemma calc_niche_count_length n l : length (calc_niche_count n l) = n.
Proof.
  unfold calc_niche_count. assert (H : forall u c, length (fold_left (fun c v => upd c v (count_occ Nat.eq_dec l v)) u c) = length c).
  { induction u as [|x u IH]; intros c; simpl; auto. rewrite IH. apply length_upd. }
  rewrite H. apply repeat_length.
Qed.
Lemma calc_niche_count_spec n l v : v < n -> nth v (calc_niche_count n l) 0 = count_occ Nat.eq_dec l v.
Proof.
  intros Hv. unfold calc_niche_count.
  assert (H : forall u c, v < length c -> nth v (fold_left (fun c v => upd c v (count_occ Nat.eq_dec l v)) u c) 0 =
                            if in_dec Nat.eq_dec v u then count_occ Nat.eq_dec l v else nth v c 0).
  { induction u as [|x u IH]; intros c Hc; simpl; auto. rewrite IH by (rewrite length_upd; auto). rewrite nth_upd.
    destruct (in_dec Nat.eq_dec v u) as [Hi|Hi].
    - destruct (Nat.eq_dec x v); auto.
    - destruct (Nat.eq_dec x v) as [->|Hne]; [rewrite Nat.eqb_refl; destruct (v <? length c) eqn:E; [auto|apply Nat.ltb_ge in E; lia]|].
      destruct (v =? x) eqn:E; [apply Nat.eqb_eq in E; congruence|auto]. }
  rewrite H by (rewrite repeat_length; auto). destruct (in_dec Nat.eq_dec v (np_unique l)) as [Hi|Hi]; auto.
  rewrite nth_repeat. symmetry. apply count_occ_not_In. rewrite <- np_unique_In. auto.
Qed.

Lemma fold_min_spec l : forall a, fold_left Nat.min l a <= a /\ (forall x, In x l -> fold_left Nat.min l a <= x) /\ In (fold_left Nat.min l a) (a :: l).
Proof.
  induction l as [|x l IH]; intros a; simpl; [split; [lia|split; [tauto|auto]]|].
  destruct (IH (Nat.min a x)) as (H1 & H2 & H3). split; [lia|]. split.
  - intros y [<-|Hy]; [lia|auto].
  - destruct H3 as [H3|H3]; [|auto]. destruct (Nat.min_spec a x) as [[_ E]|[_ E]]; rewrite E in *; auto.
Qed.

Lemma nth_repeat_lt {A} (x d : A) n i : i < n -> nth i (repeat x n) d = x.
Proof. revert i; induction n as [|n IH]; intros [|i] H; simpl; auto; try lia. apply IH. lia. Qed.

Section Niching.
  Variables (perm : nat -> nat -> list nat) (shuf : nat -> list nat -> list nat) (niche : list nat) (dist : list flt) (count0 : list nat).
  Hypothesis Hperm : forall k n, Permutation (perm k n) (seq 0 n).
  Hypothesis Hshuf : forall k l, Permutation (shuf k l) l.
  Hypothesis Hniche : forall i, i < length niche -> nth i niche 0 < length count0.
  Hypothesis Hdist : length dist = length niche /\ vec_ok dist.
  Notation n := (length niche).
  Notation nic := (fun i => nth i niche 0).
  Notation ds := (fun i => nth i dist f_nan).
  Notation c0 := (fun v => nth v count0 0).

  Definition ninv (st : nst) : Prop :=
    length (n_mask st) = n /\ length (n_count st) = length count0 /\
    (forall i, i < n -> (nth i (n_mask st) false = true <-> ~ In i (n_surv st))) /\
    fills_niches n nic ds c0 (n_surv st) /\
    (forall v, v < length count0 -> nth v (n_count st) 0 = c0 v + count_occ Nat.eq_dec (map nic (n_surv st)) v).
  Notation avail st j := (j < n /\ ~ In j (n_surv st)).

  Lemma fills_bound S : fills_niches n nic ds c0 S -> forall i, In i S -> i < n.
  Proof. intros H i Hi. apply In_nth with (d := 0) in Hi as (k & Hk & <-). apply (H k Hk). Qed.
  Lemma fills_NoDup S : fills_niches n nic ds c0 S -> NoDup S.
  Proof.
    intros H. apply NoDup_nth with (d := 0). intros a b Ha Hb E.
    destruct (Nat.lt_trichotomy a b) as [L|[L|L]]; auto; exfalso.
    - destruct (H b Hb) as (_ & Hn & _). apply Hn. rewrite <- E. apply In_firstn_nth with (d := 0). exists a. auto.
    - destruct (H a Ha) as (_ & Hn & _). apply Hn. rewrite E. apply In_firstn_nth with (d := 0). exists b. auto.
  Qed.
  Lemma fills_snoc S s : fills_niches n nic ds c0 S -> s < n -> ~ In s S ->
    (forall j, j < n -> ~ In j S -> c0 (nic s) + count_occ Nat.eq_dec (map nic S) (nic s) <= c0 (nic j) + count_occ Nat.eq_dec (map nic S) (nic j)) ->
    (c0 (nic s) + count_occ Nat.eq_dec (map nic S) (nic s) = 0 -> forall j, j < n -> ~ In j S -> nic j = nic s -> fltb (ds j) (ds s) = false) ->
    fills_niches n nic ds c0 (S ++ [s]).
  Proof.
    intros H H1 H2 H3 H4 k Hk. rewrite app_length in Hk. cbn [length] in Hk.
    destruct (Nat.eq_dec k (length S)) as [->|Hne].
    - cbv zeta. rewrite app_nth2, Nat.sub_diag by lia. cbn [nth]. rewrite firstn_app, Nat.sub_diag, firstn_all. cbn [firstn]. rewrite app_nil_r. auto.
    - cbv zeta. rewrite app_nth1 by lia. rewrite firstn_app. replace (k - length S) with 0 by lia. cbn [firstn]. rewrite app_nil_r. apply H. lia.
  Qed.

  Lemma vec_nth i : i < n -> isnan (ds i) = false.
  Proof. intros Hi. destruct Hdist as [HL HV]. unfold vec_ok in HV. rewrite Forall_forall in HV. apply HV, nth_In. lia. Qed.

  Lemma niche_step_spec st nn : ninv st -> nn < length count0 -> (exists j, avail st j /\ nic j = nn) ->
    (forall j, avail st j -> nth nn (n_count st) 0 <= nth (nic j) (n_count st) 0) ->
    let st' := niche_step shuf niche dist st nn in
    ninv st' /\ (exists k, n_surv st' = n_surv st ++ [k] /\ nic k = nn /\ k < n) /\
    (forall v, v <> nn -> nth v (n_count st') 0 = nth v (n_count st) 0) /\ (nth nn (n_count st') 0 = S (nth nn (n_count st) 0)).
  Proof.
    intros (I1 & I2 & I3 & I4 & I5) Hnn (j0 & (Hj0 & Hj0') & Ej0) Hmin st'.
    set (cand := where_ (fun i => (nth i niche 0 =? nn) && nth i (n_mask st) false) n).
    assert (Hc : forall i, In i cand <-> avail st i /\ nic i = nn).
    { intros i. unfold cand. rewrite In_where, andb_true_iff, Nat.eqb_eq. split.
      - intros (A & B & C). split; auto. split; auto. now apply I3.
      - intros ((A & B) & C). split; auto. split; auto. now apply I3. }
    set (sh := shuf (length (n_surv st)) cand).
    assert (Hs : forall i, In i sh <-> avail st i /\ nic i = nn).
    { intros i. rewrite <- Hc. unfold sh. split; apply Permutation_in; [|apply Permutation_sym]; apply Hshuf. }
    assert (Hne : sh <> []). { intros E. assert (In j0 sh) by (apply Hs; auto). rewrite E in H. destruct H. }
    set (k := if nth nn (n_count st) 0 =? 0 then nth (np_argmin (map (fun i => nth i dist f_nan) sh)) sh 0 else nth 0 sh 0).
    assert (HA : np_argmin (map ds sh) < length sh /\ forall j, In j sh -> fleb (ds (nth (np_argmin (map ds sh)) sh 0)) (ds j) = true).
    { destruct (np_argmin_spec (map ds sh)) as [A B].
      - destruct sh; [congruence|discriminate].
      - unfold vec_ok. apply Forall_forall. intros x Hx. apply in_map_iff in Hx as (i & <- & Hi). apply Hs in Hi as ((Hi & _) & _). now apply vec_nth.
      - rewrite map_length in *. split; auto. intros j Hj. apply In_nth with (d := 0) in Hj as (q & Hq & <-). specialize (B q Hq).
        rewrite !(nth_indep (map ds sh) f_nan (ds 0)) in B by (rewrite map_length; auto). now rewrite !(map_nth ds) in B. }
    assert (Hk : In k sh).
    { unfold k. destruct (_ =? 0); [apply nth_In, HA|]. destruct sh; [congruence|]. simpl; auto. }
    pose proof (proj1 (Hs k) Hk) as ((K1 & K2) & K3).
    assert (Est : st' = {| n_mask := upd (n_mask st) k false; n_surv := n_surv st ++ [k]; n_count := upd (n_count st) nn (S (nth nn (n_count st) 0)) |}) by reflexivity.
    rewrite Est; cbn [n_surv n_mask n_count]. split; [|split; [|split]].
    - unfold ninv; cbn [n_surv n_mask n_count]. rewrite !length_upd. split; [auto|]. split; [auto|]. split; [|split].
      + intros i Hi. rewrite in_app_iff. cbn [In]. destruct (Nat.eq_dec i k) as [->|Hik].
        * rewrite nth_upd_eq by lia. split; [discriminate|tauto].
        * rewrite nth_upd_neq by auto. rewrite I3 by auto. intuition.
      + apply fills_snoc; auto.
        * intros j Hj Hj'. rewrite K3. specialize (Hmin j (conj Hj Hj')). rewrite !I5 in Hmin by auto. exact Hmin.
        * rewrite K3. intros E j Hj Hj' Ej. rewrite <- I5 in E by auto. unfold k. rewrite E, Nat.eqb_refl.
          destruct HA as [_ HB]. specialize (HB j). assert (Hin : In j sh) by (apply Hs; auto). specialize (HB Hin).
          destruct (fltb (ds j) (ds (nth (np_argmin (map ds sh)) sh 0))) eqn:EL; auto. exfalso.
          pose proof (flt_le_trans _ _ _ EL HB) as X. rewrite flt_irrefl in X. discriminate.
      + intros v Hv. rewrite map_app, count_occ_app. cbn [map count_occ]. rewrite K3. destruct (Nat.eq_dec nn v) as [->|Hne'].
        * rewrite nth_upd_eq by lia. rewrite I5 by auto. lia.
        * rewrite nth_upd_neq by auto. rewrite I5 by auto. lia.
    - exists k. auto.
    - intros v Hv. now rewrite nth_upd_neq by auto.
    - rewrite nth_upd_eq; auto. lia.
  Qed.

  Lemma niche_fold mn l : forall st, ninv st -> NoDup l ->
    (forall v, In v l -> v < length count0 /\ nth v (n_count st) 0 = mn /\ exists j, avail st j /\ nic j = v) ->
    (forall j, avail st j -> mn <= nth (nic j) (n_count st) 0) ->
    let st' := fold_left (niche_step shuf niche dist) l st in
    ninv st' /\ length (n_surv st') = length (n_surv st) + length l.
  Proof.
    induction l as [|v l IH]; intros st Hi Hnd Hl Hm; cbn [fold_left]; [split; auto; simpl; lia|].
    destruct (Hl v (or_introl eq_refl)) as (V1 & V2 & V3). inversion Hnd as [|? ? Hv Hnd']; subst.
    destruct (niche_step_spec st v Hi V1 V3) as (S1 & (k & S2 & S3 & S4) & S5 & S6); [intros j Hj; auto|].
    set (st1 := niche_step shuf niche dist st v) in *.
    destruct (IH st1) as [R1 R2]; auto.
    - intros w Hw. destruct (Hl w (or_intror Hw)) as (W1 & W2 & j & (J1 & J2) & J3). assert (w <> v) by (intros ->; auto).
      split; auto. split; [rewrite S5; auto|]. exists j. split; auto. split; auto. rewrite S2, in_app_iff. cbn [In]. intros [X|[X|[]]]; auto.
      subst j. congruence.
    - intros j (J1 & J2). assert (J2' : ~ In j (n_surv st)) by (intros X; apply J2; rewrite S2; apply in_app_iff; auto).
      specialize (Hm j (conj J1 J2')). destruct (Nat.eq_dec (nic j) v) as [E|E]; [rewrite E in *; lia|rewrite S5; auto].
    - cbv zeta in R1, R2. split; auto. rewrite R2, S2, app_length. simpl. lia.
  Qed.

  Lemma some_avail st : ninv st -> length (n_surv st) < n -> exists j, avail st j.
  Proof.
    intros (_ & _ & _ & H4 & _) Hlt.
    destruct (existsb (fun j => negb (mem_nat j (n_surv st))) (seq 0 n)) eqn:E.
    - apply existsb_exists in E as (j & Hj & E). apply in_seq in Hj. exists j. split; [lia|]. intros X. apply mem_nat_In in X. rewrite X in E. discriminate.
    - exfalso. assert (incl (seq 0 n) (n_surv st)).
      { intros j Hj. apply mem_nat_In. destruct (mem_nat j (n_surv st)) eqn:M; auto. exfalso.
        assert (existsb (fun j => negb (mem_nat j (n_surv st))) (seq 0 n) = true); [|congruence]. apply existsb_exists. exists j. now rewrite M. }
      apply NoDup_incl_length in H; [|apply seq_NoDup]. rewrite seq_length in H. lia.
  Qed.

  Lemma niche_round_spec st r : ninv st -> length (n_surv st) < r -> length (n_surv st) < n ->
    exists st', niche_round perm shuf niche dist r st = Some st' /\ ninv st' /\ length (n_surv st) < length (n_surv st') <= r.
  Proof.
    intros Hi Hr Hn. pose proof Hi as (I1 & I2 & I3 & I4 & I5). unfold niche_round.
    set (nl := np_unique (map nic (where_ (fun i => nth i (n_mask st) false) n))).
    assert (Hnl : forall v, In v nl <-> exists j, avail st j /\ nic j = v).
    { intros v. unfold nl. rewrite np_unique_In, in_map_iff. split.
      - intros (j & <- & Hj). apply In_where in Hj as [J1 J2]. exists j. split; auto. split; auto. now apply I3.
      - intros (j & (J1 & J2) & <-). exists j. split; auto. apply In_where. split; auto. now apply I3. }
    destruct (some_avail st Hi) as (j0 & Hj0); [lia|].
    assert (Hin0 : In (nic j0) nl) by (apply Hnl; eauto).
    destruct (map (fun v => nth v (n_count st) 0) nl) as [|c cs] eqn:EM.
    { destruct nl; [destruct Hin0|discriminate]. }
    set (mn := fold_left Nat.min cs c). destruct (fold_min_spec cs c) as (M1 & M2 & M3). fold mn in M1, M2, M3.
    assert (Hmn : forall v, In v nl -> mn <= nth v (n_count st) 0).
    { intros v Hv. apply (in_map (fun v => nth v (n_count st) 0)) in Hv. rewrite EM in Hv. destruct Hv as [<-|Hv]; [lia|auto]. }
    assert (Hex : exists v, In v nl /\ nth v (n_count st) 0 = mn).
    { rewrite <- EM in M3. apply in_map_iff in M3 as (v & E & Hv). eauto. }
    set (nx := filter (fun v => nth v (n_count st) 0 =? mn) nl).
    assert (Hnx : forall v, In v nx <-> In v nl /\ nth v (n_count st) 0 = mn).
    { intros v. unfold nx. rewrite filter_In, Nat.eqb_eq. tauto. }
    set (pm := perm (length (n_surv st)) (length nx)).
    assert (HP : Permutation pm (seq 0 (length nx))) by apply Hperm.
    set (nx' := gather 0 nx (firstn (r - length (n_surv st)) pm)).
    assert (Hpl : length pm = length nx) by (eapply perm_seq_length; eauto).
    assert (Hnx1 : 1 <= length nx). { destruct Hex as (v & Hv). apply Hnx in Hv. destruct nx; [destruct Hv|simpl; lia]. }
    assert (HL : length nx' = Nat.min (r - length (n_surv st)) (length nx)) by (unfold nx'; rewrite length_gather, firstn_length; lia).
    assert (HND : NoDup nx').
    { apply NoDup_gather; [apply NoDup_filter, np_unique_NoDup|apply NoDup_firstn; eapply perm_seq_NoDup; eauto|].
      intros i Hx. apply firstn_In in Hx. eapply perm_seq_In in Hx; eauto. }
    assert (Hin' : forall v, In v nx' -> In v nx).
    { intros v Hv. apply In_gather in Hv as (i & Hx & <-). apply firstn_In in Hx. eapply perm_seq_In in Hx; eauto. now apply nth_In. }
    destruct (niche_fold mn nx' st) as [R1 R2]; auto.
    - intros v Hv. apply Hin', Hnx in Hv as [V1 V2]. apply Hnl in V1 as (j & Hj & <-). split; [apply Hniche, Hj|]. split; auto. eauto.
    - intros j Hj. apply Hmn, Hnl. eauto.
    - cbv zeta in R1, R2. eexists. split; [reflexivity|]. split; [exact R1|]. rewrite R2, HL. lia.
  Qed.

  Lemma niching_go_spec r fuel : forall st, ninv st -> length (n_surv st) <= r -> r <= n -> r - length (n_surv st) <= fuel ->
    exists st', niching_go perm shuf niche dist fuel r st = Some st' /\ ninv st' /\ length (n_surv st') = r.
  Proof.
    induction fuel as [|fuel IH]; intros st Hi Hr Hn Hf; simpl.
    - destruct (Nat.ltb_spec (length (n_surv st)) r); [lia|]. exists st. split; auto. split; auto. lia.
    - destruct (Nat.ltb_spec (length (n_surv st)) r) as [L|L]; [|exists st; split; auto; split; auto; lia].
      destruct (niche_round_spec st r Hi L ltac:(lia)) as (st1 & -> & H1 & H2). apply IH; auto; lia.
  Qed.

  Lemma niche_round_full st r : ninv st -> length (n_surv st) = n -> niche_round perm shuf niche dist r st = None.
  Proof.
    intros (I1 & I2 & I3 & I4 & I5) HL. unfold niche_round.
    replace (where_ (fun i => nth i (n_mask st) false) n) with (@nil nat); [reflexivity|]. symmetry.
    destruct (where_ _ _) as [|i w] eqn:E; auto. exfalso. assert (Hi : In i (where_ (fun i => nth i (n_mask st) false) n)) by (rewrite E; simpl; auto).
    apply In_where in Hi as [Hi Hm]. apply I3 in Hm; auto. apply Hm. apply (NoDup_full (n_surv st) n).
    - apply fills_NoDup; auto.
    - apply fills_bound; auto.
    - lia.
    - auto.
  Qed.
  Lemma ninv_length st : ninv st -> length (n_surv st) <= n.
  Proof. intros (I1 & I2 & I3 & I4 & I5). apply NoDup_bounded_length; [apply fills_NoDup|apply fills_bound]; auto. Qed.
  Lemma niching_go_none r fuel : forall st, ninv st -> n < r -> n - length (n_surv st) < fuel ->
    niching_go perm shuf niche dist fuel r st = None /\ exists st', ninv st' /\ length (n_surv st') = n /\ niche_round perm shuf niche dist r st' = None.
  Proof.
    induction fuel as [|fuel IH]; intros st Hi Hr Hf; [lia|]. simpl. pose proof (ninv_length st Hi) as HL.
    destruct (Nat.ltb_spec (length (n_surv st)) r); [|lia].
    destruct (Nat.eq_dec (length (n_surv st)) n) as [E|E].
    - pose proof (niche_round_full st r Hi E) as HN. rewrite HN. split; auto. exists st. auto.
    - destruct (niche_round_spec st r Hi H ltac:(lia)) as (st1 & -> & H1 & H2). apply IH; auto. lia.
  Qed.

  Lemma ninv_init : ninv {| n_surv := []; n_mask := repeat true n; n_count := count0 |}.
  Proof.
    unfold ninv; cbn [n_surv n_mask n_count]. rewrite repeat_length. split; auto. split; auto. split; [|split].
    - intros i Hi. rewrite nth_repeat_lt by auto. split; [intros _ []|auto].
    - intros k Hk. simpl in Hk. lia.
    - intros v Hv. simpl. lia.
  Qed.
  Lemma niching_spec r : r <= n ->
    exists st', niching perm shuf niche dist r count0 = Some st' /\ ninv st' /\ length (n_surv st') = r.
  Proof.
    intros Hr. unfold niching. apply niching_go_spec; auto; cbn [n_surv length]; try lia. apply ninv_init.
  Qed.
  Lemma niching_none r : n < r -> niching perm shuf niche dist r count0 = None.
  Proof. intros Hr. unfold niching. apply niching_go_none; auto; [apply ninv_init|]. cbn [n_surv length]. lia. Qed.
End Niching.
