From Coq Require Import List Arith Permutation Bool ZArith Lia.
From Verif Require Import Flt ListAux NpSort M_Dominator M_NDS M_Survival S_Pareto S_NDS S_Survival P_Peel P_NDS1 P_NDS2 P_FastNDS P_Survival.
Import ListNotations.
Local Open Scope nat_scope.

(** selecting the first [k] of a sorted front *)
Definition pick (srt : list nat -> list nat) (front : list nat) (k : nat) : list nat := gather 0 front (firstn k (srt front)).

Lemma pick_ok srt (Q : list nat -> Prop) :
  (forall front, Q front -> Permutation (srt front) (seq 0 (length front))) -> sel_ok (pick srt) Q.
Proof.
  intros H front k HQ Hk Hnd. specialize (H front HQ). pose proof (perm_seq_length _ _ H) as HL. unfold pick.
  assert (HI : forall x, In x (firstn k (srt front)) -> x < length front) by (intros x Hx; apply firstn_In in Hx; now apply (perm_seq_In _ _ x H)).
  split; [apply NoDup_gather; auto; apply NoDup_firstn; eapply perm_seq_NoDup; eauto|]. split.
  - intros i Hi. apply In_gather in Hi as (p & Hp & <-). apply nth_In. auto.
  - rewrite length_gather, firstn_length. lia.
Qed.

(** inside / outside the selection: positions in the sorted order *)
Lemma pick_order srt front k i j : Permutation (srt front) (seq 0 (length front)) -> 
  In i (pick srt front k) -> In j front -> ~ In j (pick srt front k) ->
  exists p q, p < q /\ q < length (srt front) /\ i = nth (nth p (srt front) 0) front 0 /\ j = nth (nth q (srt front) 0) front 0.
Proof.
  intros HP Hi Hj Hjn. pose proof (perm_seq_length _ _ HP) as HL. unfold pick in *.
  apply In_gather in Hi as (pi & Hpi & <-). apply (In_firstn_nth _ _ _ 0) in Hpi as (p & Hp1 & Hp2 & <-).
  apply (In_nth _ _ 0) in Hj as (t & Ht & <-).
  destruct (perm_nth_surj _ _ t HP Ht) as (q & Hq & <-). exists p, q. split; [|split; [lia|auto]].
  destruct (Nat.lt_ge_cases q k) as [Hqk|Hqk]; [|lia]. exfalso. apply Hjn. apply In_gather. exists (nth q (srt front) 0). split; auto.
  apply (In_firstn_nth _ _ _ 0). exists q. split; auto. split; auto. lia.
Qed.

(** ** attribute updates of one front *)
Lemma fold_upd_notin {A} (l : list nat) (v : A) r i d : ~ In i l -> nth i (fold_left (fun r i => upd r i v) l r) d = nth i r d.
Proof.
  revert r; induction l as [|x l IH]; intros r H; simpl; auto. rewrite IH by (simpl in H; tauto).
  apply nth_upd_neq. simpl in H. intuition.
Qed.
Lemma fold_upd_length {A} (l : list nat) (v : A) r : length (fold_left (fun r i => upd r i v) l r) = length r.
Proof. revert r; induction l as [|x l IH]; intros r; simpl; auto. now rewrite IH, length_upd. Qed.
Lemma fold_upd_in {A} (l : list nat) (v : A) r i d : In i l -> i < length r -> nth i (fold_left (fun r i => upd r i v) l r) d = v.
Proof.
  revert r; induction l as [|x l IH]; intros r Hi Hl; [destruct Hi|]. simpl.
  destruct (in_dec Nat.eq_dec i l) as [H|H].
  - apply IH; auto. now rewrite length_upd.
  - destruct Hi as [->|Hi]; [|tauto]. rewrite fold_upd_notin by auto. now apply nth_upd_eq.
Qed.

Definition set_crowd (c : list flt) (r : list (option flt)) (ji : nat * nat) := upd r (snd ji) (Some (nth (fst ji) c f_nan)).

Lemma fold_crowd c front : forall s r, NoDup front ->
  let r' := fold_left (set_crowd c) (combine (seq s (length front)) front) r in
  length r' = length r /\
  (forall i, ~ In i front -> nth i r' None = nth i r None) /\
  (forall j, j < length front -> nth j front 0 < length r -> nth (nth j front 0) r' None = Some (nth (s + j) c f_nan)).
Proof.
  induction front as [|x front IH]; intros s r Hnd; cbn [length seq combine fold_left]; [split; auto; split; auto; simpl; intros; lia|].
  apply NoDup_cons_iff in Hnd as [Hx Hnd].
  destruct (IH (S s) (set_crowd c r (s, x)) Hnd) as (H1 & H2 & H3). cbv zeta in *.
  split; [rewrite H1; unfold set_crowd; cbn; now rewrite length_upd|]. split.
  - intros i Hi. rewrite H2 by (simpl in Hi; tauto). unfold set_crowd. cbn. apply nth_upd_neq. simpl in Hi. intuition.
  - intros [|j] Hj Hb; cbn [nth] in *.
    + rewrite H2 by auto. unfold set_crowd. cbn. rewrite Nat.add_0_r. now apply nth_upd_eq.
    + rewrite H3; [f_equal; f_equal; lia| simpl in Hj; lia |]. unfold set_crowd. cbn. now rewrite length_upd.
Qed.

Section Rac.
  Variables (F : fltmat) (crowding : fltmat -> nat -> list flt) (dsort : list flt -> list nat) (n : nat).
  Hypothesis Hc : forall M r, length (crowding M r) = length M.
  Hypothesis Hd : dsort_ok dsort.

  Let N := length F.
  Let csort (front : list nat) (r : nat) := dsort (crowding (gather [] F front) r).
  Definition rsel (front : list nat) (k : nat) : list nat := gather 0 front (firstn k (csort front (length front - k))).

  Lemma csort_perm front r : Permutation (csort front r) (seq 0 (length front)).
  Proof. destruct (Hd (crowding (gather [] F front) r)) as [H _]. now rewrite Hc, length_gather in H. Qed.

  Lemma rsel_pick front k : rsel front k = pick (fun f => csort f (length f - k)) front k.
  Proof. reflexivity. Qed.

  Lemma rsel_ok : sel_ok rsel (fun _ => True).
  Proof.
    intros front k _ Hk Hnd. rewrite rsel_pick. apply (pick_ok _ (fun _ => True)); auto. intros f _. apply csort_perm.
  Qed.

  Lemma fill_length_le surv front : length surv <= n -> NoDup front -> length (fill_step n rsel surv front) <= n.
  Proof.
    intros H Hnd. unfold fill_step. rewrite app_length. destruct (Nat.ltb_spec n (length surv + length front)); [|lia].
    destruct (rsel_ok front (n - length surv)) as (_ & _ & E); auto; lia.
  Qed.

  Lemma rac_front_surv st k front : length (rs_surv st) <= n ->
    rs_surv (rac_front F crowding dsort n st (k, front)) = fill_step n rsel (rs_surv st) front.
  Proof.
    intros Hle. unfold rac_front, fill_step. destruct (Nat.ltb_spec n (length (rs_surv st) + length front)) as [H|H]; cbn [rs_surv].
    - unfold rsel. replace (length front - (n - length (rs_surv st))) with (length (rs_surv st) + length front - n) by lia.
      set (r := length (rs_surv st) + length front - n). fold (csort front r). rewrite (perm_seq_length _ _ (csort_perm front r)).
      replace (length front - r) with (n - length (rs_surv st)) by lia. reflexivity.
    - now rewrite gather_seq.
  Qed.

  Lemma rac_front_attr st k front :
    rs_rank (rac_front F crowding dsort n st (k, front)) = fold_left (fun r i => upd r i (Some k)) front (rs_rank st) /\
    rs_crowd (rac_front F crowding dsort n st (k, front)) =
      fold_left (set_crowd (crowding (gather [] F front) (length (rs_surv st) + length front - n)))
                (combine (seq 0 (length front)) front) (rs_crowd st).
  Proof.
    unfold rac_front. destruct (Nat.ltb_spec n (length (rs_surv st) + length front)) as [H|H]; cbn [rs_rank rs_crowd]; auto.
    replace (length (rs_surv st) + length front - n) with 0 by lia. auto.
  Qed.

  Lemma rac_loop_inv fs : forall s st,
    length (rs_surv st) <= n -> NoDup (concat fs) -> (forall i, In i (concat fs) -> i < N) ->
    length (rs_rank st) = N -> length (rs_crowd st) = N ->
    let st' := fold_left (rac_front F crowding dsort n) (combine (seq s (length fs)) fs) st in
    rs_surv st' = fold_left (fill_step n rsel) fs (rs_surv st) /\
    (forall i, ~ In i (concat fs) -> nth i (rs_rank st') None = nth i (rs_rank st) None /\
                                     nth i (rs_crowd st') None = nth i (rs_crowd st) None) /\
    (forall t j, t < length fs -> j < length (nth t fs []) ->
       nth (nth j (nth t fs []) 0) (rs_rank st') None = Some (s + t) /\
       nth (nth j (nth t fs []) 0) (rs_crowd st') None =
         Some (nth j (crowding (gather [] F (nth t fs []))
                      (length (fold_left (fill_step n rsel) (firstn t fs) (rs_surv st)) + length (nth t fs []) - n)) f_nan)).
  Proof.
    induction fs as [|f fs IH]; intros s st Hle Hnd Hb Hr Hcw; cbn [length seq combine fold_left].
    - split; auto. split; auto. simpl; intros; lia.
    - simpl in Hnd, Hb. apply NoDup_app_iff in Hnd as (Hf & Hfs & Hdis).
      destruct (rac_front_attr st s f) as [ER EC]. pose proof (rac_front_surv st s f Hle) as ES.
      set (st1 := rac_front F crowding dsort n st (s, f)) in *.
      destruct (fold_crowd (crowding (gather [] F f) (length (rs_surv st) + length f - n)) f 0 (rs_crowd st) Hf) as (C1 & C2 & C3).
      cbv zeta in C1, C2, C3. rewrite <- EC in C1, C2, C3.
      assert (Hle1 : length (rs_surv st1) <= n) by (rewrite ES; apply fill_length_le; auto).
      assert (Hr1 : length (rs_rank st1) = N) by (rewrite ER, fold_upd_length; auto).
      destruct (IH (S s) st1) as (I1 & I2 & I3); auto; [intros i Hi; apply Hb, in_app_iff; auto|congruence|].
      cbv zeta in *. split; [now rewrite I1, ES|]. split.
      + intros i Hi. cbn [concat] in Hi. rewrite in_app_iff in Hi. destruct (I2 i) as [J1 J2]; [tauto|]. rewrite J1, J2, ER. split.
        * apply fold_upd_notin. tauto.
        * apply C2. tauto.
      + intros [|t] j Ht Hj; cbn [nth] in *.
        * assert (Hin : In (nth j f 0) f) by (now apply nth_In). destruct (I2 (nth j f 0)) as [J1 J2]; [intros H; eapply Hdis; eauto|].
          assert (Hlt : nth j f 0 < N) by (apply Hb, in_app_iff; auto).
          rewrite J1, J2, ER. cbn [firstn fold_left]. split.
          -- rewrite Nat.add_0_r. apply fold_upd_in; auto. lia.
          -- apply (C3 j); auto. lia.
        * simpl in Ht. destruct (I3 t j) as [J1 J2]; auto; [lia|]. cbn [firstn fold_left]. rewrite <- ES. split; [rewrite J1; f_equal; lia|auto].
  Qed.

  Lemma rac_spec full out : n <= N -> is_peeling N (row_dom F) full -> stopped_at n full out ->
    let st := rac_loop F crowding dsort n out {| rs_surv := []; rs_rank := repeat None N; rs_crowd := repeat None N |} in
    selects N n (rs_surv st) /\
    (forall i r, In i (rs_surv st) -> In i (nth r full []) -> nth i (rs_rank st) None = Some r /\ exists c, nth i (rs_crowd st) None = Some c) /\
    (forall i j ri rj, In i (rs_surv st) -> ~ In j (rs_surv st) -> In i (nth ri full []) -> In j (nth rj full []) ->
       ri <= rj /\
       (ri = rj -> exists ci cj, nth i (rs_crowd st) None = Some ci /\ nth j (rs_crowd st) None = Some cj /\ fltb ci cj = false)).
  Proof.
    intros HnN HP HS. pose proof HP as (HPP & HN & HF). pose proof (perm_seq_NoDup _ _ HPP) as HND.
    pose proof HS as (Hpre & Hone & Hcase & Hmin).
    assert (Hsub : NoDup (concat out) /\ forall i, In i (concat out) -> i < N).
    { destruct Hpre as (r & Er). rewrite Er, concat_app in HND, HPP. apply NoDup_app_iff in HND as [H1 _]. split; auto.
      intros i Hi. apply (perm_seq_In _ _ i HPP). apply in_app_iff; auto. }
    destruct Hsub as [ND HB].
    destruct (rac_loop_inv out 0 {| rs_surv := []; rs_rank := repeat None N; rs_crowd := repeat None N |}) as (I1 & I2 & I3);
      cbn [rs_surv rs_rank rs_crowd]; auto using repeat_length; [simpl; lia|].
    cbv zeta in I1, I2, I3. cbn [rs_surv] in I1, I3. unfold rac_loop. cbv zeta.
    set (st := fold_left (rac_front F crowding dsort n) (combine (seq 0 (length out)) out) _) in *.
    destruct (fill_spec N (row_dom F) n rsel full out (fun _ => True) HP HS HnN rsel_ok (fun _ _ => I)) as (HSel & pre & lst & Eo & A1 & A2 & A3).
    rewrite <- I1 in HSel, A1, A2, A3.
    split; [exact HSel|]. split.
    - intros i r Hi Hr.
      assert (Hout : In i (concat out)) by (rewrite Eo, concat_app; apply in_app_iff; simpl; rewrite app_nil_r; auto).
      apply in_concat_nth in Hout as (t & Ht & Hit). pose proof (prefix_nth out full t Hpre Ht) as Et.
      assert (t = r) by (eapply concat_NoDup_nth; [exact HND|rewrite Et; eauto|auto]). subst t.
      apply (In_nth _ _ 0) in Hit as (j & Hj & <-). destruct (I3 r j Ht Hj) as [J1 J2]. split; eauto.
    - intros i j ri rj Hi Hj Hri Hrj. rewrite I1 in Hi, Hj.
      destruct (fill_ranks N (row_dom F) n rsel full out (fun _ => True) HP HS HnN rsel_ok (fun _ _ => I) i j ri rj Hi Hj Hri Hrj) as [R1 R2].
      split; auto. intros E. destruct (R2 E) as (l & k & L1 & L2 & L3 & L4 & L5 & L6 & L7 & L8 & L9). clear R2.
      rewrite Eo, removelast_last in L8. rewrite Eo, last_last in L9. clear L7. subst l.
      rewrite rsel_pick in L5, L6. destruct (pick_order _ _ _ _ _ (csort_perm lst (length lst - k)) L5 L4 L6) as (p & q & Hpq & Hq & Ei & Ej).
      pose proof (csort_perm lst (length lst - k)) as HPc. pose proof (perm_seq_length _ _ HPc) as HLc.
      destruct (I3 (length pre) (nth p (csort lst (length lst - k)) 0)) as [_ J1].
      { rewrite Eo, app_length; simpl; lia. }
      { rewrite Eo, app_nth2, Nat.sub_diag by lia. apply (perm_nth_lt _ _ _ HPc). lia. }
      destruct (I3 (length pre) (nth q (csort lst (length lst - k)) 0)) as [_ J2].
      { rewrite Eo, app_length; simpl; lia. }
      { rewrite Eo, app_nth2, Nat.sub_diag by lia. apply (perm_nth_lt _ _ _ HPc). lia. }
      assert (Elst : nth (length pre) out [] = lst) by (rewrite Eo, app_nth2, Nat.sub_diag by lia; reflexivity).
      assert (Efn : firstn (length pre) out = pre) by (rewrite Eo, firstn_app, Nat.sub_diag, firstn_all; simpl; apply app_nil_r).
      rewrite Elst, Efn in J1, J2. rewrite fold_fill_small in J1, J2 by (simpl; lia). simpl length in J1, J2.
      replace (length (concat pre) + length lst - n) with (length lst - k) in J1, J2 by lia.
      rewrite Ei, Ej. eexists; eexists. split; [exact J1|]. split; [exact J2|].
      destruct (Hd (crowding (gather [] F lst) (length lst - k))) as [_ HSd].
      apply (HSd p q Hpq Hq).
  Qed.
End Rac.

(** the non-dominated front survives completely if it fits *)
Lemma best_front_survives N dom full (S : list nat) n :
  is_peeling N dom full -> selects N n S -> length (nth 0 full []) <= n ->
  (forall i j ri rj, In i S -> ~ In j S -> In i (nth ri full []) -> In j (nth rj full []) -> ri <= rj) ->
  forall i, In i (nth 0 full []) -> In i S.
Proof.
  intros (HP & HN & HF) (S1 & S2 & S3) Hlen Hord i Hi.
  destruct (in_dec Nat.eq_dec i S) as [|Hni]; auto. exfalso.
  pose proof (perm_seq_NoDup _ _ HP) as HND.
  assert (Hall : incl (i :: S) (nth 0 full [])).
  { intros x [<-|Hx]; auto. pose proof (S2 x Hx) as HxN. apply (perm_seq_In _ _ x HP) in HxN. apply in_concat_nth in HxN as (r & Hr & Hxr).
    assert (r <= 0) by (eapply (Hord x i r 0); eauto). assert (r = 0) by lia. now subst r. }
  apply NoDup_incl_length in Hall; [simpl in Hall; lia|]. constructor; auto.
Qed.
