From Coq Require Import List Arith Permutation Bool ZArith Lia.
From Verif Require Import Flt ListAux NpSort M_Dominator M_NDS M_Survival S_Pareto S_NDS S_Survival P_Peel P_NDS1 P_NDS2 P_FastNDS.
Import ListNotations.
Local Open Scope nat_scope.

Lemma NoDup_gather (l I : list nat) : NoDup l -> NoDup I -> (forall i, In i I -> i < length l) -> NoDup (gather 0 l I).
Proof.
  intros Hl HI Hb. unfold gather. apply NoDup_map_inj; auto.
  intros x y Hx Hy E. eapply (proj1 (NoDup_nth l 0)); eauto.
Qed.
Lemma In_gather (l I : list nat) x : In x (gather 0 l I) <-> exists i, In i I /\ nth i l 0 = x.
Proof. unfold gather. rewrite in_map_iff. firstorder. Qed.
Lemma gather_perm (l I : list nat) : Permutation I (seq 0 (length l)) -> Permutation (gather 0 l I) l.
Proof. intros H. rewrite <- (gather_seq 0 l) at 2. apply Permutation_map. auto. Qed.
Lemma firstn_In {A} (l : list A) k x : In x (firstn k l) -> In x l.
Proof. rewrite <- (firstn_skipn k l) at 2. intros. apply in_app_iff. auto. Qed.
Lemma NoDup_firstn {A} (l : list A) k : NoDup l -> NoDup (firstn k l).
Proof. intros H. rewrite <- (firstn_skipn k l) in H. now apply NoDup_app_iff in H as [H _]. Qed.
Lemma In_firstn_nth {A} (l : list A) k x d : In x (firstn k l) <-> exists p, p < k /\ p < length l /\ nth p l d = x.
Proof.
  rewrite (in_nth_iff x (firstn k l) d), firstn_length. split; intros (p & H).
  - destruct H as [H1 H2]. exists p. split; [lia|]. split; [lia|]. now rewrite nth_firstn' in H2 || (rewrite <- (firstn_skipn k l), app_nth1 by (rewrite firstn_length; lia); auto).
  - destruct H as (H1 & H2 & H3). exists p. split; [lia|]. rewrite <- (firstn_skipn k l), app_nth1 in H3 by (rewrite firstn_length; lia). auto.
Qed.

Section Surv.
  Context {A : Type} (d : A) (cv : A -> flt) (feas : A -> bool) (asort : list flt -> list nat).
  Hypothesis Hs : asort_ok asort.

  Lemma split_spec pop : let '(fe, infe) := split_by_feasibility d cv feas asort pop in
    NoDup fe /\ NoDup infe /\
    (forall i, In i fe <-> i < length pop /\ feas (nth i pop d) = true) /\
    (forall i, In i infe <-> i < length pop /\ feas (nth i pop d) = false) /\
    length fe + length infe = length pop /\
    (forall p q, p < q -> q < length infe -> fltb (cv (nth (nth q infe 0) pop d)) (cv (nth (nth p infe 0) pop d)) = false).
  Proof.
    unfold split_by_feasibility. set (fe := where_ _ _). set (inf0 := where_ _ _).
    set (keys := map (fun i => cv (nth i pop d)) inf0). destruct (Hs keys) as [HP HS].
    assert (HL : length keys = length inf0) by apply map_length. rewrite HL in HP.
    pose proof (gather_perm inf0 (asort keys) HP) as HG.
    split; [apply NoDup_where|]. split; [eapply Permutation_NoDup; [symmetry; exact HG|apply NoDup_where]|].
    split; [apply In_where|]. split.
    { intros i. split; intros H.
      - eapply Permutation_in in H; [|exact HG]. apply In_where in H as [H1 H2]. now apply negb_true_iff in H2.
      - eapply Permutation_in; [symmetry; exact HG|]. apply In_where. now rewrite negb_true_iff. }
    split.
    { rewrite (Permutation_length HG). unfold fe, inf0, where_.
      rewrite <- (seq_length (length pop) 0) at 3. induction (seq 0 (length pop)) as [|x l IH]; simpl; auto.
      destruct (feas (nth x pop d)); simpl; lia. }
    intros p q Hpq Hq. rewrite length_gather in Hq. specialize (HS p q Hpq Hq).
    pose proof (perm_seq_length _ _ HP) as HLa. rewrite !nth_gather by lia.
    assert (Hb : forall x, x < length (asort keys) -> nth x (asort keys) 0 < length inf0) by (intros; apply (perm_nth_lt _ _ _ HP); lia).
    unfold keys in HS at 2 4. rewrite !nth_map_def with (d' := 0) in HS by (apply Hb; lia). exact HS.
  Qed.

  Lemma survival_do_spec wf inner fi hc ns pop : inner_ok wf inner -> Forall wf pop ->
    let n := Nat.min (match ns with None => length pop | Some n => n end) (length pop) in
    let S := survival_do d cv feas asort inner fi hc ns pop in
    selects (length pop) n S /\
    (fi = true -> hc = true ->
      (forall i j, In i S -> feas (nth i pop d) = false -> j < length pop -> feas (nth j pop d) = true -> In j S) /\
      (forall i j, In i S -> feas (nth i pop d) = false -> j < length pop -> feas (nth j pop d) = false -> ~ In j S ->
         fltb (cv (nth j pop d)) (cv (nth i pop d)) = false)).
  Proof.
    intros Hin Hwf. unfold survival_do. cbv zeta. set (n0 := match ns with None => length pop | Some n => n end).
    destruct (Nat.eqb_spec (length pop) 0) as [H0|H0].
    { split; [split; [constructor|]; split; [intros i []|simpl; lia]|]. intros _ _. split; intros i j [] . }
    set (n := Nat.min n0 (length pop)).
    assert (Hn : n <= length pop) by (unfold n; lia).
    destruct (fi && hc) eqn:Efh.
    2: { split; [apply Hin; auto; destruct pop; [simpl in *; lia|discriminate]|]. intros -> ->. discriminate. }
    pose proof (split_spec pop) as HSp. destruct (split_by_feasibility d cv feas asort pop) as [fe infe].
    destruct HSp as (F1 & F2 & F3 & F4 & F5 & F6).
    set (sv := if length fe =? 0 then [] else gather 0 fe (inner (gather d pop fe) (Nat.min (length fe) n))).
    assert (Hsv : NoDup sv /\ (forall i, In i sv -> In i fe) /\ length sv = Nat.min (length fe) n /\
                  (length fe <= n -> forall i, In i fe -> In i sv)).
    { unfold sv. destruct (Nat.eqb_spec (length fe) 0) as [E|E].
      - split; [constructor|]. split; [intros i []|]. split; [simpl; lia|]. intros _ i Hi. destruct fe; [destruct Hi|simpl in E; lia].
      - destruct (Hin (gather d pop fe) (Nat.min (length fe) n)) as (I1 & I2 & I3).
        + intros E2. apply (f_equal (@length A)) in E2. rewrite length_gather in E2. simpl in E2. lia.
        + apply Forall_forall. intros x Hx. apply in_map_iff in Hx as (k & <- & Hk). rewrite Forall_forall in Hwf. apply Hwf, nth_In, F3, Hk.
        + rewrite length_gather. lia.
        + rewrite length_gather in I2. split; [now apply NoDup_gather|]. split.
          { intros i Hi. apply In_gather in Hi as (k & Hk & <-). apply nth_In. auto. }
          split; [now rewrite length_gather|]. intros Hle i Hi. apply (In_nth _ _ 0) in Hi as (k & Hk & <-).
          apply In_gather. exists k. split; auto. eapply NoDup_full with (n := length fe); eauto; lia. }
    destruct Hsv as (S1 & S2 & S3 & S4).
    assert (Hres : (if 0 <? n - length sv then sv ++ firstn (n - length sv) infe else sv) = sv ++ firstn (n - length sv) infe).
    { destruct (Nat.ltb_spec 0 (n - length sv)); auto. replace (n - length sv) with 0 by lia. simpl. now rewrite app_nil_r. }
    rewrite Hres.
    assert (Hfe : forall i, In i fe -> ~ In i infe) by (intros i Hi Hj; apply F3 in Hi; apply F4 in Hj; destruct Hi, Hj; congruence).
    split.
    - split; [|split].
      + apply NoDup_app_iff. split; auto. split; [now apply NoDup_firstn|]. intros x Hx Hy. apply (Hfe x); auto. eapply firstn_In; eauto.
      + intros i Hi. apply in_app_iff in Hi as [Hi|Hi]; [apply S2, F3 in Hi; tauto|apply firstn_In, F4 in Hi; tauto].
      + rewrite app_length, firstn_length. lia.
    - intros _ _. split.
      + intros i j Hi Hif Hj Hjf. apply in_app_iff. left.
        assert (Hrem : n - length sv > 0).
        { apply in_app_iff in Hi as [Hi|Hi]; [apply S2, F3 in Hi; destruct Hi; congruence|].
          destruct (n - length sv); [destruct Hi|lia]. }
        apply S4; [lia|]. apply F3. auto.
      + intros i j Hi Hif Hj Hjf Hjn.
        apply in_app_iff in Hi as [Hi|Hi]; [apply S2, F3 in Hi; destruct Hi; congruence|].
        assert (Hjin : In j infe) by (apply F4; auto). apply (In_nth _ _ 0) in Hjin as (q & Hq & Eq).
        apply (In_firstn_nth _ _ _ 0) in Hi as (p & Hp1 & Hp2 & Ep). rewrite <- Ep, <- Eq.
        destruct (Nat.lt_ge_cases q (n - length sv)) as [Hqn|Hqn].
        * exfalso. apply Hjn. apply in_app_iff. right. apply (In_firstn_nth _ _ _ 0). exists q. auto.
        * apply F6; lia.
  Qed.
End Surv.

(** ** return_indices *)
Lemma last_index_notin ids x k f : ~ In x ids -> last_index ids x k f = f.
Proof.
  revert k f; induction ids as [|y ids IH]; intros k f H; simpl; auto. rewrite IH by (simpl in H; tauto).
  destruct (Nat.eqb_spec y x); auto. subst. simpl in H. tauto.
Qed.
Lemma last_index_spec ids k f s : NoDup ids -> s < length ids -> last_index ids (nth s ids 0) k f = k + s.
Proof.
  revert k f s; induction ids as [|y ids IH]; intros k f s Hnd Hs; simpl in *; [lia|].
  apply NoDup_cons_iff in Hnd as [Hy Hnd]. destruct s as [|s].
  - rewrite Nat.eqb_refl, last_index_notin by auto. lia.
  - rewrite IH by (auto; lia). lia.
Qed.
Lemma return_indices_spec ids S : NoDup ids -> (forall s, In s S -> s < length ids) -> return_indices ids S = S.
Proof.
  intros Hnd Hb. unfold return_indices. rewrite <- (map_id S) at 2. apply map_ext_in. intros s Hs.
  now rewrite last_index_spec by auto.
Qed.

(** ** filling up from fronts *)
Definition fill_step (n : nat) (sel : list nat -> nat -> list nat) (surv front : list nat) : list nat :=
  surv ++ (if n <? length surv + length front then sel front (n - length surv) else front).

Definition sel_ok (sel : list nat -> nat -> list nat) (Q : list nat -> Prop) : Prop :=
  forall front k, Q front -> k < length front -> NoDup front ->
    NoDup (sel front k) /\ (forall i, In i (sel front k) -> In i front) /\ length (sel front k) = k.

Lemma fold_fill_small n sel out s0 : length s0 + length (concat out) <= n ->
  fold_left (fill_step n sel) out s0 = s0 ++ concat out.
Proof.
  revert s0; induction out as [|f out IH]; intros s0 H; simpl in *; [now rewrite app_nil_r|].
  rewrite app_length in H. unfold fill_step at 2. destruct (Nat.ltb_spec n (length s0 + length f)); [lia|].
  rewrite IH; [now rewrite app_assoc|]. rewrite app_length. lia.
Qed.

Lemma last_split {A} (l : list A) : l <> [] -> exists l' x, l = l' ++ [x].
Proof. intros H. destruct (exists_last H) as (l' & x & E). eauto. Qed.

Lemma prefix_nth {A} (p l : list (list A)) k : prefix p l -> k < length p -> nth k l [] = nth k p [].
Proof. intros (r & ->) H. now rewrite app_nth1. Qed.

(** the result: whole fronts before the last one, plus everything of / a selection from the last one *)
Lemma fill_spec N dom n sel full out Q :
  is_peeling N dom full -> stopped_at n full out -> n <= N -> sel_ok sel Q -> (forall f, In f out -> Q f) ->
  let S := fold_left (fill_step n sel) out [] in
  selects N n S /\
  exists pre lst, out = pre ++ [lst] /\
    (forall i, In i (concat pre) -> In i S) /\
    (forall i, In i S -> In i (concat pre) \/ In i lst) /\
    ((forall i, In i lst -> In i S) \/
     (length (concat pre) + length lst > n /\ S = concat pre ++ sel lst (n - length (concat pre)) /\ n - length (concat pre) < length lst)
     ).
Proof.
  intros (HP & HN & HF) (Hpre & Hne & Hcase & Hmin) HnN Hsel HQ. cbv zeta.
  destruct (last_split out Hne) as (pre & lst & Eo).
  pose proof (perm_seq_NoDup _ _ HP) as HND.
  assert (Hsub : NoDup (concat out) /\ forall i, In i (concat out) -> i < N).
  { destruct Hpre as (r & Er). rewrite Er, concat_app in HND, HP. apply NoDup_app_iff in HND as [H1 _]. split; auto.
    intros i Hi. apply (perm_seq_In _ _ i HP). apply in_app_iff; auto. }
  destruct Hsub as [ND HB].
  assert (Ec : concat out = concat pre ++ lst) by (rewrite Eo, concat_app; simpl; now rewrite app_nil_r).
  rewrite Ec in ND, HB. apply NoDup_app_iff in ND as (ND1 & ND2 & ND3).
  assert (Hpn : length (concat pre) < n \/ pre = []).
  { destruct pre as [|p0 pre'] eqn:Epre; auto. left. rewrite <- Epre in *. specialize (Hmin (length pre)).
    rewrite Eo in Hmin. rewrite firstn_app, Nat.sub_diag, firstn_all, app_nil_r in Hmin. apply Hmin.
    rewrite app_length, Epre. simpl. lia. }
  assert (Hpn' : length (concat pre) <= n) by (destruct Hpn as [H|H]; [lia | rewrite H; simpl; lia]).
  assert (EF : fold_left (fill_step n sel) out [] =
    concat pre ++ (if n <? length (concat pre) + length lst then sel lst (n - length (concat pre)) else lst)).
  { rewrite Eo, fold_left_app. cbn [fold_left]. rewrite fold_fill_small by (simpl; lia). simpl. reflexivity. }
  rewrite EF. destruct (Nat.ltb_spec n (length (concat pre) + length lst)) as [Hlt|Hge].
  - assert (Hk : n - length (concat pre) < length lst) by lia.
    destruct (Hsel lst (n - length (concat pre))) as (E1 & E2 & E3); auto.
    { apply HQ. rewrite Eo. apply in_app_iff. simpl. auto. }
    split.
    + split; [apply NoDup_app_iff; split; [auto|]; split; [auto|]; intros x Hx Hy; eapply ND3; eauto|].
      split; [|rewrite app_length; lia].
      intros i Hi. apply HB. apply in_app_iff in Hi as [Hi|Hi]; apply in_app_iff; auto.
    + exists pre, lst. split; auto. split; [intros i Hi; apply in_app_iff; auto|].
      split; [intros i Hi; apply in_app_iff in Hi as [Hi|Hi]; auto|]. right. auto.
  - split.
    + split; [apply NoDup_app_iff; auto|]. split; auto.
      pose proof (f_equal (@length _) Ec) as El. rewrite app_length in El. rewrite app_length.
      pose proof (perm_seq_length _ _ HP) as HPL. destruct Hcase as [Hc|Hc]; [rewrite <- Hc in HPL|]; lia.
    + exists pre, lst. split; auto. split; [intros i Hi; apply in_app_iff; auto|].
      split; [intros i Hi; apply in_app_iff in Hi as [Hi|Hi]; auto|]. left. intros; apply in_app_iff; auto.
Qed.

(** consequence in terms of ranks: whoever is in comes from a front no later than whoever is out *)
Lemma fill_ranks N dom n sel full out Q :
  is_peeling N dom full -> stopped_at n full out -> n <= N -> sel_ok sel Q -> (forall f, In f out -> Q f) ->
  let S := fold_left (fill_step n sel) out [] in
  forall i j ri rj, In i S -> ~ In j S -> In i (nth ri full []) -> In j (nth rj full []) ->
  ri <= rj /\ (ri = rj -> exists lst k, In lst out /\ k < length lst /\ In i lst /\ In j lst /\ In i (sel lst k) /\ ~ In j (sel lst k)
                 /\ lst = nth ri full [] /\ length (concat (removelast out)) + k = n /\ lst = last out []).
Proof.
  intros HP HS HnN Hsel HQ S i j ri rj Hi Hj Hri Hrj.
  pose proof HP as (HPP & HN & HF). pose proof (perm_seq_NoDup _ _ HPP) as HND.
  destruct (fill_spec N dom n sel full out Q HP HS HnN Hsel HQ) as (HSel & pre & lst & Eo & A1 & A2 & A3). fold S in HSel, A1, A2, A3.
  pose proof HS as (Hpre & _ & _ & _).
  assert (Hl : length out = length pre + 1) by (rewrite Eo, app_length; simpl; lia).
  assert (Hlst : nth (length pre) full [] = lst).
  { rewrite (prefix_nth out full) by (auto; lia). rewrite Eo, app_nth2, Nat.sub_diag by lia. reflexivity. }
  assert (Hprek : forall k, k < length pre -> nth k full [] = nth k pre []).
  { intros k Hk. rewrite (prefix_nth out full) by (auto; lia). rewrite Eo, app_nth1 by lia. reflexivity. }
  assert (Hri' : ri <= length pre).
  { destruct (A2 i Hi) as [H|H].
    - apply in_concat_nth in H as (k & Hk & H). rewrite <- Hprek in H by auto. assert (ri = k) by (eapply concat_NoDup_nth; eauto). lia.
    - rewrite <- Hlst in H. assert (ri = length pre) by (eapply concat_NoDup_nth; eauto). lia. }
  assert (Hrj' : length pre <= rj).
  { destruct (Nat.lt_ge_cases rj (length pre)) as [H|H]; auto. exfalso. apply Hj, A1. apply in_concat_nth. exists rj.
    split; auto. now rewrite <- Hprek. }
  split; [lia|]. intros E. assert (ri = length pre) by lia. assert (rj = length pre) by lia. subst ri rj.
  rewrite Hlst in Hri, Hrj. destruct A3 as [A3|(A3 & A4 & A5)]; [exfalso; apply Hj, A3; auto|].
  exists lst, (n - length (concat pre)). split; [rewrite Eo; apply in_app_iff; simpl; auto|].
  split; auto. split; auto. split; auto. split; [|split].
  - rewrite A4 in Hi. apply in_app_iff in Hi as [Hi|Hi]; auto. exfalso.
    apply in_concat_nth in Hi as (k & Hk & Hi). rewrite <- Hprek in Hi by auto.
    assert (k = length pre) by (eapply concat_NoDup_nth; eauto; now rewrite Hlst). lia.
  - intros H. apply Hj. rewrite A4. apply in_app_iff. auto.
  - rewrite Eo, removelast_last, last_last. split; [auto|]. split; auto.
    assert (length (concat pre) <= n); [|lia].
    destruct HSel as (_ & _ & HSl). rewrite A4, app_length in HSl. lia.
Qed.
