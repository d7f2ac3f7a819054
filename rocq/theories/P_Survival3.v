From Coq Require Import List Arith Permutation Bool ZArith Lia.
From Verif Require Import Flt ListAux NpSort M_Dominator M_NDS M_Survival S_Pareto S_NDS S_Survival P_Peel P_NDS1 P_NDS2 P_NDS3 P_FastNDS P_Survival P_Survival2.
Import ListNotations.
Local Open Scope nat_scope.

Lemma rows_ok {A} m (obj : A -> list flt) pop :
  Forall (fun a => row_ok m (obj a)) pop -> rect m (map obj pop) /\ mat_ok (map obj pop).
Proof.
  intros H. unfold rect, mat_ok. rewrite !Forall_map. split; eapply Forall_impl; try exact H; intros a [H1 H2]; auto.
Qed.

(** peelings of a member set are unique *)
Lemma peeling_of_unique mem dom f g :
  peeling_of mem dom f -> peeling_of mem dom g ->
  forall k i, In i (nth k f []) <-> In i (nth k g []).
Proof.
  intros (N1 & M1 & E1 & F1) (N2 & M2 & E2 & F2).
  assert (Hin : forall (f : list (list nat)) k i, (forall i, In i (concat f) <-> mem i) -> In i (nth k f []) -> mem i).
  { intros h k i H Hi. apply H, in_concat_nth. exists k. split; auto. eapply nth_In_lt; eauto. }
  assert (Hk : forall k, (forall k', k' < k -> forall i, In i (nth k' f []) <-> In i (nth k' g [])) ->
     forall i, In i (nth k f []) <-> In i (nth k g [])).
  { intros k IH.
    assert (He : forall i, in_earlier f k i <-> in_earlier g k i).
    { intros i. unfold in_earlier. split; intros (k' & H1 & H2); exists k'; split; auto; now apply IH. }
    destruct (Nat.lt_ge_cases k (length f)) as [Hf|Hf], (Nat.lt_ge_cases k (length g)) as [Hg|Hg].
    - intros i. rewrite F1, F2 by auto. rewrite He. split; intros (H1 & H2 & H3); split; auto; split; auto;
        intros j Hj Hje; apply H3; auto; intros HH; apply Hje; now apply He.
    - (* g is exhausted, so f's front k would be empty *)
      exfalso. destruct (nth k f []) as [|x l] eqn:Ex; [now apply (E1 k Hf)|].
      assert (Hx : In x (nth k f [])) by (rewrite Ex; simpl; auto).
      pose proof (Hin f k x M1 Hx) as Hm. apply M2, in_concat_nth in Hm as (k' & Hk' & Hxk).
      assert (k' < k) by lia. apply IH in Hxk; auto. pose proof (concat_NoDup_nth f k k' x N1 Hx Hxk). lia.
    - exfalso. destruct (nth k g []) as [|x l] eqn:Ex; [now apply (E2 k Hg)|].
      assert (Hx : In x (nth k g [])) by (rewrite Ex; simpl; auto).
      pose proof (Hin g k x M2 Hx) as Hm. apply M1, in_concat_nth in Hm as (k' & Hk' & Hxk).
      assert (k' < k) by lia. apply IH in Hxk; auto. pose proof (concat_NoDup_nth g k k' x N2 Hx Hxk). lia.
    - intros i. rewrite !nth_overflow by auto. tauto. }
  intros k. induction k as [k IH] using lt_wf_ind. apply Hk. auto.
Qed.

Lemma gather_app {A} (d : A) l I J : gather d l (I ++ J) = gather d l I ++ gather d l J.
Proof. apply map_app. Qed.

Section Rac.
  Context {A : Type}.
  Variables (d : A) (cv : A -> flt) (feas : A -> bool) (obj viol : A -> list flt).
  Variables (asort dsort rasc : list flt -> list nat) (nds : fltmat -> nat -> list (list nat)) (crowding : fltmat -> nat -> list flt).
  Variables (m mc : nat).
  Hypothesis Ha : asort_ok asort.
  Hypothesis Hd : dsort_ok dsort.
  Hypothesis Hr : asort_ok rasc.
  Hypothesis Hc : forall M r, length (crowding M r) = length M.
  Hypothesis Hn : nds_ok m nds.
  Hypothesis Hnc : nds_ok mc nds.

  Lemma rac_inner_ok : inner_ok (fun a => row_ok m (obj a)) (rac_inner obj dsort nds crowding).
  Proof.
    intros p n Hne Hwf Hle. unfold rac_inner, rac_do. destruct (rows_ok m obj p Hwf) as [H1 H2].
    destruct (Hn (map obj p) n) as (full & HP & HS); auto; [destruct p; [congruence|discriminate]|].
    destruct (rac_spec (map obj p) crowding dsort n Hc Hd full (nds (map obj p) n)) as (R & _); auto.
    - rewrite map_length; lia.
    - now rewrite map_length in R at 1.
  Qed.

  Definition csel (pop : list A) (infe : list nat) : list nat -> nat -> list nat :=
    pick (fun front => rasc (map (fun i => cv (nth (nth i infe 0) pop d)) front)).

  Lemma crac_fold pop infe n s0 : length s0 <= n -> forall out t,
    fold_left (crac_front d cv rasc pop infe n) out (s0 ++ gather 0 infe t) =
    s0 ++ gather 0 infe (fold_left (fill_step (n - length s0) (csel pop infe)) out t).
  Proof.
    intros Hle. induction out as [|f out IH]; intros t; cbn [fold_left]; auto.
    rewrite <- IH. f_equal. unfold crac_front, fill_step. rewrite app_length, length_gather.
    rewrite <- app_assoc. f_equal. rewrite gather_app. f_equal.
    f_equal. destruct (Nat.ltb_spec n (length s0 + length t + length f)), (Nat.ltb_spec (n - length s0) (length t + length f)); try lia.
    - unfold csel, pick. f_equal. f_equal. lia.
    - now rewrite gather_seq.
  Qed.

  Lemma csort_perm' pop infe front :
    Permutation (rasc (map (fun i => cv (nth (nth i infe 0) pop d)) front)) (seq 0 (length front)).
  Proof. destruct (Hr (map (fun i => cv (nth (nth i infe 0) pop d)) front)) as [H _]. now rewrite map_length in H. Qed.

  Lemma csel_ok pop infe : sel_ok (csel pop infe) (fun _ => True).
  Proof. intros front k _ Hk Hnd. apply (pick_ok _ (fun _ => True)); auto. intros; apply csort_perm'. Qed.

  Lemma nth_map_gather infe (full : list (list nat)) k : nth k (map (gather 0 infe) full) [] = gather 0 infe (nth k full []).
  Proof. change (@nil nat) with (gather 0 infe []) at 1. apply map_nth. Qed.

  (** a peeling of the positions of [infe] is a peeling of its members *)
  Lemma peeling_gather (infe : list nat) (dom dom' : nat -> nat -> Prop) full :
    NoDup infe ->
    (forall p q, p < length infe -> q < length infe -> (dom p q <-> dom' (nth p infe 0) (nth q infe 0))) ->
    is_peeling (length infe) dom full -> peeling_of (fun i => In i infe) dom' (map (gather 0 infe) full).
  Proof.
    intros HN Hdom (HP & HNe & HF). pose proof (perm_seq_NoDup _ _ HP) as HND.
    assert (Ec : concat (map (gather 0 infe) full) = gather 0 infe (concat full)).
    { unfold gather. now rewrite concat_map. }
    assert (Hb : forall k i, In i (nth k full []) -> i < length infe).
    { intros k i Hi. apply (perm_seq_In _ _ i HP). apply in_concat_nth. exists k. split; auto. eapply nth_In_lt; eauto. }
    assert (Hinj : forall p q, p < length infe -> q < length infe -> nth p infe 0 = nth q infe 0 -> p = q).
    { intros p q Hp Hq E. eapply (proj1 (NoDup_nth infe 0)); eauto. }
    assert (Hear : forall k p, p < length infe -> (in_earlier (map (gather 0 infe) full) k (nth p infe 0) <-> in_earlier full k p)).
    { intros k p Hp. unfold in_earlier. split; intros (k' & Hk & Hin); exists k'; split; auto; rewrite nth_map_gather in *.
      - apply In_gather in Hin as (q & Hq & E). apply Hinj in E; eauto. now subst.
      - apply In_gather. eauto. }
    split; [rewrite Ec; apply NoDup_gather; auto; intros i Hi; now apply (perm_seq_In _ _ i HP)|].
    split.
    { intros i. rewrite Ec, In_gather. split.
      - intros (p & Hp & <-). apply nth_In. now apply (perm_seq_In _ _ p HP).
      - intros Hi. apply (In_nth _ _ 0) in Hi as (p & Hp & E). exists p. split; auto. now apply (perm_seq_In _ _ p HP). }
    split.
    { intros k Hk. rewrite map_length in Hk. rewrite nth_map_gather. intros E. apply (HNe k Hk). unfold gather in E. eapply map_eq_nil; eauto. }
    intros k i Hk. rewrite map_length in Hk. rewrite nth_map_gather, In_gather. split.
    - intros (p & Hp & <-). pose proof (Hb k p Hp) as Hpl. apply HF in Hp as (_ & Hp1 & Hp2); auto.
      split; [now apply nth_In|]. split; [now rewrite Hear|]. intros j Hj Hje. apply (In_nth _ _ 0) in Hj as (q & Hq & <-).
      rewrite Hear in Hje by auto. intros Hdj. apply (Hp2 q Hq Hje). now apply Hdom.
    - intros (Hi & Hie & Hid). apply (In_nth _ _ 0) in Hi as (p & Hp & <-). exists p. split; auto. apply HF; auto.
      rewrite Hear in Hie by auto. split; auto. split; auto. intros q Hq Hqe Hdq.
      apply (Hid (nth q infe 0)); [now apply nth_In|now rewrite Hear|now apply Hdom].
  Qed.

  Lemma pick_order_cv pop infe front k i j :
    In i (csel pop infe front k) -> In j front -> ~ In j (csel pop infe front k) ->
    fltb (cv (nth (nth j infe 0) pop d)) (cv (nth (nth i infe 0) pop d)) = false.
  Proof.
    intros Hi Hj Hnj. destruct (pick_order _ _ _ _ _ (csort_perm' pop infe front) Hi Hj Hnj) as (p & q & Hpq & Hq & -> & ->).
    pose proof (csort_perm' pop infe front) as HP. pose proof (perm_seq_length _ _ HP) as HL.
    destruct (Hr (map (fun i => cv (nth (nth i infe 0) pop d)) front)) as [_ HS]. specialize (HS p q Hpq Hq).
    rewrite !nth_map_def with (d' := 0) in HS by (apply (perm_nth_lt _ _ _ HP); lia). exact HS.
  Qed.

  Lemma constr_rac_spec hc ns pop :
    Forall (fun a => row_ok m (obj a)) pop -> Forall (fun a => row_ok mc (viol a)) pop ->
    let n := Nat.min (match ns with None => length pop | Some n => n end) (length pop) in
    let S := constr_rac d cv feas obj viol asort dsort rasc nds crowding hc ns pop in
    selects (length pop) n S /\
    (hc = true ->
      (forall i j, In i S -> feas (nth i pop d) = false -> j < length pop -> feas (nth j pop d) = true -> In j S) /\
      (forall fr, peeling_of (fun i => i < length pop /\ feas (nth i pop d) = false)
                    (fun i j => dominates (viol (nth i pop d)) (viol (nth j pop d))) fr ->
         forall i j ri rj, In i S -> ~ In j S -> In i (nth ri fr []) -> In j (nth rj fr []) ->
         ri <= rj /\ (ri = rj -> fltb (cv (nth j pop d)) (cv (nth i pop d)) = false))).
  Proof.
    intros Hwf Hwv. cbv zeta. unfold constr_rac. set (n := Nat.min _ _).
    assert (Hnle : n <= length pop) by (unfold n; lia).
    destruct hc.
    2: { split; [|discriminate].
         destruct (survival_do_spec d cv feas asort Ha (fun a => row_ok m (obj a)) (rac_inner obj dsort nds crowding) true false (Some n) pop rac_inner_ok Hwf) as [H _].
         replace (Nat.min n (length pop)) with n in H by lia. exact H. }
    pose proof (split_spec d cv feas asort Ha pop) as HSp. destruct (split_by_feasibility d cv feas asort pop) as [fe infe].
    destruct HSp as (F1 & F2 & F3 & F4 & F5 & F6).
    set (sv := if length fe =? 0 then [] else _).
    assert (Hsv : NoDup sv /\ (forall i, In i sv -> In i fe) /\ length sv = Nat.min (length fe) n /\
                  (length fe <= n -> forall i, In i fe -> In i sv)).
    { unfold sv. destruct (Nat.eqb_spec (length fe) 0) as [E|E].
      - split; [constructor|]. split; [intros i []|]. split; [simpl; lia|]. intros _ i Hi. destruct fe; [destruct Hi|simpl in E; lia].
      - assert (Hwf' : Forall (fun a => row_ok m (obj a)) (gather d pop fe)).
        { apply Forall_forall. intros x Hx. apply in_map_iff in Hx as (k & <- & Hk). rewrite Forall_forall in Hwf. apply Hwf, nth_In, F3, Hk. }
        destruct (survival_do_spec d cv feas asort Ha (fun a => row_ok m (obj a)) (rac_inner obj dsort nds crowding) true true
                    (Some (Nat.min (length fe) n)) (gather d pop fe) rac_inner_ok Hwf') as [(I1 & I2 & I3) _].
        rewrite length_gather in I2, I3. replace (Nat.min (Nat.min (length fe) n) (length fe)) with (Nat.min (length fe) n) in I3 by lia.
        split; [now apply NoDup_gather|]. split.
        { intros i Hi. apply In_gather in Hi as (k & Hk & <-). apply nth_In. auto. }
        split; [now rewrite length_gather|]. intros Hle i Hi. apply (In_nth _ _ 0) in Hi as (k & Hk & <-).
        apply In_gather. exists k. split; auto. eapply NoDup_full with (n := length fe); eauto; lia. }
    clearbody sv. destruct Hsv as (S1 & S2 & S3 & S4).
    assert (Hfe : forall i, In i fe -> ~ In i infe) by (intros i Hi Hj; apply F3 in Hi; apply F4 in Hj; destruct Hi, Hj; congruence).
    destruct (Nat.ltb_spec 0 (n - length sv)) as [Hrem|Hrem].
    2: { split; [split; [auto|split; [intros i Hi; apply S2, F3 in Hi; tauto|lia]]|]. intros _. split.
         - intros i j Hi Hif. apply S2, F3 in Hi. destruct Hi; congruence.
         - intros fr (_ & M & _) i j ri rj Hi Hj Hri. exfalso. apply S2, F3 in Hi.
           assert (Hi2 : In i (concat fr)) by (apply in_concat_nth; exists ri; split; auto; eapply nth_In_lt; eauto).
           apply M in Hi2. destruct Hi, Hi2; congruence. }
    set (C := map (fun i => viol (nth i pop d)) infe).
    assert (HC : rect mc C /\ mat_ok C).
    { apply rows_ok. apply Forall_forall. intros i Hi. rewrite Forall_forall in Hwv. apply Hwv, nth_In, F4, Hi. }
    assert (HlC : length C = length infe) by apply map_length.
    assert (Hni : infe <> []) by (intros E; rewrite E in F5; simpl in F5; lia).
    destruct (Hnc C (n - length sv)) as (full & HP & HS); try apply HC.
    { intros E. apply (f_equal (@length _)) in E. rewrite HlC in E. destruct infe; [congruence|discriminate]. }
    rewrite HlC in HP. set (out := nds C (n - length sv)) in *.
    assert (EF : fold_left (crac_front d cv rasc pop infe n) out sv =
                 sv ++ gather 0 infe (fold_left (fill_step (n - length sv) (csel pop infe)) out [])).
    { rewrite <- crac_fold by lia. cbn [gather map]. now rewrite app_nil_r. }
    rewrite EF. clear EF.
    destruct (fill_spec (length infe) (row_dom C) (n - length sv) (csel pop infe) full out (fun _ => True) HP HS) as ((G1 & G2 & G3) & _);
      [lia|apply csel_ok|auto|].
    pose proof (fill_ranks (length infe) (row_dom C) (n - length sv) (csel pop infe) full out (fun _ => True) HP HS) as HR.
    specialize (HR ltac:(lia) (csel_ok pop infe) (fun _ _ => I)). cbv zeta in HR.
    set (T := fold_left (fill_step (n - length sv) (csel pop infe)) out []) in *.
    assert (HT : forall i, In i (gather 0 infe T) -> In i infe).
    { intros i Hi. apply In_gather in Hi as (p & Hp & <-). apply nth_In. auto. }
    split.
    - split; [|split].
      + apply NoDup_app_iff. split; auto. split; [apply NoDup_gather; auto|]. intros x Hx Hy. apply (Hfe x); auto.
      + intros i Hi. apply in_app_iff in Hi as [Hi|Hi]; [apply S2, F3 in Hi; tauto|apply HT, F4 in Hi; tauto].
      + rewrite app_length, length_gather. lia.
    - intros _. split.
      + intros i j _ _ Hj Hjf. apply in_app_iff. left. apply S4; [lia|]. apply F3. auto.
      + assert (HPo : peeling_of (fun i => i < length pop /\ feas (nth i pop d) = false)
                    (fun i j => dominates (viol (nth i pop d)) (viol (nth j pop d))) (map (gather 0 infe) full)).
        { destruct (peeling_gather infe (row_dom C) (fun i j => dominates (viol (nth i pop d)) (viol (nth j pop d))) full F2) as (P1 & P2 & P3 & P4); auto.
          - intros p q Hp Hq. unfold row_dom, C. rewrite !nth_map_def with (d' := 0) by auto. tauto.
          - split; auto. split; [intros i; rewrite P2; apply F4|]. split; auto. intros k i Hk. rewrite P4 by auto. rewrite F4. split; intros (X1 & X2 & X3);
            (split; [auto|]; split; [auto|]; intros j Hj; apply X3; now apply F4). }
        intros fr Hfr i j ri rj Hi Hj Hri Hrj.
        rewrite (peeling_of_unique _ _ _ _ Hfr HPo) in Hri, Hrj. rewrite nth_map_gather in Hri, Hrj.
        apply In_gather in Hri as (p & Hp & Ep). apply In_gather in Hrj as (q & Hq & Eq).
        assert (Hpb : forall k x, In x (nth k full []) -> x < length infe).
        { intros k x Hx. apply (perm_seq_In _ _ x (proj1 HP)). apply in_concat_nth. exists k. split; auto. eapply nth_In_lt; eauto. }
        assert (HpT : In p T).
        { apply in_app_iff in Hi as [Hi|Hi].
          - exfalso. apply (Hfe i (S2 i Hi)). rewrite <- Ep. apply nth_In. eauto.
          - apply In_gather in Hi as (p' & Hp' & E'). assert (p' = p); [|now subst].
            eapply (proj1 (NoDup_nth infe 0)); eauto. congruence. }
        assert (HqT : ~ In q T).
        { intros H. apply Hj. apply in_app_iff. right. apply In_gather. eauto. }
        destruct (HR p q ri rj HpT HqT Hp Hq) as [R1 R2]. split; auto. intros E. destruct (R2 E) as (l & k & L1 & L2 & L3 & L4 & L5 & L6 & _).
        subst i j. eapply pick_order_cv; eauto.
  Qed.
End Rac.

