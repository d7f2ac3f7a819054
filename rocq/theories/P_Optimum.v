From Coq Require Import List Arith Bool Lia Permutation Sorted.
From Verif Require Import Flt ListAux NpSort M_NDS M_Duplicate M_Survival M_Optimum S_Pareto S_NDS S_Survival S_Optimum P_Dominator P_Duplicate Thm_NDS.
From Verif Require S_Duplicate.
Import ListNotations.
Local Open Scope nat_scope.
Notation selects := S_Duplicate.selects.

Lemma argmin_from_spec l : forall best bi i (full : nat -> flt), isnan best = false -> vec_ok l ->
  let k := argmin_from best bi i l in
  (k = bi /\ (forall j, j < length l -> fleb best (nth j l f_nan) = true)) \/
  (i <= k < i + length l /\ fltb (nth (k - i) l f_nan) best = true /\ forall j, j < length l -> fleb (nth (k - i) l f_nan) (nth j l f_nan) = true).
Proof.
  induction l as [|x l IH]; intros best bi i full Hb Hl; cbn [argmin_from].
  - left. split; auto. simpl; lia.
  - inversion Hl as [|? ? Hx Hl']; subst. rewrite Hb, Hx, orb_false_r. destruct (fltb x best) eqn:E.
    + right. destruct (IH x i (S i) full Hx Hl') as [[K1 K2]|(K1 & K2 & K3)].
      * cbv zeta in K1. rewrite K1. rewrite Nat.sub_diag. split; [simpl; lia|]. split; [exact E|].
        intros [|j] Hj; simpl; [now apply fle_refl|]. apply K2. simpl in Hj; lia.
      * set (k := argmin_from x i (S i) l) in *. replace (k - i) with (S (k - S i)) by lia. cbn [nth].
        split; [simpl; lia|]. split; [eapply flt_trans; eauto|].
        intros [|j] Hj; cbn [nth]; [now apply flt_le|]. apply K3. simpl in Hj; lia.
    + destruct (IH best bi (S i) full Hb Hl') as [[K1 K2]|(K1 & K2 & K3)].
      * left. split; auto. intros [|j] Hj; simpl; [apply nlt_le; auto|]. apply K2. simpl in Hj; lia.
      * right. set (k := argmin_from best bi (S i) l) in *. replace (k - i) with (S (k - S i)) by lia. cbn [nth].
        split; [simpl; lia|]. split; [auto|]. intros [|j] Hj; cbn [nth]; [|apply K3; simpl in Hj; lia].
        apply flt_le. eapply flt_le_trans; [exact K2|]. apply nlt_le; auto.
Qed.
Lemma np_argmin_spec l : l <> [] -> vec_ok l -> np_argmin l < length l /\ forall j, j < length l -> fleb (nth (np_argmin l) l f_nan) (nth j l f_nan) = true.
Proof.
  destruct l as [|x l]; [congruence|]. intros _ Hl. inversion Hl as [|? ? Hx Hl']; subst. cbn [np_argmin].
  destruct (argmin_from_spec l x 0 1 (fun _ => x) Hx Hl') as [[K1 K2]|(K1 & K2 & K3)]; cbv zeta in *.
  - rewrite K1. split; [simpl; lia|]. intros [|j] Hj; cbn [nth]; [now apply fle_refl|apply K2; simpl in Hj; lia].
  - set (k := argmin_from x 0 1 l) in *. replace k with (S (k - 1)) by lia. cbn [nth]. split; [simpl; lia|].
    intros [|j] Hj; cbn [nth]; [now apply flt_le|apply K3; simpl in Hj; lia].
Qed.

(** selecting from a selection *)
Lemma filter_selects {A} (d : A) f (l : list A) : selects d l (filter f l) (fun i => f (nth i l d) = true).
Proof.
  eapply selects_ext; [apply (selects_filter d l l (fun _ => True) f (selects_all d l))|]. intros; tauto.
Qed.
Lemma SS_nth J : StronglySorted lt J -> forall p q, p < q < length J -> nth p J 0 < nth q J 0.
Proof.
  induction 1 as [|x J HS IH HF]; intros p q Hpq; simpl in Hpq; [lia|]. destruct q as [|q]; [lia|]. rewrite Forall_forall in HF.
  destruct p as [|p]; cbn [nth]; [apply HF, nth_In; lia|apply IH; lia].
Qed.
Lemma SS_gather J K : StronglySorted lt J -> StronglySorted lt K -> (forall k, In k K -> k < length J) -> StronglySorted lt (gather 0 J K).
Proof.
  intros HJ HK. induction HK as [|k K HS IH HF]; intros Hb; simpl; constructor.
  - apply IH. intros; apply Hb; simpl; auto.
  - apply Forall_forall. intros x Hx. apply in_map_iff in Hx as (k' & <- & Hk'). rewrite Forall_forall in HF.
    apply SS_nth; auto. split; [apply HF; auto|apply Hb; simpl; auto].
Qed.
Lemma selects_compose {A} (d : A) pop mid res (P : nat -> Prop) (Q : A -> Prop) :
  selects d pop mid P -> selects d mid res (fun i => Q (nth i mid d)) -> selects d pop res (fun i => P i /\ Q (nth i pop d)).
Proof.
  intros (J & SJ & HJ & ->) (K & SK & HK & ->). exists (gather 0 J K).
  assert (HKb : forall k, In k K -> k < length J) by (intros k Hk; apply HK in Hk; rewrite map_length in Hk; tauto).
  split; [now apply SS_gather|]. split.
  - intros i. unfold gather. rewrite in_map_iff. split.
    + intros (k & <- & Hk). specialize (HKb k Hk). assert (HI : In (nth k J 0) J) by (apply nth_In; auto). apply HJ in HI.
      split; [tauto|]. split; [tauto|]. apply HK in Hk. destruct Hk as [_ Hk]. 
      change (map (fun i : nat => nth i pop d) J) with (gather d pop J) in Hk. rewrite nth_gather in Hk by auto. auto.
    + intros (Hi & HP & HQ). assert (HI : In i J) by (apply HJ; auto). apply (In_nth _ _ 0) in HI as (k & Hk & <-).
      exists k. split; auto. apply HK. rewrite map_length. split; auto.
      change (map (fun i : nat => nth i pop d) J) with (gather d pop J). rewrite nth_gather by auto. auto.
  - unfold gather. rewrite map_map. apply map_ext_in. intros k Hk. specialize (HKb k Hk).
    change (map (fun i : nat => nth i pop d) J) with (gather d pop J). now rewrite nth_gather.
Qed.
Lemma selects_In {A} (d : A) pop res P x : selects d pop res P -> (In x res <-> exists i, i < length pop /\ P i /\ x = nth i pop d).
Proof.
  intros (J & _ & HJ & ->). rewrite in_map_iff. split.
  - intros (i & <- & Hi). apply HJ in Hi. exists i; tauto.
  - intros (i & Hi & HP & ->). exists i. split; auto. apply HJ; auto.
Qed.
Lemma selects_In_val {A} (d : A) pop res (Q : A -> Prop) x : selects d pop res (fun i => Q (nth i pop d)) -> (In x res <-> In x pop /\ Q x).
Proof.
  intros H. rewrite (selects_In _ _ _ _ _ H). split.
  - intros (i & Hi & HQ & ->). split; auto. now apply nth_In.
  - intros [Hi HQ]. apply (In_nth _ _ d) in Hi as (i & Hi & <-). exists i; auto.
Qed.
Lemma selects_gather {A} (d : A) (l : list A) J (P : nat -> Prop) : StronglySorted lt J -> (forall i, In i J <-> i < length l /\ P i) -> selects d l (gather d l J) P.
Proof. intros H1 H2. exists J. auto. Qed.

Section O.
  Context {A : Type} (d : A) (obj : A -> list flt) (cv : A -> flt) (feas : A -> bool) (pr : fltmat -> list nat) (m : nat).
  Notation better := (better_than obj cv feas).
  Notation ok := (ind_ok obj cv m).
  Notation best := (best obj cv feas).
  Hypothesis pr_ok : forall F, F <> [] -> rect m F -> mat_ok F -> is_pareto_rank F (pr F).

  Lemma rows_ok l : Forall ok l -> rect m (map obj l) /\ mat_ok (map obj l).
  Proof.
    intros H. split; apply Forall_forall; intros r Hr; apply in_map_iff in Hr as (a & <- & Ha); rewrite Forall_forall in H; destruct (H a Ha) as [[H1 H2] _]; auto.
  Qed.
  Lemma first_front_selects l : l <> [] -> Forall ok l ->
    selects d l (gather d l (first_front pr (map obj l))) (fun i => forall y, In y l -> ~ dominates (obj y) (obj (nth i l d))).
  Proof.
    intros Hne HO. destruct (rows_ok l HO) as [HR HM]. assert (HF : map obj l <> []) by (destruct l; [congruence|discriminate]).
    apply selects_gather.
    - unfold first_front, nds_do_first, nds_do_fronts. rewrite map_length. destruct (Nat.eqb_spec (length l) 0); [constructor|]. cbn [negb].
      rewrite Nat.add_comm. cbn [plus seq do_default_loop Nat.leb nth]. apply SS_filter, SS_seq.
    - intros i. unfold first_front. rewrite (C09_only_first (map obj l) false (pr (map obj l)) [] 0 None None HF (pr_ok _ HF HR HM) i). rewrite map_length.
      split; intros [Hi HD]; split; auto.
      + intros y Hy. apply (In_nth _ _ d) in Hy as (j & Hj & <-). specialize (HD j Hj). unfold row_dom in HD.
        rewrite !(nth_indep _ [] (obj d)) in HD by (now rewrite map_length). rewrite !map_nth in HD. auto.
      + intros j Hj. unfold row_dom. rewrite !(nth_indep _ [] (obj d)) by (now rewrite map_length). rewrite !map_nth. apply HD. now apply nth_In.
  Qed.
  Lemma ties_selects (f : A -> flt) l : l <> [] -> (forall a, In a l -> isnan (f a) = false) ->
    selects d l (gather d l (ties (map f l))) (fun i => forall y, In y l -> fleb (f (nth i l d)) (f y) = true).
  Proof.
    intros Hne HN. apply selects_gather; [unfold ties; apply SS_filter, SS_seq|]. intros i. unfold ties. rewrite In_where, map_length.
    assert (HV : vec_ok (map f l)) by (apply Forall_forall; intros x Hx; apply in_map_iff in Hx as (a & <- & Ha); auto).
    destruct (np_argmin_spec (map f l)) as [HA HB]; [destruct l; [congruence|discriminate]|auto|]. rewrite map_length in *.
    set (k := np_argmin (map f l)) in *.
    assert (HNth : forall j, j < length l -> nth j (map f l) f_nan = f (nth j l d)).
    { intros j Hj. rewrite (nth_indep _ f_nan (f d)) by (now rewrite map_length). apply map_nth. }
    split; intros [Hi HE]; split; auto.
    - intros y Hy. apply (In_nth _ _ d) in Hy as (j & Hj & <-). rewrite !HNth in HE by auto. specialize (HB j Hj). rewrite !HNth in HB by auto.
      apply fle_trans with (f (nth k l d)); auto. now apply feq_le.
    - rewrite !HNth by auto. apply fle_antisym.
      + apply HE. now apply nth_In.
      + specialize (HB i Hi). now rewrite !HNth in HB by auto.
  Qed.
  (** one objective: dominance is "smaller" *)
  Lemma dominates_single a b : length a = 1 -> length b = 1 -> vec_ok a -> vec_ok b -> (dominates a b <-> fltb (nth 0 a f_nan) (nth 0 b f_nan) = true).
  Proof.
    intros Ha Hb Va Vb. destruct a as [|x [|? ?]]; try discriminate. destruct b as [|y [|? ?]]; try discriminate. cbn [nth]. split.
    - intros [_ (k & u & v & H1 & H2 & H3)]. destruct k as [|k]; [|destruct k; discriminate]. simpl in *. congruence.
    - intros H. split; [constructor; [now apply flt_le|constructor]|]. exists 0, x, y. auto.
  Qed.

  Lemma find_opt_selects multi l : l <> [] -> Forall ok l -> (multi = false -> m = 1) ->
    exists res, find_opt d obj cv feas pr multi l = Some res /\ selects d l res (fun i => best l (nth i l d)).
  Proof.
    intros Hne HO HM. unfold find_opt. destruct l as [|x0 l0] eqn:El; [congruence|]. rewrite <- El in *. clear Hne.
    assert (Hne : l <> []) by (rewrite El; discriminate). clear El.
    pose proof HO as HO'. rewrite Forall_forall in HO.
    destruct (existsb feas l) eqn:EF.
    - assert (Hex : exists a, In a l /\ feas a = true) by (now apply existsb_exists).
      set (fl := filter feas l). assert (Hfl : fl <> []). { destruct Hex as (a & Ha & Hf). intros E. assert (In a fl) by (apply filter_In; auto). rewrite E in H. destruct H. }
      assert (HfO : Forall ok fl). { apply Forall_forall. intros a Ha. apply filter_In in Ha. apply HO. tauto. }
      assert (HbEq : forall i, i < length l -> (best l (nth i l d) <-> feas (nth i l d) = true /\ forall y, In y fl -> ~ dominates (obj y) (obj (nth i l d)))).
      { intros i Hi. split.
        - intros [_ HB]. assert (Hfi : feas (nth i l d) = true).
          { destruct (feas (nth i l d)) eqn:E; auto. destruct Hex as (a & Ha & Hf). exfalso. apply (HB a Ha). left; auto. }
          split; auto. intros y Hy HD. apply filter_In in Hy as [Hy Hfy]. apply (HB y Hy). right; left; auto.
        - intros [Hf HD]. split; [now apply nth_In|]. intros y Hy [[_ H2]|[(H1 & _ & H3)|(_ & H2 & _)]]; try congruence.
          apply (HD y); auto. apply filter_In; auto. }
      assert (HfinalS : forall J, selects d fl (gather d fl J) (fun i => forall y, In y fl -> ~ dominates (obj y) (obj (nth i fl d))) ->
         selects d l (gather d fl J) (fun i => best l (nth i l d))).
      { intros J HS. eapply selects_ext; [apply (selects_compose d l fl _ _ (fun a => forall y, In y fl -> ~ dominates (obj y) (obj a)) (filter_selects d feas l) HS)|].
        intros i Hi. rewrite HbEq by auto. tauto. }
      destruct multi.
      + eexists. split; [reflexivity|]. apply HfinalS. now apply first_front_selects.
      + eexists. split; [reflexivity|]. apply HfinalS. specialize (HM eq_refl).
        eapply selects_ext; [apply (ties_selects (fun a => nth 0 (obj a) f_nan) fl Hfl)|].
        * intros a Ha. rewrite Forall_forall in HfO. destruct (HfO a Ha) as [[HL HV] _]. rewrite HM in HL. destruct (obj a) as [|z [|? ?]]; try discriminate. inversion HV; auto.
        * intros i Hi. rewrite Forall_forall in HfO. destruct (HfO (nth i fl d) (nth_In _ _ Hi)) as [[HL HV] _]. rewrite HM in HL.
          split; intros HH y Hy; destruct (HfO y Hy) as [[HLy HVy] _]; rewrite HM in HLy; specialize (HH y Hy).
          -- rewrite dominates_single by auto. apply fle_not_lt in HH. congruence.
          -- apply nlt_le.
             ++ destruct (obj y) as [|z [|? ?]]; try discriminate. inversion HVy; auto.
             ++ destruct (obj (nth i fl d)) as [|z [|? ?]]; try discriminate. inversion HV; auto.
             ++ destruct (fltb _ _) eqn:E; auto. exfalso. apply HH. apply dominates_single; auto.
    - eexists. split; [reflexivity|]. assert (Hno : forall a, In a l -> feas a = false).
      { intros a Ha. destruct (feas a) eqn:E; auto. exfalso. assert (existsb feas l = true) by (apply existsb_exists; eauto). congruence. }
      eapply selects_ext; [apply (ties_selects cv l Hne)|].
      + intros a Ha. apply (HO a Ha).
      + intros i Hi. split.
        * intros HH. split; [now apply nth_In|]. intros y Hy [[H1 _]|[(H1 & _)|(_ & _ & H3)]]; try (rewrite Hno in H1 by auto; discriminate).
          specialize (HH y Hy). apply fle_not_lt in HH. congruence.
        * intros [_ HB] y Hy. apply nlt_le; try apply HO; auto; [now apply nth_In|]. destruct (fltb _ _) eqn:E; auto. exfalso. apply (HB y Hy).
          right; right. split; [apply Hno; auto|]. split; auto. apply Hno. now apply nth_In.
  Qed.

  (** [better] is a strict partial order *)
  Lemma better_irrefl a : ~ better a a.
  Proof. intros [[H1 H2]|[(_ & _ & H)|(_ & _ & H)]]; [congruence|now apply dominates_irrefl in H|rewrite flt_irrefl in H; discriminate]. Qed.
  Lemma better_trans a b c : better a b -> better b c -> better a c.
  Proof.
    intros [[H1 H2]|[(H1 & H2 & H3)|(H1 & H2 & H3)]] [[K1 K2]|[(K1 & K2 & K3)|(K1 & K2 & K3)]]; try congruence.
    - left; auto.
    - left; auto.
    - right; left. split; auto. split; auto. eapply dominates_trans; eauto.
    - right; right. split; auto. split; auto. eapply flt_trans; eauto.
  Qed.
  Lemma dominates_dec a b : ok a -> ok b -> dominates (obj a) (obj b) \/ ~ dominates (obj a) (obj b).
  Proof.
    intros [[La Va] _] [[Lb Vb] _]. rewrite dominates_iff by (auto; congruence).
    destruct (lt_somewhere (obj a) (obj b)), (lt_somewhere (obj b) (obj a)); intuition congruence.
  Qed.
  Lemma better_dec a b : ok a -> ok b -> better a b \/ ~ better a b.
  Proof.
    intros Ha Hb. unfold better_than. destruct (feas a), (feas b); try (destruct (dominates_dec a b Ha Hb)); destruct (fltb (cv a) (cv b));
      intuition congruence.
  Qed.
  (** every member is best or beaten by a best one *)
  Lemma best_covers l : Forall ok l -> forall x, In x l -> exists y, best l y /\ (y = x \/ better y x).
  Proof.
    intros HO x Hx. rewrite Forall_forall in HO.
    (* members better than x *)
    assert (Hdec : forall x l', (forall a, In a l' -> ok a) -> ok x -> exists bs, (forall y, In y bs <-> In y l' /\ better y x)).
    { intros x' l'. induction l' as [|a l' IH]; intros Hl Hx'.
      - exists []. simpl; tauto.
      - destruct IH as (bs & Hbs); auto; [intros; apply Hl; simpl; auto|]. destruct (better_dec a x') as [Hd|Hd]; [apply Hl; simpl; auto|auto| |].
        + exists (a :: bs). intros y. simpl. rewrite Hbs. intuition (subst; auto).
        + exists bs. intros y. rewrite Hbs. simpl. intuition (subst; contradiction). }
    destruct (Hdec x l HO (HO x Hx)) as (bs & Hbs).
    assert (HbO : forall y, In y bs -> In y l) by (intros y Hy; apply Hbs in Hy; tauto).
    destruct bs as [|b0 bs'] eqn:Ebs.
    - exists x. split; auto. split; auto. intros y Hy HB. assert (HI : In y []) by (apply Hbs; auto). destruct HI.
    - rewrite <- Ebs in *.
      assert (Hmin : forall l', l' <> [] -> (forall y, In y l' -> In y l) -> exists z, In z l' /\ forall y, In y l' -> ~ better y z).
      { induction l' as [|a l' IH]; intros Hne Hin; [congruence|]. destruct l' as [|a' l''].
        - exists a. split; simpl; auto. intros y [<-|[]]. apply better_irrefl.
        - destruct IH as (z & Hz & Hzm); [discriminate|intros; apply Hin; simpl; auto|].
          destruct (better_dec a z) as [Hd|Hd]; [apply HO, Hin; simpl; auto|apply HO, Hin; simpl; auto| |].
          + exists a. split; [simpl; auto|]. intros y [<-|Hy]; [apply better_irrefl|]. intros Hya. apply (Hzm y Hy). eapply better_trans; eauto.
          + exists z. split; [right; auto|]. intros y [<-|Hy]; auto. }
      destruct (Hmin bs) as (z & Hz & Hzm); [rewrite Ebs; discriminate|auto|].
      exists z. apply Hbs in Hz as Hz'. destruct Hz' as [Hzl Hzx]. split; [|right; auto]. split; auto.
      intros y Hy Hyz. apply (Hzm y); auto. apply Hbs. split; auto. eapply better_trans; eauto.
  Qed.
End O.
