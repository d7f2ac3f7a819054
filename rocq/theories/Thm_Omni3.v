(** * C104: Omni-Optimizer: the combined crowding distance *)
From Coq Require Import List Arith Bool ZArith QArith Lia Lqa Permutation.
From Verif Require Import ListAux M_Crowding Thm_Crowding Thm_Default2 Thm_Pruning4 Thm_Pruning6 M_Omni Thm_Omni Thm_Omni2.
Import ListNotations.
Local Open Scope nat_scope.

Lemma qmax2_spec a b : (a <= qmax2 a b)%Q /\ (b <= qmax2 a b)%Q /\ (qmax2 a b = a \/ qmax2 a b = b).
Proof. unfold qmax2. destruct (Qle_bool a b) eqn:E; [apply Qle_bool_iff in E; split; [lra|split; [lra|auto]]|]. assert (~ (a <= b)%Q) by (rewrite <- Qle_bool_iff; congruence). split; [lra|]. split; [lra|auto]. Qed.
Lemma qmin2_spec a b : (qmin2 a b <= a)%Q /\ (qmin2 a b <= b)%Q /\ (qmin2 a b = a \/ qmin2 a b = b).
Proof. unfold qmin2. destruct (Qle_bool a b) eqn:E; [apply Qle_bool_iff in E; split; [lra|split; [lra|auto]]|]. assert (~ (a <= b)%Q) by (rewrite <- Qle_bool_iff; congruence). split; [lra|]. split; [lra|auto]. Qed.
Definition qlen {A} (l : list A) : Q := inject_Z (Z.of_nat (length l)).
Definition qn (n : nat) : Q := inject_Z (Z.of_nat n).
Lemma qn_pos n : 0 < n -> (0 < qn n)%Q.
Proof. intros H. unfold qn. change 0%Q with (inject_Z 0). rewrite <- Zlt_Qlt. lia. Qed.
Lemma sum_le_len l : (forall x, In x l -> (x <= 1)%Q) -> (fold_right Qplus 0 l <= qn (length l))%Q.
Proof.
  induction l as [|x l IH]; intros H; [vm_compute; discriminate|]. cbn [fold_right length]. unfold qn in *. rewrite Nat2Z.inj_succ. unfold Z.succ. rewrite inject_Z_plus. change (inject_Z 1) with 1%Q.
  pose proof (H x ltac:(now left)). specialize (IH ltac:(intros y Hy; apply H; now right)). lra.
Qed.
Lemma filter_len {A} (p : A -> bool) l : length (filter p l) <= length l.
Proof. induction l as [|x l IH]; cbn; [lia|]. destruct (p x); cbn; lia. Qed.
Lemma qn_le a b : a <= b -> (qn a <= qn b)%Q.
Proof. intros H. unfold qn. rewrite <- Zle_Qle. lia. Qed.

(** ** Specification: the threshold of a space is the total crowding, without the marked solutions, divided by the number of solutions and by the number of columns *)
Definition threshold (n d : nat) (l : list Q) (x : Q) : Prop := (x == fold_right Qplus 0 (filter (fun c => negb (Qeq_bool c 10)) l) / (qn n * qn d))%Q.

Section Comb.
  Variables (asort : list Q -> list nat) (m d : nat) (F X : list (list Q)).
  Hypotheses (HS : stable_ok asort) (Hm : 0 < m) (Hd : 0 < d) (HL : length X = length F).
  Let oc := objective_crowding asort m F.
  Let vc := variable_crowding asort d X.
  Lemma comb_value : exists c, omni_crowding asort true true m d F X = Some c /\ length c = length F /\
    (length F <= 2 -> forall i, i < length F -> nth i c 0%Q = 10%Q) /\
    (3 <= length F -> forall i, i < length F ->
      (boundary m F i -> nth i c 0%Q = 10%Q) /\
      exists to tv, threshold (length F) m oc to /\ threshold (length F) d vc tv /\
        let o := nth i oc 0%Q in let v := nth i vc 0%Q in
        ((to < o)%Q \/ (tv < v)%Q -> (o <= nth i c 0)%Q /\ (v <= nth i c 0)%Q /\ (nth i c 0%Q = o \/ nth i c 0%Q = v)) /\
        (~ (to < o)%Q -> ~ (tv < v)%Q -> (nth i c 0 <= o)%Q /\ (nth i c 0 <= v)%Q /\ (nth i c 0%Q = o \/ nth i c 0%Q = v))).
  Proof.
    destruct (C104_objective_crowding asort m F HS Hm) as (LO & O2 & O3). destruct (C104_variable_crowding asort d X HS Hd) as (LV & V2 & V3).
    cbv zeta in *. fold oc in LO, O2, O3. fold vc in LV, V2, V3. unfold omni_crowding. fold oc. fold vc. eexists. split; [reflexivity|].
    set (ao := (fold_right Qplus 0 (filter (fun c => negb (Qeq_bool c BOUNDARY)) oc) / inject_Z (Z.of_nat (length F)) / inject_Z (Z.of_nat m))%Q).
    set (av := (fold_right Qplus 0 vc / inject_Z (Z.of_nat (length F)) / inject_Z (Z.of_nat d))%Q).
    set (f := fun o v => if qlt ao o || qlt av v then qmax2 o v else qmin2 o v).
    assert (NE : forall i, i < length F -> nth i (map2 f oc vc) 0%Q = f (nth i oc 0%Q) (nth i vc 0%Q)) by (intros i Hi; apply map2_nth; lia).
    split; [rewrite map2_len; lia|]. 
    assert (AO : forall x, (10 <= x)%Q -> 0 < length F -> (ao < x)%Q).
    { intros x Hx HN. apply Qle_lt_trans with 1%Q; [|lra]. unfold ao.
      assert (K1 : (fold_right Qplus 0 (filter (fun c => negb (Qeq_bool c BOUNDARY)) oc) <= qn (length F))%Q).
      { eapply Qle_trans; [apply sum_le_len|apply qn_le; rewrite <- LO; apply filter_len]. intros y Hy. apply filter_In in Hy as [Hy N10]. destruct (In_nth _ _ 0%Q Hy) as (i & Hi & <-). rewrite LO in Hi.
        destruct (Nat.le_gt_cases (length F) 2) as [C|C]; [rewrite (O2 C i Hi) in N10; discriminate|]. destruct (O3 ltac:(lia) i Hi) as [B1 B2].
        assert (NB : ~ boundary m F i) by (intros B; rewrite (B1 B) in N10; discriminate). apply B2 in NB. lra. }
      pose proof (qn_pos (length F) HN) as PN. pose proof (qn_pos m Hm) as PM. fold (qn (length F)). fold (qn m). apply Qle_shift_div_r; auto. apply Qle_shift_div_r; auto.
      assert (1 <= qn m)%Q by (change 1%Q with (qn 1); apply qn_le; lia). assert (qn (length F) * 1 <= qn (length F) * qn m)%Q by (apply Qmult_le_l; auto). lra. }
    split.
    - intros H2 i Hi. rewrite NE by auto. unfold f. rewrite (O2 H2 i Hi), (V2 ltac:(lia) i ltac:(lia)).
      assert (E : qlt ao 10 = true) by (apply qlt_iff, AO; [lra|lia]). rewrite E. reflexivity.
    - intros H3 i Hi. destruct (O3 H3 i Hi) as [B1 B2]. destruct (V3 ltac:(lia) i ltac:(lia)) as (_ & W1 & W2). rewrite NE by auto. split.
      + intros B. specialize (B1 B). rewrite B1. unfold f. assert (E : qlt ao 10 = true) by (apply qlt_iff, AO; [lra|lia]). rewrite E. cbn [orb]. unfold qmax2. destruct (Qle_bool 10 (nth i vc 0%Q)) eqn:K; [apply Qle_bool_iff in K; lra|reflexivity].
      + exists ao, av. pose proof (qn_pos (length F) ltac:(lia)) as PN. pose proof (qn_pos m Hm) as PM. pose proof (qn_pos d Hd) as PD.
        split; [unfold threshold, ao, BOUNDARY; fold (qn (length F)); fold (qn m); field; split; intros E; rewrite E in *; lra|].
        split.
        { unfold threshold, av. fold (qn (length F)). fold (qn d). assert (EF : filter (fun c => negb (Qeq_bool c 10)) vc = vc).
          { assert (G : forall l, (forall x, In x l -> (x <= 2)%Q) -> filter (fun c => negb (Qeq_bool c 10)) l = l).
            { clear. induction l as [|x l IH]; intros H; [reflexivity|]. cbn. destruct (Qeq_bool x 10) eqn:E; [apply Qeq_bool_iff in E; pose proof (H x ltac:(now left)); lra|]. cbn. f_equal. apply IH. intros y Hy. apply H. now right. }
            apply G. intros x Hx. destruct (In_nth _ _ 0%Q Hx) as (q & Hq & <-). apply V3; lia. }
          rewrite EF. field. split; intros E; rewrite E in *; lra. }
        cbv zeta. unfold f. split.
        * intros K. assert (E : qlt ao (nth i oc 0%Q) || qlt av (nth i vc 0%Q) = true) by (apply orb_true_iff; destruct K as [K|K]; [left|right]; now apply qlt_iff). rewrite E. apply qmax2_spec.
        * intros K1 K2. assert (E : qlt ao (nth i oc 0%Q) || qlt av (nth i vc 0%Q) = false) by (apply orb_false_iff; split; apply not_true_is_false; rewrite qlt_iff; auto). rewrite E. apply qmin2_spec.
  Qed.
End Comb.

(** C104: the combined crowding distance, both spaces enabled: the best solution of every objective keeps 10; any other solution gets the larger of its two values if one of
    them exceeds the threshold of its space, otherwise the smaller one, so never more than 2; one or two solutions all get 10 *)
Theorem C104_combined_crowding : forall asort m d F X, stable_ok asort -> 0 < m -> 0 < d -> length X = length F ->
  exists c, omni_crowding asort true true m d F X = Some c /\ length c = length F /\
  (length F <= 2 -> forall i, i < length F -> nth i c 0%Q = 10%Q) /\
  (3 <= length F -> forall i, i < length F ->
    (boundary m F i -> nth i c 0%Q = 10%Q) /\
    (~ boundary m F i -> (0 <= nth i c 0)%Q /\ (nth i c 0 <= 2)%Q) /\
    exists to tv, threshold (length F) m (objective_crowding asort m F) to /\ threshold (length F) d (variable_crowding asort d X) tv /\
      let o := nth i (objective_crowding asort m F) 0%Q in let v := nth i (variable_crowding asort d X) 0%Q in
      ((to < o)%Q \/ (tv < v)%Q -> (o <= nth i c 0)%Q /\ (v <= nth i c 0)%Q /\ (nth i c 0%Q = o \/ nth i c 0%Q = v)) /\
      (~ (to < o)%Q -> ~ (tv < v)%Q -> (nth i c 0 <= o)%Q /\ (nth i c 0 <= v)%Q /\ (nth i c 0%Q = o \/ nth i c 0%Q = v))).
Proof.
  intros asort m d F X HS Hm Hd HL. destruct (comb_value asort m d F X HS Hm Hd HL) as (c & E & LC & C2 & C3). exists c. split; auto. split; auto. split; auto.
  intros H3 i Hi. destruct (C3 H3 i Hi) as [B (to & tv & T1 & T2 & K1 & K2)]. split; auto. split; [|exists to, tv; auto].
  intros NB. destruct (C104_objective_crowding asort m F HS Hm) as (_ & _ & O3). destruct (C104_variable_crowding asort d X HS Hd) as (_ & _ & V3). cbv zeta in *.
  destruct (O3 H3 i Hi) as [_ O]. destruct (O NB) as (_ & OA & OB). destruct (V3 ltac:(lia) i ltac:(lia)) as (_ & VA & VB).
  assert (R : nth i c 0%Q = nth i (objective_crowding asort m F) 0%Q \/ nth i c 0%Q = nth i (variable_crowding asort d X) 0%Q).
  { destruct (Qlt_le_dec to (nth i (objective_crowding asort m F) 0%Q)) as [A|A]; [apply K1; auto|]. destruct (Qlt_le_dec tv (nth i (variable_crowding asort d X) 0%Q)) as [A'|A']; [apply K1; auto|]. apply K2; lra. }
  destruct R as [-> | ->]; lra.
Qed.
Print Assumptions C104_combined_crowding.
(** C104: with one space disabled the other alone decides; with both disabled an error is raised *)
Theorem C104_one_space : forall asort m d F X,
  omni_crowding asort true false m d F X = Some (objective_crowding asort m F) /\
  omni_crowding asort false true m d F X = Some (variable_crowding asort d X) /\
  omni_crowding asort false false m d F X = None.
Proof. auto. Qed.
Print Assumptions C104_one_space.
(** C104: the threshold is not the average of the front (the values are already averages over the columns, and are divided by the number of columns once more):
    a solution more crowded than the average in both spaces may still get the larger value *)
Definition avg (l : list Q) : Q := (fold_right Qplus 0 l / qn (length l))%Q.
Theorem C104_average_refuted : exists F X c i, length F = 6 /\ length X = 6 /\ omni_crowding st_sort true true 2 2 F X = Some c /\ i < 6 /\ ~ boundary 2 F i /\
  (nth i (objective_crowding st_sort 2 F) 0 < avg (filter (fun c => negb (Qeq_bool c 10)) (objective_crowding st_sort 2 F)))%Q /\
  (nth i (variable_crowding st_sort 2 X) 0 < avg (variable_crowding st_sort 2 X))%Q /\
  (nth i (variable_crowding st_sort 2 X) 0 < nth i (objective_crowding st_sort 2 F) 0)%Q /\ nth i c 0%Q = nth i (objective_crowding st_sort 2 F) 0%Q.
Proof.
  exists [[1; 10]; [2; 8]; [4; 6]; [5; 5]; [10; 3]; [11; 2]]%Q, [[4; 9]; [7; 8]; [6; 9]; [0; 7]; [3; 6]; [6; 2]]%Q.
  eexists. exists 1. split; [reflexivity|]. split; [reflexivity|]. split; [reflexivity|]. split; [lia|].
  split; [intros B; destruct (C104_objective_crowding st_sort 2 [[1; 10]; [2; 8]; [4; 6]; [5; 5]; [10; 3]; [11; 2]]%Q st_sort_stable ltac:(lia)) as (_ & _ & O); destruct (O ltac:(cbn; lia) 1 ltac:(cbn; lia)) as [O1 _]; apply O1 in B; vm_compute in B; discriminate|].
  split; [vm_compute; reflexivity|]. split; [vm_compute; reflexivity|]. split; [vm_compute; reflexivity|]. vm_compute. reflexivity.
Qed.
Print Assumptions C104_average_refuted.
