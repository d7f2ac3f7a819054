(** * C50: crowding distance *)
From Coq Require Import List Arith Bool ZArith QArith Lia Lqa Permutation.
From Verif Require Import ListAux M_Individual M_Survival M_RefDirs2 M_Bounds P_Bounds M_Crowding S_Crowding Thm_Decomp.
Import ListNotations.
Local Open Scope nat_scope.

(** contract of np.argsort *)
Definition asort_ok (asort : list Q -> list nat) : Prop := forall v, is_argsort Qltb 0%Q v (asort v).

Lemma index_of_spec i l : In i l -> index_of i l < length l /\ nth (index_of i l) l 0 = i.
Proof.
  induction l as [|x l IH]; intros H; [destruct H|]. cbn [index_of length nth]. destruct (Nat.eqb_spec x i) as [->|Hne]; [split; [lia|auto]|].
  destruct H as [H|H]; [congruence|]. destruct (IH H) as [H1 H2]. split; [lia|auto].
Qed.
Lemma index_of_nth l k : NoDup l -> k < length l -> index_of (nth k l 0) l = k.
Proof.
  intros HN Hk. destruct (index_of_spec (nth k l 0) l (nth_In _ _ Hk)) as [H1 H2]. apply (proj1 (NoDup_nth l 0) HN); auto.
Qed.
Lemma qmin_spec x l : (exists i, i < S (length l) /\ fold_left qmin l x = nth i (x :: l) 0%Q) /\ forall i, i < S (length l) -> (fold_left qmin l x <= nth i (x :: l) 0)%Q.
Proof.
  revert x. induction l as [|y l IH]; intros x; cbn [fold_left length].
  - split; [exists 0; split; [lia|reflexivity]|]. intros [|i] Hi; [apply Qle_refl|lia].
  - destruct (IH (qmin x y)) as [(i & Hi & E) HB]. unfold qmin in *. destruct (Qle_bool x y) eqn:Exy.
    + apply Qle_bool_iff in Exy. split; [destruct i as [|i]; [exists 0; split; [lia|exact E]|exists (S (S i)); split; [lia|exact E]]|].
      intros [|[|k]] Hk; [apply (HB 0); lia| |apply (HB (S k)); lia]. specialize (HB 0 ltac:(lia)). cbn [nth] in *. lra.
    + assert (Hyx : (y <= x)%Q) by (destruct (Qlt_le_dec x y) as [Hl|Hl]; auto; assert (Qle_bool x y = true) by (apply Qle_bool_iff; lra); congruence).
      split; [exists (S i); split; [lia|exact E]|]. intros [|k] Hk; [specialize (HB 0 ltac:(lia)); cbn [nth] in *; lra|]. apply (HB k). lia.
Qed.
Lemma qmin_list_min l : l <> [] -> is_min_of l (qmin_list l).
Proof.
  destruct l as [|x l]; [congruence|]. intros _. cbn [qmin_list]. destruct (qmin_spec x l) as [(i & Hi & E) HB]. split.
  - rewrite E. apply nth_In. exact Hi.
  - intros y Hy. destruct (In_nth _ _ 0%Q Hy) as (k & Hk & <-). apply HB. exact Hk.
Qed.
Lemma qmax_list_max l : l <> [] -> is_max_of l (q_max_list l).
Proof.
  destruct l as [|x l]; [congruence|]. intros _. destruct (q_max_spec x l) as [(i & Hi & E) HB]. split.
  - rewrite E. apply nth_In. exact Hi.
  - intros y Hy. destruct (In_nth _ _ 0%Q Hy) as (k & Hk & <-). apply HB. exact Hk.
Qed.

Section Col.
  Variables (v : list Q) (J : list nat).
  Hypothesis HJ : is_argsort Qltb 0%Q v J.
  Let n := length v.
  Let s := gather 0%Q v J.
  Lemma lenJ : length J = n. Proof. destruct HJ as [H _]. now apply perm_seq_length in H. Qed.
  Lemma lens : length s = n. Proof. unfold s, gather. rewrite map_length. apply lenJ. Qed.
  Lemma s_nth k : k < n -> nth k s 0%Q = nth (nth k J 0) v 0%Q.
  Proof. intros H. unfold s, gather. rewrite (nth_indep _ 0%Q (nth 0 v 0%Q)) by (rewrite map_length, lenJ; auto). apply (map_nth (fun i => nth i v 0%Q)). Qed.
  Lemma s_mono a b : a <= b -> b < n -> (nth a s 0 <= nth b s 0)%Q.
  Proof.
    intros Hab Hb. destruct (Nat.eq_dec a b) as [->|Hne]; [apply Qle_refl|]. rewrite !s_nth by lia. destruct HJ as [_ H]. apply Qltb_false. apply H; [lia|rewrite lenJ; auto].
  Qed.
  Lemma NDJ : NoDup J. Proof. destruct HJ as [H _]. eapply Permutation_NoDup; [symmetry; exact H|apply seq_NoDup]. Qed.
  Lemma s_in x : In x v <-> exists k, k < n /\ x = nth k s 0%Q.
  Proof.
    destruct HJ as [HP _]. split.
    - intros H. destruct (In_nth _ _ 0%Q H) as (i & Hi & <-). assert (Hin : In i J) by (eapply Permutation_in; [symmetry; exact HP|apply in_seq; lia]).
      destruct (index_of_spec i J Hin) as [H1 H2]. rewrite lenJ in H1. exists (index_of i J). split; auto. rewrite s_nth, H2; auto.
    - intros (k & Hk & ->). rewrite s_nth by auto. apply nth_In. assert (In (nth k J 0) J) by (apply nth_In; rewrite lenJ; auto). eapply Permutation_in in H; [|exact HP]. apply in_seq in H. lia.
  Qed.
  Lemma s_pos i : i < n -> index_of i J < n /\ nth (index_of i J) s 0%Q = nth i v 0%Q.
  Proof.
    intros Hi. destruct HJ as [HP _]. assert (Hin : In i J) by (eapply Permutation_in; [symmetry; exact HP|apply in_seq; unfold n in Hi; lia]). destruct (index_of_spec i J Hin) as [H1 H2].
    rewrite lenJ in H1. split; auto. rewrite s_nth, H2; auto.
  Qed.
  Lemma s_min_of x : is_min_of s x <-> is_min_of v x.
  Proof.
    unfold is_min_of. assert (HI : forall y, In y s <-> In y v).
    { intros y. rewrite s_in. split; [intros H; destruct (In_nth _ _ 0%Q H) as (k & Hk & E); rewrite lens in Hk; eauto|intros (k & Hk & ->); apply nth_In; rewrite lens; auto]. }
    rewrite HI. split; intros [H1 H2]; split; auto; intros y Hy; apply H2, HI; auto.
  Qed.
  Lemma s_max_of x : is_max_of s x <-> is_max_of v x.
  Proof.
    unfold is_max_of. assert (HI : forall y, In y s <-> In y v).
    { intros y. rewrite s_in. split; [intros H; destruct (In_nth _ _ 0%Q H) as (k & Hk & E); rewrite lens in Hk; eauto|intros (k & Hk & ->); apply nth_In; rewrite lens; auto]. }
    rewrite HI. split; intros [H1 H2]; split; auto; intros y Hy; apply H2, HI; auto.
  Qed.
  (** first and last position in the order *)
  Lemma contribution_ends i : i < n -> (exists x y, In x v /\ In y v /\ ~ x == y)%Q -> index_of i J = 0 \/ index_of i J = n - 1 -> contribution J v i = PInf.
  Proof.
    intros Hi (x & y & Hx & Hy & Hne) HE. unfold contribution. fold s.
    assert (Hs : s <> []) by (intros E; pose proof lens; rewrite E in H; cbn in H; lia).
    assert (E0 : Qeq_bool (q_max_list s - qmin_list s) 0 = false).
    { destruct (Qeq_bool (q_max_list s - qmin_list s) 0) eqn:E; auto. apply Qeq_bool_iff in E. exfalso.
      destruct (proj1 (s_min_of _) (qmin_list_min s Hs)) as [_ HL]. destruct (proj1 (s_max_of _) (qmax_list_max s Hs)) as [_ HM].
      pose proof (HL x Hx). pose proof (HL y Hy). pose proof (HM x Hx). pose proof (HM y Hy). apply Hne. lra. }
    rewrite E0. destruct HE as [->|HE]; [reflexivity|]. unfold gap at 2. rewrite lens. replace (n <=? S (index_of i J)) with true by (symmetry; apply Nat.leb_le; lia). rewrite orb_true_r.
    destruct (gap s (index_of i J)); reflexivity.
  Qed.
  Hypothesis HD : distinct v.
  Hypothesis Hn : 2 <= n.
  Lemma s_strict a b : a < b -> b < n -> (nth a s 0 < nth b s 0)%Q.
  Proof.
    intros Hab Hb. pose proof (s_mono a b ltac:(lia) Hb) as H. rewrite !s_nth in * by lia. destruct HJ as [HP _].
    assert (HB : forall k, k < n -> nth k J 0 < length v) by (intros k Hk; assert (Hin : In (nth k J 0) J) by (apply nth_In; rewrite lenJ; auto); eapply Permutation_in in Hin; [|exact HP]; apply in_seq in Hin; lia).
    destruct (Qlt_le_dec (nth (nth a J 0) v 0%Q) (nth (nth b J 0) v 0%Q)) as [H'|H']; auto. exfalso.
    assert (E : nth a J 0 = nth b J 0) by (apply HD; [apply HB; lia|apply HB; lia|lra]). apply (proj1 (NoDup_nth J 0) NDJ) in E; rewrite ?lenJ; lia.
  Qed.
  Lemma side_ok i : i < n -> side v (nth i v 0%Q) (contribution J v i).
  Proof.
    intros Hi. destruct (s_pos i Hi) as [Hk Ek]. set (k := index_of i J) in *.
    assert (Hmin : is_min_of v (nth i v 0%Q) <-> k = 0).
    { rewrite <- Ek. split.
      - intros [_ H]. destruct (Nat.eq_dec k 0); auto. exfalso. pose proof (s_strict 0 k ltac:(lia) Hk) as HH. specialize (H (nth 0 s 0%Q)). rewrite s_in in H. specialize (H ltac:(exists 0; split; [lia|auto])). lra.
      - intros E. split; [apply s_in; eauto|]. intros y Hy. apply s_in in Hy as (k' & Hk' & ->). apply s_mono; lia. }
    assert (Hmax : is_max_of v (nth i v 0%Q) <-> k = n - 1).
    { rewrite <- Ek. split.
      - intros [_ H]. destruct (Nat.eq_dec k (n - 1)); auto. exfalso. pose proof (s_strict k (n - 1) ltac:(lia) ltac:(lia)) as HH. specialize (H (nth (n - 1) s 0%Q)). rewrite s_in in H. specialize (H ltac:(exists (n - 1); split; [lia|auto])). lra.
      - intros E. split; [apply s_in; eauto|]. intros y Hy. apply s_in in Hy as (k' & Hk' & ->). apply s_mono; lia. }
    assert (Hnc : (exists x y, In x v /\ In y v /\ ~ x == y)%Q).
    { exists (nth 0 s 0%Q), (nth 1 s 0%Q). rewrite !s_in. split; [exists 0; split; [lia|auto]|]. split; [exists 1; split; [lia|auto]|]. pose proof (s_strict 0 1 ltac:(lia) ltac:(lia)). lra. }
    split.
    - intros H. apply contribution_ends; auto. fold k. destruct H as [H|H]; [left; now apply Hmin|right; now apply Hmax].
    - intros H1 H2. assert (k <> 0) by (intros E; apply H1, Hmin, E). assert (k <> n - 1) by (intros E; apply H2, Hmax, E).
      assert (Hs : s <> []) by (intros E; pose proof lens as HL; rewrite E in HL; cbn in HL; lia).
      exists (nth (k - 1) s 0%Q), (nth (S k) s 0%Q), (qmin_list s), (q_max_list s). eexists. rewrite <- Ek.
      split; [|split; [|split; [|split; [|split]]]].
      + split; [apply s_in; exists (k - 1); split; [lia|auto]|]. split; [apply s_strict; lia|]. intros y Hy Hlt. apply s_in in Hy as (k' & Hk' & ->). apply s_mono; [|lia]. destruct (le_lt_dec k' (k - 1)); auto. exfalso. pose proof (s_mono k k' ltac:(lia) Hk'). lra.
      + split; [apply s_in; exists (S k); split; [lia|auto]|]. split; [apply s_strict; lia|]. intros y Hy Hlt. apply s_in in Hy as (k' & Hk' & ->). apply s_mono; [|lia]. destruct (le_lt_dec (S k) k'); auto. exfalso. pose proof (s_mono k' k ltac:(lia) Hk). lra.
      + apply s_min_of, qmin_list_min, Hs.
      + apply s_max_of, qmax_list_max, Hs.
      + unfold contribution. fold s k.
        assert (E0 : Qeq_bool (q_max_list s - qmin_list s) 0 = false).
        { destruct (Qeq_bool (q_max_list s - qmin_list s) 0) eqn:E; auto. apply Qeq_bool_iff in E. exfalso. destruct Hnc as (x & y & Hx & Hy & Hne).
          destruct (proj1 (s_min_of _) (qmin_list_min s Hs)) as [_ HL]. destruct (proj1 (s_max_of _) (qmax_list_max s Hs)) as [_ HM].
          pose proof (HL x Hx). pose proof (HL y Hy). pose proof (HM x Hx). pose proof (HM y Hy). apply Hne. lra. }
        rewrite E0. unfold gap. rewrite lens. replace (k =? 0) with false by (symmetry; apply Nat.eqb_neq; auto). replace (n <=? k) with false by (symmetry; apply Nat.leb_gt; auto).
        replace (S k =? 0) with false by reflexivity. replace (n <=? S k) with false by (symmetry; apply Nat.leb_gt; lia). cbn [orb xdiv xadd]. reflexivity.
      + cbn beta. replace (S k - 1) with k by lia. unfold Qdiv. ring.
  Qed.
End Col.

(** the wrapper *)
Lemma scatter_seq {A} (d : list A) (acc : list A) : length d = length acc -> fold_left (fun acc p => upd acc (fst p) (snd p)) (combine (seq 0 (length d)) d) acc = d.
Proof.
  intros HL. assert (HG : forall a b (pre : list A), length a = length b -> fold_left (fun acc p => upd acc (fst p) (snd p)) (combine (seq (length pre) (length a)) a) (pre ++ b) = pre ++ a).
  { induction a as [|x a IH]; intros [|y b] pre H; try discriminate; auto. cbn [length seq combine fold_left fst snd].
    assert (E : upd (pre ++ y :: b) (length pre) x = (pre ++ [x]) ++ b) by (clear; induction pre; cbn; congruence). rewrite E. specialize (IH b (pre ++ [x]) ltac:(now injection H)).
    rewrite app_length in IH. cbn [length] in IH. replace (length pre + 1) with (S (length pre)) in IH by lia. rewrite IH, <- app_assoc. reflexivity. }
  apply (HG d acc [] HL).
Qed.
Lemma cd_eq asort m F : 2 < length F -> cd asort m F = calc_crowding_distance asort m F.
Proof.
  intros H. unfold cd, functional_diversity. replace (length F <=? 2) with false by (symmetry; apply Nat.leb_gt; lia). rewrite gather_seq.
  assert (HL : length (calc_crowding_distance asort m F) = length F) by (unfold calc_crowding_distance; now rewrite map_length, seq_length).
  rewrite <- HL at 1. apply scatter_seq. now rewrite repeat_length.
Qed.
Lemma cd_nth asort m F i d : 2 < length F -> i < length F -> nth i (cd asort m F) d =
  xdiv (fold_right xadd (Fin 0) (map (fun j => contribution (asort (colF j F)) (colF j F) i) (seq 0 m))) (inject_Z (Z.of_nat m)).
Proof.
  intros H Hi. rewrite cd_eq by auto. unfold calc_crowding_distance.
  set (f := fun i => xdiv (fold_right xadd (Fin 0) (map (fun j => contribution (asort (colF j F)) (colF j F) i) (seq 0 m))) (inject_Z (Z.of_nat m))).
  rewrite (nth_indep _ d (f 0)) by (now rewrite map_length, seq_length). rewrite (map_nth f), seq_nth by auto. reflexivity.
Qed.
Lemma fold_total c : match total c with None => fold_right xadd (Fin 0) c = PInf | Some t => exists q, fold_right xadd (Fin 0) c = Fin q /\ (q == t)%Q end.
Proof.
  induction c as [|[q|] c IH]; cbn [total fold_right]; [exists 0%Q; split; [auto|reflexivity]| |reflexivity].
  destruct (total c) as [t|]; cbn [option_map].
  - destruct IH as (r & -> & Hr). exists (q + r)%Q. split; auto. now rewrite Hr.
  - rewrite IH. reflexivity.
Qed.
Lemma mean_ok c : mean_of c (xdiv (fold_right xadd (Fin 0) c) (inject_Z (Z.of_nat (length c)))).
Proof.
  unfold mean_of. pose proof (fold_total c) as H. destruct (total c) as [t|].
  - destruct H as (q & -> & Hq). exists (q / inject_Z (Z.of_nat (length c)))%Q. split; auto. now rewrite Hq.
  - rewrite H. reflexivity.
Qed.

(** values of objective [j] *)
Definition objective (j : nat) (F : list (list Q)) : list Q := map (fun r => nth j r 0%Q) F.
Lemma obj_nth j F i : i < length F -> nth i (objective j F) 0%Q = nth j (nth i F []) 0%Q.
Proof. intros H. unfold objective. rewrite (nth_indep _ 0%Q (nth j (@nil Q) 0%Q)) by (now rewrite map_length). apply (map_nth (fun r => nth j r 0%Q)). Qed.

(** C50: three or more points, distinct values in every objective: the mean over the objectives of the normalised gap between the neighbours, infinite at
    an extreme; at most two points: all infinite *)
Theorem C50_value : forall asort m F, asort_ok asort ->
  length (cd asort m F) = length F /\
  (length F <= 2 -> forall i, i < length F -> nth i (cd asort m F) (Fin 0) = PInf) /\
  (3 <= length F -> (forall j, j < m -> distinct (objective j F)) -> forall i, i < length F ->
     exists c, length c = m /\ (forall j, j < m -> side (objective j F) (nth j (nth i F []) 0%Q) (nth j c PInf)) /\ mean_of c (nth i (cd asort m F) (Fin 0))).
Proof.
  intros asort m F HA. split; [|split].
  - destruct (le_lt_dec (length F) 2) as [H|H]; [unfold cd, functional_diversity; replace (length F <=? 2) with true by (symmetry; apply Nat.leb_le; lia); apply repeat_length|]. rewrite cd_eq by auto. unfold calc_crowding_distance. now rewrite map_length, seq_length.
  - intros H i Hi. unfold cd, functional_diversity. replace (length F <=? 2) with true by (symmetry; now apply Nat.leb_le). rewrite (nth_indep _ (Fin 0) PInf) by (now rewrite repeat_length). apply nth_repeat.
  - intros H HD i Hi. exists (map (fun j => contribution (asort (colF j F)) (colF j F) i) (seq 0 m)). split; [now rewrite map_length, seq_length|]. split.
    + intros j Hj. set (f := fun j => contribution (asort (colF j F)) (colF j F) i). rewrite (nth_indep _ PInf (f 0)) by (now rewrite map_length, seq_length). rewrite (map_nth f), seq_nth by auto. cbn [Nat.add]. unfold f.
      rewrite <- obj_nth by auto. apply side_ok; [apply HA|apply HD; auto|unfold colF; rewrite map_length; lia|unfold colF; now rewrite map_length].
    + rewrite cd_nth by lia. assert (E : length (map (fun j => contribution (asort (colF j F)) (colF j F) i) (seq 0 m)) = m) by (now rewrite map_length, seq_length). rewrite <- E at 3. apply mean_ok.
Qed.
Print Assumptions C50_value.

(** C50: equal values allowed.  For every objective that is not constant, one of the points with the smallest value and one with the largest have infinite distance *)
Theorem C50_extremes : forall asort m F j, asort_ok asort -> j < m -> 3 <= length F -> (exists x y, In x (objective j F) /\ In y (objective j F) /\ ~ x == y)%Q ->
  (exists i, i < length F /\ is_min_of (objective j F) (nth j (nth i F []) 0%Q) /\ nth i (cd asort m F) (Fin 0) = PInf) /\
  (exists i, i < length F /\ is_max_of (objective j F) (nth j (nth i F []) 0%Q) /\ nth i (cd asort m F) (Fin 0) = PInf).
Proof.
  intros asort m F j HA Hj Hn Hnc. set (v := objective j F) in *. assert (Hv : length v = length F) by (unfold v, objective; apply map_length).
  pose proof (HA v) as HJ. set (J := asort v) in *. pose proof (lenJ v J HJ) as HL. pose proof (NDJ v J HJ) as HN.
  assert (HB : forall k, k < length v -> nth k J 0 < length v) by (intros k Hk; destruct HJ as [HP _]; assert (Hin : In (nth k J 0) J) by (apply nth_In; lia); eapply Permutation_in in Hin; [|exact HP]; apply in_seq in Hin; lia).
  assert (HInf : forall i, i < length F -> contribution J v i = PInf -> nth i (cd asort m F) (Fin 0) = PInf).
  { intros i Hi HC. rewrite cd_nth by lia. assert (HF : forall l, In j l -> fold_right xadd (Fin 0) (map (fun j => contribution (asort (colF j F)) (colF j F) i) l) = PInf); [|rewrite HF; [reflexivity|apply in_seq; lia]].
    induction l as [|a l IH]; intros Hin; [destruct Hin|]. cbn [map fold_right]. destruct Hin as [->|Hin].
    - change (contribution (asort (colF j F)) (colF j F) i) with (contribution J v i). rewrite HC. reflexivity.
    - rewrite (IH Hin). destruct (contribution (asort (colF a F)) (colF a F) i); reflexivity. }
  split.
  - exists (nth 0 J 0). specialize (HB 0 ltac:(lia)). split; [lia|]. split.
    + rewrite <- obj_nth by lia. fold v. rewrite <- (s_nth v J HJ 0) by lia. split; [apply (s_in v J HJ); exists 0; split; [lia|auto]|]. intros y Hy. apply (s_in v J HJ) in Hy as (k & Hk & ->). apply s_mono; auto; lia.
    + apply HInf; [lia|]. apply contribution_ends; auto. left. apply index_of_nth; auto. lia.
  - exists (nth (length v - 1) J 0). specialize (HB (length v - 1) ltac:(lia)). split; [lia|]. split.
    + rewrite <- obj_nth by lia. fold v. rewrite <- (s_nth v J HJ (length v - 1)) by lia. split; [apply (s_in v J HJ); exists (length v - 1); split; [lia|auto]|]. intros y Hy. apply (s_in v J HJ) in Hy as (k & Hk & ->). apply s_mono; auto; lia.
    + apply HInf; [lia|]. apply contribution_ends; auto. right. apply index_of_nth; auto. lia.
Qed.
Print Assumptions C50_extremes.

Lemma is_min_dec l v : is_min_of l v \/ ~ is_min_of l v.
Proof.
  destruct (in_dec (fun a b : Q => ltac:(decide equality; [apply Pos.eq_dec|apply Z.eq_dec])) v l) as [Hin|Hn]; [|right; intros [H _]; auto].
  destruct (forallb (Qle_bool v) l) eqn:E.
  - left. split; auto. rewrite forallb_forall in E. intros y Hy. apply Qle_bool_iff, E, Hy.
  - right. intros [_ H]. assert (forallb (Qle_bool v) l = true) by (apply forallb_forall; intros y Hy; apply Qle_bool_iff, H, Hy). congruence.
Qed.
Lemma is_max_dec l v : is_max_of l v \/ ~ is_max_of l v.
Proof.
  destruct (in_dec (fun a b : Q => ltac:(decide equality; [apply Pos.eq_dec|apply Z.eq_dec])) v l) as [Hin|Hn]; [|right; intros [H _]; auto].
  destruct (forallb (fun y => Qle_bool y v) l) eqn:E.
  - left. split; auto. rewrite forallb_forall in E. intros y Hy. apply Qle_bool_iff. apply (E y Hy).
  - right. intros [_ H]. assert (forallb (fun y => Qle_bool y v) l = true) by (apply forallb_forall; intros y Hy; apply Qle_bool_iff, H, Hy). congruence.
Qed.
Lemma side_unique l l' v c c' : (forall x, In x l <-> In x l') -> side l v c -> side l' v c' -> xeq c c'.
Proof.
  intros HE [H1 H2] [H1' H2']. assert (Emin : forall x, is_min_of l x <-> is_min_of l' x) by (intros x; unfold is_min_of; rewrite HE; split; intros [A B]; split; auto; intros y Hy; apply B, HE, Hy).
  assert (Emax : forall x, is_max_of l x <-> is_max_of l' x) by (intros x; unfold is_max_of; rewrite HE; split; intros [A B]; split; auto; intros y Hy; apply B, HE, Hy).
  destruct (is_min_dec l v) as [Hm|Hm]; [rewrite (H1 (or_introl Hm)), (H1' (or_introl (proj1 (Emin _) Hm))); exact I|]. destruct (is_max_dec l v) as [HM|HM]; [rewrite (H1 (or_intror HM)), (H1' (or_intror (proj1 (Emax _) HM))); exact I|].
  destruct (H2 Hm HM) as (p & s & lo & hi & q & [P1 [P2 P3]] & [S1 [S2 S3]] & [L1 L2] & [M1 M2] & -> & Hq).
  destruct (H2' (fun X => Hm (proj2 (Emin _) X)) (fun X => HM (proj2 (Emax _) X))) as (p' & s' & lo' & hi' & q' & [P1' [P2' P3']] & [S1' [S2' S3']] & [L1' L2'] & [M1' M2'] & -> & Hq').
  assert (Ep : (p == p')%Q) by (apply HE in P1 as P1x; apply HE in P1' as P1y; pose proof (P3 p' P1y P2'); pose proof (P3' p P1x P2); lra).
  assert (Es : (s == s')%Q) by (apply HE in S1 as S1x; apply HE in S1' as S1y; pose proof (S3 s' S1y S2'); pose proof (S3' s S1x S2); lra).
  assert (El : (lo == lo')%Q) by (apply HE in L1 as L1x; apply HE in L1' as L1y; pose proof (L2 lo' L1y); pose proof (L2' lo L1x); lra).
  assert (Eh : (hi == hi')%Q) by (apply HE in M1 as M1x; apply HE in M1' as M1y; pose proof (M2 hi' M1y); pose proof (M2' hi M1x); lra).
  cbn [xeq]. rewrite Hq, Hq', Ep, Es, El, Eh. reflexivity.
Qed.
Lemma mean_unique c c' x x' : Forall2 xeq c c' -> mean_of c x -> mean_of c' x' -> xeq x x'.
Proof.
  intros HF. unfold mean_of. assert (HL : length c = length c') by (eapply Thm_Decomp.Forall2_length; eauto). rewrite HL.
  assert (HT : match total c, total c' with Some a, Some b => (a == b)%Q | None, None => True | _, _ => False end).
  { clear HL. induction HF as [|a b c c' Hab HF IH]; cbn [total]; [reflexivity|]. destruct a, b; cbn in Hab; try contradiction; [|exact I].
    destruct (total c), (total c'); cbn; try contradiction; auto. now rewrite Hab, IH. }
  destruct (total c), (total c'); try contradiction.
  - intros (a & -> & Ha) (b & -> & Hb). cbn. rewrite Ha, Hb, HT. reflexivity.
  - intros -> ->. exact I.
Qed.
(** C50: with distinct values in every objective, listing the points in another order only reorders the distances *)
Theorem C50_order : forall asort asort' m F P, asort_ok asort -> asort_ok asort' -> Permutation P (seq 0 (length F)) -> (forall j, j < m -> distinct (objective j F)) ->
  forall i, i < length F -> xeq (nth i (cd asort' m (gather [] F P)) (Fin 0)) (nth (nth i P 0) (cd asort m F) (Fin 0)).
Proof.
  intros asort asort' m F P HA HA' HP HD i Hi. set (G := gather [] F P). pose proof (perm_seq_length _ _ HP) as HLP. assert (HG : length G = length F) by (unfold G, gather; rewrite map_length; auto).
  assert (HB : forall k, k < length F -> nth k P 0 < length F) by (intros k Hk; assert (Hin : In (nth k P 0) P) by (apply nth_In; lia); eapply Permutation_in in Hin; [|exact HP]; apply in_seq in Hin; lia).
  assert (HN : forall k, k < length F -> nth k G [] = nth (nth k P 0) F []).
  { intros k Hk. unfold G, gather. rewrite (nth_indep _ [] (nth 0 F [])) by (rewrite map_length; lia). apply (map_nth (fun i => nth i F [])). }
  destruct (C50_value asort m F HA) as (_ & V1 & V2). destruct (C50_value asort' m G HA') as (_ & V1' & V2').
  destruct (le_lt_dec (length F) 2) as [Hs|Hb].
  - rewrite V1' by (rewrite ?HG; auto). rewrite V1 by auto. exact I.
  - assert (HPN : NoDup P) by (eapply Permutation_NoDup; [symmetry; exact HP|apply seq_NoDup]).
    assert (HO : forall j k, k < length F -> nth k (objective j G) 0%Q = nth (nth k P 0) (objective j F) 0%Q) by (intros j k Hk; rewrite !obj_nth by (rewrite ?HG; auto); now rewrite HN).
    assert (HD' : forall j, j < m -> distinct (objective j G)).
    { intros j Hj a b Ha Hb' E. assert (HLo : length (objective j G) = length F) by (unfold objective; now rewrite map_length). rewrite HLo in *. rewrite !HO in E by auto.
      apply HD in E; auto; [|unfold objective; rewrite map_length; auto..]. apply (proj1 (NoDup_nth P 0) HPN) in E; lia. }
    destruct (V2 ltac:(lia) HD (nth i P 0) (HB i Hi)) as (c & Hc & Hs & Hm). destruct (V2' ltac:(lia) HD' i ltac:(lia)) as (c' & Hc' & Hs' & Hm').
    eapply mean_unique; [|exact Hm'|exact Hm]. assert (HI : forall j, j < m -> forall x, In x (objective j G) <-> In x (objective j F)).
    { intros j Hj x. assert (HPm : Permutation (objective j G) (objective j F)); [|split; apply Permutation_in; [auto|symmetry; auto]]. unfold objective. apply Permutation_map. unfold G.
      transitivity (gather [] F (seq 0 (length F))); [unfold gather; apply Permutation_map, HP|rewrite gather_seq; auto]. }
    assert (HK : forall j, j < m -> xeq (nth j c' PInf) (nth j c PInf)).
    { intros j Hj. eapply side_unique; [apply (HI j Hj)|apply Hs'; auto|]. rewrite HN by auto. apply Hs; auto. }
    clear -Hc Hc' HK. revert c' m Hc Hc' HK. induction c as [|a c IH]; intros [|b c'] m Hc Hc' HK; cbn in *; try lia; constructor; [apply (HK 0); lia|]. apply (IH c' (length c)); try lia. intros j Hj. apply (HK (S j)). lia.
Qed.
Print Assumptions C50_order.

(** with equal values the claim fails: which of two equal extreme points gets the infinite distance depends on the order *)
Definition st_sort (v : list Q) : list nat := argsort Qltb 0%Q v.
Lemma st_sort_ok : asort_ok st_sort.
Proof.
  intros v. apply argsort_is_argsort.
  - intros x y H. apply Qltb_iff in H. apply Qltb_false. lra.
  - intros x y z _ _ _ H1 H2. apply Qltb_false in H1. apply Qltb_false in H2. apply Qltb_false. lra.
Qed.
Theorem C50_ties_refuted :
  ~ (forall asort m F P, asort_ok asort -> Permutation P (seq 0 (length F)) -> forall i, i < length F -> xeq (nth i (cd asort m (gather [] F P)) (Fin 0)) (nth (nth i P 0) (cd asort m F) (Fin 0))).
Proof.
  intros H. specialize (H st_sort 1 [[1]; [1]; [2]; [3]]%Q [1; 0; 2; 3] st_sort_ok ltac:(apply perm_swap) 0 ltac:(cbn; lia)). vm_compute in H. exact H.
Qed.
Print Assumptions C50_ties_refuted.

(** C50: the other crowding functions are applied to the points that are not flagged as duplicates; duplicates get 0 *)
Theorem C50_duplicates : forall function dup F, 3 <= length F -> (forall G, length (function G) = length G) ->
  let U := where_ (fun i => negb (nth i (dup F) false)) (length F) in
  length (functional_diversity function true dup F) = length F /\
  (forall i, i < length F -> nth i (dup F) false = true -> nth i (functional_diversity function true dup F) PInf = Fin 0) /\
  (forall k, k < length U -> nth (nth k U 0) (functional_diversity function true dup F) PInf = nth k (function (gather [] F U)) PInf).
Proof.
  intros function dup F Hn HL U. unfold functional_diversity. replace (length F <=? 2) with false by (symmetry; apply Nat.leb_gt; lia). fold U. set (d := function (gather [] F U)).
  assert (Hd : length d = length U) by (unfold d; rewrite HL; unfold gather; apply map_length).
  assert (HU : forall i, In i U -> i < length F /\ nth i (dup F) false = false) by (intros i Hi; apply In_where in Hi as [H1 H2]; split; auto; now apply negb_true_iff).
  assert (HN : NoDup U) by apply NoDup_where.
  assert (HS : forall (K : list nat) (e acc : list xq), NoDup K -> length e = length K -> Forall (fun i => i < length acc) K ->
     let r := fold_left (fun acc p => upd acc (fst p) (snd p)) (combine K e) acc in
     length r = length acc /\ (forall i, ~ In i K -> nth i r PInf = nth i acc PInf) /\ (forall k, k < length K -> nth (nth k K 0) r PInf = nth k e PInf)).
  { induction K as [|a K IH]; intros e acc HND He HF; destruct e as [|x e]; try discriminate; cbn [combine fold_left fst snd]; [split; [auto|split; [auto|intros k Hk; cbn in Hk; lia]]|].
    inversion HND; subst. inversion HF; subst. destruct (IH e (upd acc a x) H2 ltac:(now injection He) ltac:(rewrite length_upd; auto)) as (I1 & I2 & I3). rewrite length_upd in I1. split; auto. split.
    - intros i Hi. rewrite I2 by (intros Hf; apply Hi; cbn; auto). apply nth_upd_neq. intros ->. apply Hi; cbn; auto.
    - intros [|k] Hk; cbn [nth length] in *; [|apply I3; lia]. rewrite I2 by auto. apply nth_upd_eq; auto. }
  destruct (HS U d (repeat (Fin 0) (length F)) HN Hd ltac:(apply Forall_forall; intros i Hi; rewrite repeat_length; now apply HU)) as (S1 & S2 & S3). rewrite repeat_length in S1. split; auto. split; [|auto].
  intros i Hi Hdup. rewrite S2 by (intros Hf; apply HU in Hf as [_ Hf]; congruence). rewrite (nth_indep _ PInf (Fin 0)) by (now rewrite repeat_length). apply nth_repeat.
Qed.
Print Assumptions C50_duplicates.

Example C50_case : asort_ok st_sort /\ distinct (objective 0 [[1; 9]; [2; 5]; [4; 1]; [3; 4]]%Q) /\ map (fun x => match x with Fin q => Some (Qred q) | PInf => None end) (cd st_sort 2 [[1; 9]; [2; 5]; [4; 1]; [3; 4]]%Q) = [None; Some (31 # 48); None; Some (7 # 12)]%Q.
Proof.
  split; [apply st_sort_ok|]. split; [|vm_compute; reflexivity]. intros i j Hi Hj E. cbn in Hi, Hj. destruct i as [|[|[|[|i]]]]; destruct j as [|[|[|[|j]]]]; try lia; vm_compute in E; discriminate.
Qed.
