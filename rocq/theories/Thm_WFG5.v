(** * C116: the transformed vectors of WFG1-WFG9 *)
From Coq Require Import Reals List Arith ZArith Lra Lia Psatz.
From Verif Require Import ListAux M_NSGA3R M_Bench M_RealOps P_RealOps M_DTLZ M_DF S_Bench Thm_Bench Thm_Bench2 Thm_DTLZ Thm_DF Thm_DF2 M_WFG Thm_WFG Thm_WFG2 Thm_WFG3 Thm_WFG4.
Import ListNotations.
Local Open Scope R_scope.

(** ** slices *)
Lemma slice_len {A} a b (x : list A) : (b <= length x)%nat -> length (slice a b x) = (b - a)%nat.
Proof. intros H. unfold slice. rewrite firstn_length, skipn_length. lia. Qed.
Lemma units_slice a b x : units x -> units (slice a b x).
Proof. intros H. now apply units_firstn, units_skipn. Qed.
Lemma map2_same {A B C D} (f : B -> C -> D) (g : A -> B) (h : A -> C) l : map2 f (map g l) (map h l) = map (fun a => f (g a) (h a)) l.
Proof. induction l as [|a l IH]; cbn [map map2]; congruence. Qed.
Lemma uniform_unit' l : units l -> unit_ (weighted_sum_uniform l).
Proof.
  intros H. destruct l as [|a l]; [|apply uniform_unit; auto; cbn; lia]. unfold weighted_sum_uniform, mean. cbn [length INR]. change (rsum []) with 0. unfold Rdiv. rewrite Rmult_0_l. rewrite correct_id; split; lra.
Qed.

Section Valid.
  Variable even : bool.
  Variable p : params.
  Hypothesis HV : valid_params even p.
  Let M := (n_obj p - 1)%nat.
  Let gap := (k_pos p / (n_obj p - 1))%nat.
  Let l := (n_var p - k_pos p)%nat.
  Lemma val_M : (1 <= M)%nat /\ n_obj p = S M.
  Proof. destruct HV as (H & _). unfold M. lia. Qed.
  Lemma val_k : k_pos p = (M * gap)%nat /\ (1 <= gap)%nat.
  Proof.
    destruct HV as (H & D & K & _). assert (E : k_pos p = (M * gap)%nat) by (unfold M, gap; apply Nat.div_exact; [lia|exact D]). split; auto. assert (gap <> 0%nat) by (intros Z; rewrite Z, Nat.mul_0_r in E; lia). lia.
  Qed.
  Lemma val_l : (1 <= l)%nat /\ n_var p = (k_pos p + l)%nat.
  Proof. destruct HV as (_ & _ & _ & L & _). unfold l. lia. Qed.
  Lemma group_bound m : (1 <= m <= M)%nat -> ((m - 1) * gap <= m * gap <= k_pos p)%nat /\ (m * gap - (m - 1) * gap = gap)%nat.
  Proof. intros H. pose proof val_k as [E G]. split; [rewrite E; split; apply Nat.mul_le_mono_r; lia|]. rewrite <- Nat.mul_sub_distr_r. replace (m - (m - 1))%nat with 1%nat by lia. lia. Qed.
  Lemma reduce_groups (f : list R -> R) x : units x -> (k_pos p <= length x)%nat -> (forall g, units g -> length g = gap -> unit_ (f g)) -> units (map f (groups p x)) /\ length (map f (groups p x)) = M.
  Proof.
    intros H L F. split.
    - apply Forall_forall. intros v HVv. apply in_map_iff in HVv as (g & <- & HG). unfold groups in HG. fold M gap in HG. apply in_map_iff in HG as (m & <- & HM). apply in_seq in HM. destruct (group_bound m ltac:(lia)) as [B1 B2].
      apply F; [now apply units_slice|]. rewrite slice_len by (eapply Nat.le_trans; [apply B1|exact L]). exact B2.
    - unfold groups. now rewrite !map_length, seq_length.
  Qed.
  (** a reduced vector: M position values and a distance value *)
  Definition reduced (t : list R) : Prop := exists z d, t = z ++ [d] /\ length z = M /\ units z /\ unit_ d.
  Lemma tail_len (x : list R) : length x = n_var p -> length (skipn (k_pos p) x) = l.
  Proof. intros H. rewrite skipn_length, H. reflexivity. Qed.
  Lemma halves_units k f x : (forall v, unit_ v -> unit_ (f v)) -> units x -> units (firstn k x ++ map f (skipn k x)).
  Proof. intros F H. apply Forall_app. split; [now apply units_firstn|now apply units_map, units_skipn]. Qed.
  Lemma halves_len {A} k (f : A -> A) (x : list A) : length (firstn k x ++ map f (skipn k x)) = length x.
  Proof. rewrite app_length, map_length, <- app_length, firstn_skipn. reflexivity. Qed.
  Lemma w_pos n : Forall (fun v => 0 < v) (map (fun i => 2 * INR (i + 1)) (seq 0 n)).
  Proof. apply Forall_forall. intros v H. apply in_map_iff in H as (i & <- & _). pose proof (lt_0_INR (i + 1) ltac:(lia)). lra. Qed.
  Lemma Forall_firstn' {A} (P : A -> Prop) n x : Forall P x -> Forall P (firstn n x).
  Proof. intros H. rewrite Forall_forall in *. intros v HI. apply H. rewrite <- (firstn_skipn n x). apply in_or_app. auto. Qed.
  Lemma Forall_skipn' {A} (P : A -> Prop) n x : Forall P x -> Forall P (skipn n x).
  Proof. intros H. rewrite Forall_forall in *. intros v HI. apply H. rewrite <- (firstn_skipn n x). apply in_or_app. auto. Qed.

  Lemma w1_t4_reduced x : units x -> length x = n_var p -> reduced (w1_t4 p x).
  Proof.
    intros H L. pose proof val_l as [L1 L2]. set (w := map (fun i => 2 * INR (i + 1)) (seq 0 (n_var p))). assert (WL : length w = n_var p) by (unfold w; now rewrite map_length, seq_length). assert (WP := w_pos (n_var p)). fold w in WP.
    exists (map2 weighted_sum (groups p x) (groups p w)), (weighted_sum (skipn (k_pos p) x) (skipn (k_pos p) w)). split; [reflexivity|]. unfold groups. rewrite map2_same. split; [now rewrite map_length, seq_length|]. split.
    - apply Forall_forall. intros v HVv. apply in_map_iff in HVv as (m & <- & HM). apply in_seq in HM. fold M in HM. fold M gap. destruct (group_bound m ltac:(lia)) as [B1 B2]. pose proof val_k as [_ G].
      apply weighted_unit; [unfold slice; now apply Forall_firstn', Forall_skipn'|now apply units_slice| |].
      + rewrite (slice_len _ _ x), (slice_len _ _ w); auto; [rewrite WL|rewrite L]; rewrite L2; eapply Nat.le_trans; [apply B1|lia|apply B1|lia].
      + rewrite slice_len; [change (1 <= m * gap - (m - 1) * gap)%nat; rewrite B2; exact G|]. rewrite WL, L2. eapply Nat.le_trans; [apply B1|lia].
    - apply weighted_unit; [now apply Forall_skipn'|now apply units_skipn| |]; rewrite !tail_len by auto; lia.
  Qed.
  Lemma w4_t2_reduced x : units x -> length x = n_var p -> reduced (w4_t2 p x).
  Proof.
    intros H L. pose proof val_l as [L1 L2]. destruct (reduce_groups weighted_sum_uniform x H ltac:(lia) ltac:(intros; now apply uniform_unit')) as [G1 G2].
    exists (map weighted_sum_uniform (groups p x)), (weighted_sum_uniform (skipn (k_pos p) x)). split; [reflexivity|]. split; auto. split; auto. now apply uniform_unit', units_skipn.
  Qed.
  Lemma w6_t2_reduced x : units x -> length x = n_var p -> reduced (w6_t2 p x).
  Proof.
    intros H L. pose proof val_l as [L1 L2]. pose proof val_k as [_ G]. destruct (reduce_groups (fun y => non_sep y gap) x H ltac:(lia) ltac:(intros; apply non_sep_unit; auto)) as [G1 G2].
    eexists _, _. split; [reflexivity|]. split; [exact G2|]. split; [exact G1|]. apply non_sep_unit; [now apply units_skipn| |exact L1]. fold l. symmetry. now apply tail_len.
  Qed.
  Lemma w2_t2_ok x : units x -> length x = n_var p -> units (w2_t2 (k_pos p) x) /\ length (w2_t2 (k_pos p) x) = (k_pos p + l / 2)%nat.
  Proof.
    intros H L. pose proof val_l as [L1 L2]. unfold w2_t2. rewrite L. fold l. replace (k_pos p + l / 2 - k_pos p)%nat with (l / 2)%nat by lia. split.
    - apply Forall_app. split; [now apply units_firstn|]. apply Forall_forall. intros v HVv. apply in_map_iff in HVv as (i & <- & HI). apply in_seq in HI. assert (l / 2 * 2 <= l)%nat by (rewrite Nat.mul_comm; apply Nat.mul_div_le; lia).
      apply non_sep_unit; [now apply units_slice| |lia]. rewrite slice_len by lia. lia.
    - rewrite app_length, firstn_length, map_length, seq_length. lia.
  Qed.
  Lemma w2_t3_reduced x : units x -> reduced (w2_t3 p x) \/ (length x < k_pos p)%nat.
  Proof.
    intros H. destruct (le_lt_dec (k_pos p) (length x)) as [L|L]; auto. left. destruct (reduce_groups weighted_sum_uniform x H L ltac:(intros; now apply uniform_unit')) as [G1 G2].
    eexists _, _. split; [reflexivity|]. split; [exact G2|]. split; [exact G1|]. now apply uniform_unit', units_slice.
  Qed.
  Lemma w7_t1_ok k : forall x, units x -> units (w7_t1 k x) /\ length (w7_t1 k x) = length x.
  Proof.
    induction k as [|k IH]; intros [|v r] H; cbn [w7_t1]; auto. destruct (IH r (Forall_inv_tail H)) as [I1 I2]. split; [constructor; auto|cbn [length]; congruence]. apply dependent_unit; [exact (Forall_inv H)|]. apply uniform_unit'. exact (Forall_inv_tail H).
  Qed.
  Lemma w8_t1_ok x : units x -> length x = n_var p -> units (w8_t1 (k_pos p) x) /\ length (w8_t1 (k_pos p) x) = n_var p.
  Proof.
    intros H L. pose proof val_l as [L1 L2]. unfold w8_t1. split.
    - apply Forall_app. split; [now apply units_firstn|]. apply Forall_forall. intros v HVv. apply in_map_iff in HVv as (i & <- & HI). apply dependent_unit; [now apply units_nth|now apply uniform_unit', units_firstn].
    - rewrite app_length, firstn_length, map_length, seq_length. lia.
  Qed.
  Lemma transformed_reduced w x : units x -> length x = n_var p -> reduced (transformed w p x).
  Proof.
    intros H L. assert (T1 : units (w1_t1 (k_pos p) x)) by (apply halves_units; auto; apply linear_unit). assert (T1L : length (w1_t1 (k_pos p) x) = n_var p) by (unfold w1_t1; rewrite halves_len; auto). destruct w; cbn [transformed].
    - apply w1_t4_reduced.
      + apply units_map; [apply poly_unit|]. apply halves_units; auto. apply flat_unit.
      + unfold w1_t3, w1_t2. rewrite map_length, halves_len. auto.
    - destruct (w2_t2_ok _ T1 T1L) as [U UL]. destruct (w2_t3_reduced _ U); auto. lia.
    - destruct (w2_t2_ok _ T1 T1L) as [U UL]. destruct (w2_t3_reduced _ U); auto. lia.
    - apply w4_t2_reduced; [|unfold w4_t1; now rewrite map_length]. apply units_map; auto. intros v Hv. apply (mm_unit 10 v); auto; lra.
    - apply w4_t2_reduced; [|unfold w5_t1; now rewrite map_length]. apply units_map; auto. apply dec_unit.
    - apply w6_t2_reduced; auto.
    - destruct (w7_t1_ok (k_pos p) x H) as [U UL]. apply w4_t2_reduced; [apply halves_units; auto; apply linear_unit|]. unfold w1_t1. rewrite halves_len. congruence.
    - destruct (w8_t1_ok x H L) as [U UL]. apply w4_t2_reduced; [apply halves_units; auto; apply linear_unit|]. unfold w1_t1. rewrite halves_len. congruence.
    - destruct (w7_t1_ok (n_var p - 1) x H) as [U UL]. apply w6_t2_reduced.
      + unfold w9_t2. apply Forall_app. split; apply units_map; [apply dec_unit|now apply units_firstn|intros v Hv; apply (mm_unit 95 v); auto; lra|now apply units_skipn].
      + unfold w9_t2. rewrite app_length, !map_length, <- app_length, firstn_skipn. congruence.
  Qed.

  (** ** _post *)
  Lemma post_one z d a : length z = M -> unit_ d -> (forall i, (i < M)%nat -> nth i a 0 = 1) -> post (z ++ [d]) a = z ++ [d].
  Proof.
    intros L [D1 D2] HA. unfold post. rewrite last_last, app_length. cbn [length]. replace (length z + 1 - 1)%nat with (length z) by lia. f_equal. apply (nth_ext _ _ 0 0); [now rewrite map_length, seq_length|]. intros i Hi. rewrite map_length, seq_length in Hi.
    rewrite (nth_indep _ 0 (Rmax d (nth 0 a 0) * (nth 0 (z ++ [d]) 0 - 0.5) + 0.5)) by (now rewrite map_length, seq_length).
    rewrite (map_nth (fun i => Rmax d (nth i a 0) * (nth i (z ++ [d]) 0 - 0.5) + 0.5)), seq_nth by auto. cbn [Nat.add]. rewrite HA by lia. rewrite Rmax_right by lra. rewrite app_nth1 by auto. lra.
  Qed.
  Lemma post_reduced t a : reduced t -> (forall i, unit_ (nth i a 0)) -> exists z, post t a = z ++ [last t 0] /\ length z = M /\ units z /\ unit_ (last t 0).
  Proof.
    intros (z & d & -> & L & U & D) HA. rewrite last_last. eexists. split; [unfold post; rewrite last_last; reflexivity|]. rewrite map_length, seq_length, app_length. cbn [length]. split; [lia|]. split; auto.
    apply Forall_forall. intros v HVv. apply in_map_iff in HVv as (i & <- & HI). apply in_seq in HI. rewrite app_nth1 by lia. pose proof (units_nth i z U) as [N1 N2]. pose proof (HA i) as [A1 A2]. destruct D as [D1 D2].
    assert (0 <= Rmax d (nth i a 0) <= 1) by (split; [eapply Rle_trans; [exact D1|apply Rmax_l]|apply Rmax_lub; lra]). set (q := Rmax d (nth i a 0)) in *. split; nra.
  Qed.
  Lemma A_unit w i : unit_ (nth i (A_ w (n_obj p)) 0).
  Proof. apply units_nth. unfold A_. destruct w; try (apply Forall_forall; intros v Hv; apply repeat_spec in Hv; subst; split; lra). constructor; [split; lra|]. apply Forall_forall; intros v Hv; apply repeat_spec in Hv; subst; split; lra. Qed.
  Lemma after_post_reduced w y : units y -> length y = n_var p -> exists z, after_post w p y = z ++ [last (transformed w p y) 0] /\ length z = M /\ units z /\ unit_ (last (transformed w p y) 0) /\ (w <> W3 -> transformed w p y = after_post w p y).
  Proof.
    intros H L. pose proof (transformed_reduced w y H L) as R. destruct (post_reduced _ (A_ w (n_obj p)) R (A_unit w)) as (z & E & ZL & ZU & D). destruct R as (z0 & d & ER & L0 & U0 & D0).
    assert (E0 : w <> W3 -> post (transformed w p y) (A_ w (n_obj p)) = transformed w p y).
    { intros NW. rewrite ER. apply post_one; auto. intros i Hi. assert (EA : A_ w (n_obj p) = repeat 1 M) by (destruct w; try congruence; reflexivity). rewrite EA. rewrite (nth_indep _ 0 1) by (now rewrite repeat_length). apply nth_repeat. }
    destruct w; unfold after_post; try (exists z; repeat (split; auto); intros NW; rewrite E0; auto; fail).
    exists z0. rewrite ER, last_last. repeat (split; auto).
  Qed.
End Valid.
