(** * C103: crowding entropy, theorems *)
From Coq Require Import List Arith Bool Reals Lra Lia Permutation Sorted.
From Verif Require Import ListAux M_Crowding Thm_Crowding M_Entropy Thm_Entropy.
Import ListNotations.
Local Open Scope R_scope.

Definition obj (j : nat) (F : list (list R)) : list R := map (fun r => nth j r 0) F.
Definition stable_sorts (asort : list R -> list nat) : Prop := forall v, stable_argsort v (asort v).
(** the sum of the entries: infinite if one is *)
Definition total_of (c : list er) (x : er) : Prop := (In EPInf c -> x = EPInf) /\ (forall r, c = map EF r -> x = EF (fold_right Rplus 0 r)).

Lemma entry_kind v i c : (i < length v)%nat -> ce_entry v i c -> c = EPInf \/ exists r, c = EF r /\ 0 <= r <= 1.
Proof.
  intros Hi [H1 H2].
  destruct (Forall_Exists_dec (fun y => y = nth i v 0) (fun y => Req_EM_T y (nth i v 0)) v) as [HA|HE].
  - rewrite Forall_forall in HA. right. exists 0. split; [auto|lra].
  - apply Exists_exists in HE. destruct (H2 HE) as [K1 K2].
    destruct (Classical_Prop.classic (first_least v i \/ last_greatest v i)) as [X|X]; [left; auto|]. right.
    destruct (K2 ltac:(tauto) ltac:(tauto)) as [T1 T2]. destruct (Classical_Prop.classic (tied v i)) as [T|T]; [exists 0; split; [auto|lra]|].
    destruct (T2 T) as (lo & hi & a & b & (L1 & L2 & _) & (U1 & U2 & _) & (A1 & A2) & (B1 & B2) & ->). eexists. split; [reflexivity|].
    set (x := nth i v 0) in *. set (p := (x - lo) / (hi - lo)).
    assert (P1 : 0 < p) by (apply Rdiv_lt_0_compat; lra).
    assert (P2 : 0 < 1 - p). { unfold p. replace (1 - (x - lo) / (hi - lo)) with ((hi - x) / (hi - lo)) by (field; lra). apply Rdiv_lt_0_compat; lra. }
    assert (L2p : 0 < ln 2) by (rewrite <- ln_1; apply ln_increasing; lra).
    assert (LN : forall y, 0 < y -> ln y <= y - 1). { intros y Hy. destruct (Req_dec y 1) as [->|N]; [rewrite ln_1; lra|]. pose proof (exp_ineq1_le (ln y)). rewrite exp_ln in H; lra. }
    assert (HB : 0 <= bits p <= 1).
    { unfold bits. pose proof (LN _ P1). pose proof (LN _ P2).
      assert (Q1 : ln (/ (2 * p)) = - (ln 2 + ln p)) by (rewrite ln_Rinv, ln_mult; lra). assert (Q2 : ln (/ (2 * (1 - p))) = - (ln 2 + ln (1 - p))) by (rewrite ln_Rinv, ln_mult; lra).
      pose proof (LN (/ (2 * p)) ltac:(apply Rinv_0_lt_compat; lra)) as I1. pose proof (LN (/ (2 * (1 - p))) ltac:(apply Rinv_0_lt_compat; lra)) as I2. rewrite Q1 in I1. rewrite Q2 in I2.
      assert (J1 : p * - (ln 2 + ln p) <= p * (/ (2 * p) - 1)) by (apply Rmult_le_compat_l; lra). assert (J2 : (1 - p) * - (ln 2 + ln (1 - p)) <= (1 - p) * (/ (2 * (1 - p)) - 1)) by (apply Rmult_le_compat_l; lra).
      replace (p * (/ (2 * p) - 1)) with (/ 2 - p) in J1 by (field; lra). replace ((1 - p) * (/ (2 * (1 - p)) - 1)) with (/ 2 - (1 - p)) in J2 by (field; lra).
      assert (N1 : 0 <= p * - ln p) by (apply Rmult_le_pos; lra). assert (N2 : 0 <= (1 - p) * - ln (1 - p)) by (apply Rmult_le_pos; lra).
      replace (- (p * (ln p / ln 2) + (1 - p) * (ln (1 - p) / ln 2))) with ((p * - ln p + (1 - p) * - ln (1 - p)) / ln 2) by (field; lra).
      split; [apply Rmult_le_pos; [lra|apply Rlt_le, Rinv_0_lt_compat, L2p]|]. apply (Rmult_le_reg_r (ln 2)); auto. unfold Rdiv. rewrite Rmult_assoc, Rinv_l by lra. lra. }
    pose proof (A2 _ L1). pose proof (B2 _ U1). assert (HR : 0 < b - a) by lra. split.
    + apply Rmult_le_pos; [apply Rmult_le_pos; lra|apply Rlt_le, Rinv_0_lt_compat, HR].
    + apply (Rmult_le_reg_r (b - a)); auto. unfold Rdiv. rewrite Rmult_assoc, Rinv_l by lra.
      assert ((hi - lo) * bits p <= (hi - lo) * 1) by (apply Rmult_le_compat_l; lra). lra.
Qed.
Lemma total_ok c : (forall x, In x c -> x = EPInf \/ exists r, x = EF r) -> total_of c (fold_right eadd (EF 0) c).
Proof.
  intros H. split.
  - assert (G : forall c, (forall x, In x c -> x = EPInf \/ exists r, x = EF r) -> (fold_right eadd (EF 0) c = EPInf \/ exists r, fold_right eadd (EF 0) c = EF r) /\ (In EPInf c -> fold_right eadd (EF 0) c = EPInf)).
    { clear. induction c as [|x c IH]; intros H; cbn [fold_right]; [split; [right; eauto|intros []]|]. destruct IH as [I1 I2]; [intros; apply H; now right|].
      destruct (H x (or_introl eq_refl)) as [->|(r & ->)].
      - assert (E : eadd EPInf (fold_right eadd (EF 0) c) = EPInf) by (destruct I1 as [I1|(q & I1)]; rewrite I1; reflexivity). rewrite E. auto.
      - split; [destruct I1 as [I1|(q & I1)]; rewrite I1; cbn; eauto|]. intros [E|E]; [discriminate|]. rewrite (I2 E). reflexivity. }
    apply G, H.
  - intros r ->. clear. induction r as [|x r IH]; cbn [map fold_right]; [reflexivity|]. now rewrite IH.
Qed.

(** ** C103: the value of every point *)
Theorem C103_value : forall asort dup m F, stable_sorts asort -> (3 <= length F)%nat ->
  let U := where_ (fun i => negb (nth i (dup F) false)) (length F) in          (* the points not flagged as duplicates, in order *)
  let G := map (fun i => nth i F []) U in
  let ce := crowding_entropy asort dup m F in
  length ce = length F /\
  (forall i, (i < length F)%nat -> nth i (dup F) false = true -> nth i ce ENaN = EF 0) /\
  (forall k, (k < length U)%nat -> exists c, length c = m /\ (forall j, (j < m)%nat -> ce_entry (obj j G) k (nth j c ENaN)) /\ total_of c (nth (nth k U 0%nat) ce ENaN)).
Proof.
  intros asort dup m F HA Hn U G ce. set (d := calc_crowding_entropy asort m G).
  assert (Hd : length d = length U) by (unfold d, calc_crowding_entropy, G; now rewrite map_length, seq_length, map_length).
  assert (HU : forall i, In i U -> (i < length F)%nat /\ nth i (dup F) false = false) by (intros i Hi; apply In_where in Hi as [H1 H2]; split; auto; now apply negb_true_iff).
  assert (HN : NoDup U) by apply NoDup_where.
  assert (HS : forall (K : list nat) (e acc : list er), NoDup K -> length e = length K -> Forall (fun i => (i < length acc)%nat) K ->
     let r := fold_left (fun acc p => upd acc (fst p) (snd p)) (combine K e) acc in
     length r = length acc /\ (forall i, ~ In i K -> nth i r ENaN = nth i acc ENaN) /\ (forall k, (k < length K)%nat -> nth (nth k K 0%nat) r ENaN = nth k e ENaN)).
  { clear. induction K as [|x K IH]; intros [|y e] acc HN HL HB; cbn in HL; try discriminate; cbn [combine fold_left]; [repeat split; auto; intros; cbn in *; lia|].
    apply NoDup_cons_iff in HN. destruct HN as [N1 N2]. pose proof (Forall_inv HB) as B1. apply Forall_inv_tail in HB. cbv beta in B1.
    destruct (IH e (upd acc x y) N2 ltac:(lia)) as (I1 & I2 & I3); [eapply Forall_impl; [|exact HB]; intros a; rewrite length_upd; auto|]. cbn [fst snd]. split; [rewrite I1; apply length_upd|]. split.
    - intros i Hi. rewrite I2 by (intros C; apply Hi; now right). rewrite nth_upd_neq; auto. intros C; apply Hi; now left.
    - intros [|k] Hk; cbn [nth]; [|apply I3; cbn in Hk; lia]. rewrite I2 by auto. apply nth_upd_eq. exact B1. }
  assert (CE : ce = fold_left (fun acc p => upd acc (fst p) (snd p)) (combine U d) (repeat (EF 0) (length F))).
  { unfold ce, crowding_entropy. replace (length F <=? 2)%nat with false by (symmetry; apply Nat.leb_gt; lia). reflexivity. }
  destruct (HS U d (repeat (EF 0) (length F)) HN Hd) as (S1 & S2 & S3); [apply Forall_forall; intros i Hi; rewrite repeat_length; apply HU, Hi|]. rewrite <- CE in S1, S2, S3.
  split; [rewrite S1; apply repeat_length|]. split.
  - intros i Hi HD. rewrite S2 by (intros C; apply HU in C; destruct C; congruence). rewrite (nth_indep _ ENaN (EF 0)) by (rewrite repeat_length; auto). apply nth_repeat.
  - intros k Hk. rewrite S3 by auto. assert (LG : length G = length U) by (unfold G; apply map_length).
    exists (map (fun j => cej asort (col_of j G) k) (seq 0 m)). split; [now rewrite map_length, seq_length|].
    assert (EN : forall j, (j < m)%nat -> nth j (map (fun j => cej asort (col_of j G) k) (seq 0 m)) ENaN = cej asort (obj j G) k).
    { intros j Hj. rewrite (nth_indep _ ENaN (cej asort (col_of 0 G) k)) by (now rewrite map_length, seq_length). rewrite (map_nth (fun j => cej asort (col_of j G) k)), seq_nth by auto. reflexivity. }
    assert (EE : forall j, (j < m)%nat -> ce_entry (obj j G) k (cej asort (obj j G) k)).
    { intros j Hj. apply (entry_ok (obj j G) (asort (obj j G)) (HA _)); auto. unfold obj. rewrite map_length. lia. }
    split; [intros j Hj; rewrite EN by auto; auto|].
    assert (ED : nth k d ENaN = fold_right eadd (EF 0) (map (fun j => cej asort (col_of j G) k) (seq 0 m))).
    { unfold d, calc_crowding_entropy. set (f := fun i => fold_right eadd (EF 0) (map (fun j => cej asort (col_of j G) i) (seq 0 m))). rewrite (nth_indep _ ENaN (f 0%nat)) by (rewrite map_length, seq_length; lia).
      rewrite (map_nth f), seq_nth by lia. reflexivity. }
    rewrite ED. apply total_ok. intros x Hx. apply in_map_iff in Hx. destruct Hx as (j & <- & Hj). apply in_seq in Hj.
    destruct (entry_kind (obj j G) k (cej asort (obj j G) k)) as [E|(r & E & _)]; [unfold obj; rewrite map_length; lia|apply EE; lia|left; exact E|right; exists r; exact E].
Qed.
(** up to two points: all infinite *)
Theorem C103_few : forall asort dup m F i, (length F <= 2)%nat -> (i < length F)%nat -> nth i (crowding_entropy asort dup m F) ENaN = EPInf.
Proof. intros asort dup m F i H Hi. unfold crowding_entropy. replace (length F <=? 2)%nat with true by (symmetry; now apply Nat.leb_le). rewrite (nth_indep _ ENaN EPInf) by (now rewrite repeat_length). apply nth_repeat. Qed.
(** every value is +inf or between 0 and the number of objectives: never NaN *)
Theorem C103_range : forall asort dup m F i, stable_sorts asort -> (3 <= length F)%nat -> (i < length F)%nat ->
  nth i (crowding_entropy asort dup m F) ENaN = EPInf \/ exists r, nth i (crowding_entropy asort dup m F) ENaN = EF r /\ 0 <= r <= INR m.
Proof.
  intros asort dup m F i HA Hn Hi. destruct (C103_value asort dup m F HA Hn) as (_ & V1 & V2). destruct (nth i (dup F) false) eqn:E; [right; exists 0; split; [auto|split; [lra|apply pos_INR]]|].
  set (U := where_ (fun i => negb (nth i (dup F) false)) (length F)) in *.
  assert (IU : In i U) by (apply In_where; split; auto; now rewrite E). apply (In_nth _ _ 0%nat) in IU. destruct IU as (k & K1 & <-).
  destruct (V2 k K1) as (c & C1 & C2 & (T1 & T2)). set (G := map (fun i => nth i F []) U) in *.
  assert (CK : forall x, In x c -> x = EPInf \/ exists r, x = EF r /\ 0 <= r <= 1).
  { intros x Hx. apply (In_nth _ _ ENaN) in Hx. destruct Hx as (j & J1 & <-). apply (entry_kind (obj j G) k); [unfold obj, G; rewrite !map_length; auto|apply C2; lia]. }
  assert (D : In EPInf c \/ exists r, c = map EF r /\ (forall x, In x r -> 0 <= x <= 1)).
  { clear - CK. induction c as [|x c IH]; [right; exists []; split; [auto|intros x []]|]. destruct (CK x (or_introl eq_refl)) as [->|(r & -> & R)]; [left; now left|].
    destruct IH as [H|(l & -> & L)]; [intros; apply CK; now right|left; now right|]. right. exists (r :: l). split; [reflexivity|]. intros y [<-|Hy]; auto. }
  destruct D as [D|(r & -> & D)]; [left; auto|right]. exists (fold_right Rplus 0 r). split; [auto|]. rewrite map_length in C1. rewrite <- C1. clear - D.
  induction r as [|x r IH]; [cbn; lra|]. cbn [fold_right length]. rewrite S_INR. specialize (IH ltac:(intros; apply D; now right)). specialize (D x (or_introl eq_refl)). lra.
Qed.
(** for an objective that is not constant among the unique points, the first of the best and the last of the worst get +inf *)
Theorem C103_extremes : forall asort dup m F j k, stable_sorts asort -> (3 <= length F)%nat -> (j < m)%nat ->
  let U := where_ (fun i => negb (nth i (dup F) false)) (length F) in
  let G := map (fun i => nth i F []) U in
  (k < length U)%nat -> (exists y, In y (obj j G) /\ y <> nth k (obj j G) 0) -> first_least (obj j G) k \/ last_greatest (obj j G) k ->
  nth (nth k U 0%nat) (crowding_entropy asort dup m F) ENaN = EPInf.
Proof.
  intros asort dup m F j k HA Hn Hj U G Hk HY HE. destruct (C103_value asort dup m F HA Hn) as (_ & _ & V2). destruct (V2 k Hk) as (c & C1 & C2 & (T1 & _)). fold U in T1. apply T1.
  destruct (C2 j Hj) as [_ E]. fold U G in E. destruct (E HY) as [E1 _]. rewrite <- (E1 HE). apply nth_In. lia.
Qed.

(** ** the hypotheses are met: the insertion sort of the indices is stable *)
Definition rltb (a b : R) : bool := if Rlt_dec a b then true else false.
Definition r_sort (v : list R) : list nat := argsort rltb 0 v.
Lemma r_sort_stable : stable_sorts r_sort.
Proof.
  intros v. split; [apply argsort_perm|]. intros p q Hpq.
  set (R1 := fun a b => nth a v 0 < nth b v 0 \/ nth a v 0 = nth b v 0 /\ (a < b)%nat).
  assert (SS : StronglySorted R1 (r_sort v)).
  { unfold r_sort, argsort. assert (INS : forall i l, StronglySorted R1 l -> (forall j, In j l -> (j < i)%nat) -> StronglySorted R1 (ins_idx rltb 0 v i l)).
    { induction l as [|j l IH]; intros HS HB; cbn; [repeat constructor|]. apply StronglySorted_inv in HS as [HS HF]. rewrite Forall_forall in HF. pose proof (HB j ltac:(now left)) as Hj.
      destruct (rltb (nth j v 0) (nth i v 0) || negb (rltb (nth i v 0) (nth j v 0))) eqn:E.
      - constructor; [apply IH; [exact HS|intros y Hy; apply HB; now right]|]. apply Forall_forall. intros y Hy. apply (Permutation_in _ (ins_idx_perm rltb 0 v i l)) in Hy. destruct Hy as [<- |Hy]; [|auto].
        assert (L : nth j v 0 <= nth i v 0). { unfold rltb in E. destruct (Rlt_dec (nth j v 0) (nth i v 0)); [lra|]. destruct (Rlt_dec (nth i v 0) (nth j v 0)); [discriminate|lra]. }
        unfold R1. destruct (Rlt_dec (nth j v 0) (nth i v 0)); [left; lra|right; split; [lra|exact Hj]].
      - apply orb_false_iff in E as [_ E]. apply negb_false_iff in E. unfold rltb in E. destruct (Rlt_dec (nth i v 0) (nth j v 0)) as [E'|]; [|discriminate]. constructor; [constructor; [exact HS|now apply Forall_forall]|]. apply Forall_forall. intros y [<- |Hy]; [now left|]. left. destruct (HF y Hy) as [H|[H _]]; lra. }
    assert (G : forall n s acc, StronglySorted R1 acc -> (forall j, In j acc -> (j < s)%nat) -> StronglySorted R1 (fold_left (fun l i => ins_idx rltb 0 v i l) (seq s n) acc)).
    { induction n as [|n IH]; intros s acc HS HB; [exact HS|]. cbn [seq fold_left]. apply IH; [now apply INS|]. intros j Hj. apply (Permutation_in _ (ins_idx_perm rltb 0 v s acc)) in Hj. destruct Hj as [<- |Hj]; [lia|specialize (HB j Hj); lia]. }
    apply G; [constructor|intros j []]. }
  apply (StronglySorted_nth R1 (r_sort v) 0%nat p q SS); [lia|]. unfold r_sort. pose proof (argsort_perm rltb 0 v) as P. apply perm_seq_length in P. lia.
Qed.
(** four points on a line, 0, 1, 2, 4, none a duplicate: the second has neighbours at distance 1 and 1, one full bit, and a share 2/4 of the range *)
Example C103_case : nth 1 (crowding_entropy r_sort (fun _ => []) 1 [[0]; [1]; [2]; [4]]) ENaN = EF (1 / 2) /\ nth 0 (crowding_entropy r_sort (fun _ => []) 1 [[0]; [1]; [2]; [4]]) ENaN = EPInf.
Proof.
  destruct (C103_value r_sort (fun _ => []) 1 [[0]; [1]; [2]; [4]] r_sort_stable ltac:(cbn; lia)) as (_ & _ & V).
  cbn [length where_ seq filter nth negb map] in V.
  split.
  - destruct (V 1%nat ltac:(cbn; lia)) as (c & C1 & C2 & C3). destruct c as [|x [|]]; try discriminate. specialize (C2 0%nat ltac:(lia)). cbn [nth obj map] in C2.
    destruct C2 as [_ E]. cbn [nth] in E. destruct E as [_ E]; [exists 0; split; [cbn; auto|lra]|].
    destruct E as [_ E].
    + intros H. destruct (H 0%nat ltac:(cbn; lia)) as [K|[K _]]; cbn in K; lra.
    + intros H. destruct (H 2%nat ltac:(cbn; lia)) as [K|[K _]]; cbn in K; lra.
    + destruct E as (lo & hi & a & b & (L1 & L2 & L3) & (U1 & U2 & U3) & (A1 & A2) & (B1 & B2) & ->).
      * intros (i' & I1 & I2 & I3). destruct i' as [|[|[|[|i']]]]; cbn in *; try lia; lra.
      * assert (lo = 0) by (pose proof (L3 0 ltac:(cbn; auto) ltac:(lra)); cbn in L1; destruct L1 as [<-|[<-|[<-|[<-|[]]]]]; lra).
        assert (hi = 2) by (pose proof (U3 2 ltac:(cbn; auto) ltac:(lra)); cbn in U1; destruct U1 as [<-|[<-|[<-|[<-|[]]]]]; lra).
        assert (a = 0) by (pose proof (A2 0 ltac:(cbn; auto)); cbn in A1; destruct A1 as [<-|[<-|[<-|[<-|[]]]]]; lra).
        assert (b = 4) by (pose proof (B2 4 ltac:(cbn; auto)); cbn in B1; destruct B1 as [<-|[<-|[<-|[<-|[]]]]]; lra). subst.
        destruct C3 as [_ C3]. cbn [nth] in C3. rewrite (C3 [_]) by reflexivity. f_equal. cbn [fold_right].
        assert (L2p : 0 < ln 2) by (rewrite <- ln_1; apply ln_increasing; lra).
        assert (B : bits ((1 - 0) / (2 - 0)) = 1).
        { unfold bits. replace (1 - (1 - 0) / (2 - 0)) with (/ 2) by field. replace ((1 - 0) / (2 - 0)) with (/ 2) by field. rewrite ln_Rinv by lra. field. lra. }
        rewrite B. field.
  - apply (C103_extremes r_sort (fun _ => []) 1 [[0]; [1]; [2]; [4]] 0 0 r_sort_stable); [cbn; lia|lia|cbn; lia|exists 1; split; [cbn; auto|cbn; lra]|].
    left. intros [|[|[|[|i']]]] Hi'; cbn in *; try lia; (left; lra) || (right; split; [lra|lia]).
Qed.
