(** * C116: what WFG3 reports *)
From Coq Require Import Reals List Arith ZArith Lra Lia Psatz.
From Verif Require Import ListAux M_NSGA3R M_Bench M_RealOps P_RealOps M_DTLZ M_DF S_Bench Thm_Bench Thm_Bench2 Thm_DTLZ Thm_DF Thm_DF2 M_WFG Thm_WFG Thm_WFG2 Thm_WFG3 Thm_WFG4 Thm_WFG5 Thm_WFG6 Thm_WFG7 Thm_WFG8.
Import ListNotations.
Local Open Scope R_scope.

(** a segment: objective m (from 0) of n_obj = M + 1 before the scaling by 2 (m + 1) *)
Definition wfg3_line (M : nat) (t : R) : list R :=
  map (fun m => if (m =? M)%nat then 1 - t else t * (1 / 2) ^ (if (m =? 0)%nat then M - 1 else M - m)) (seq 0 (S M)).
Lemma half_unit : unit_ (1 / 2).
Proof. split; lra. Qed.
Lemma rprod_half t n : rprod (firstn (S n) (t :: repeat (1 / 2) n)) = t * (1 / 2) ^ n.
Proof. cbn [firstn]. rewrite firstn_all2 by (rewrite repeat_length; lia). unfold rprod. cbn [fold_right]. f_equal. induction n as [|n IH]; cbn [repeat fold_right pow]; [auto|]. now rewrite IH. Qed.
Lemma firstn_repeat' {A} (v : A) n k : (k <= n)%nat -> firstn k (repeat v n) = repeat v k.
Proof. revert k. induction n as [|n IH]; intros [|k] H; cbn; auto; [lia|]. f_equal. apply IH. lia. Qed.
Lemma nth_repeat' {A} (v d : A) n k : (k < n)%nat -> nth k (repeat v n) d = v.
Proof. revert k. induction n as [|n IH]; intros [|k] H; cbn; auto; try lia. apply IH. lia. Qed.
Lemma w3_shape M t : (1 <= M)%nat -> unit_ t -> shapes W3 (S M) (t :: repeat (1 / 2) (M - 1)) = wfg3_line M t.
Proof.
  intros HM U. unfold shapes, wfg3_line. apply map_ext_in. intros m Hm. apply in_seq in Hm. set (z := t :: repeat (1 / 2) (M - 1)). assert (LZ : length z = M) by (unfold z; cbn [length]; rewrite repeat_length; lia).
  assert (UZ : units z) by (constructor; auto; apply units_repeat, half_unit). unfold shape_linear.
  destruct (shape_row (fun v => v) (fun v => 1 - v) ltac:(auto) ltac:(intros v [? ?]; split; lra) z m UZ ltac:(lia) ltac:(lia)) as [E _]. rewrite E. rewrite !map_id, LZ.
  destruct m as [|m].
  - destruct M as [|M]; [lia|]. cbn [Nat.eqb Nat.sub]. rewrite Nat.sub_0_r. unfold z. replace (S M - 1)%nat with M by lia. rewrite rprod_half. cbn [Nat.eqb]. ring.
  - change (S m =? 0)%nat with false. cbn iota. destruct (Nat.eqb_spec (S m) M) as [<-|NE].
    + rewrite Nat.sub_diag. unfold z. cbn [firstn map nth]. unfold rprod. cbn [fold_right]. ring.
    + assert (N : nth (M - S m) (map (fun v => 1 - v) z) 0 = 1 / 2).
      { rewrite (nth_indep _ 0 (1 - 0)) by (rewrite map_length; lia). rewrite (map_nth (fun v => 1 - v)). unfold z. destruct (M - S m)%nat as [|j] eqn:EJ; [lia|]. cbn [nth]. rewrite nth_repeat' by lia. lra. }
      rewrite N. unfold z. destruct (M - S m)%nat as [|j] eqn:EJ; [lia|]. cbn [firstn]. rewrite firstn_repeat' by lia.
      pose proof (rprod_half t j) as K. cbn [firstn] in K. rewrite firstn_all2 in K by (rewrite repeat_length; lia). rewrite K. cbn [pow]. field.
Qed.
Lemma w3_post z m : (1 <= length z)%nat -> m = S (length z) -> units z -> post (z ++ [0]) (A_ W3 m) = (nth 0 z 0 :: repeat (1 / 2) (length z - 1)) ++ [0].
Proof.
  intros L -> U. unfold post. rewrite last_last, app_length. cbn [length]. f_equal. apply (nth_ext _ _ 0 0).
  { rewrite map_length, seq_length. cbn [length]. rewrite repeat_length. lia. }
  intros i Hi. rewrite map_length, seq_length in Hi. set (f := fun i => Rmax 0 (nth i (A_ W3 (S (length z))) 0) * (nth i (z ++ [0]) 0 - 0.5) + 0.5). rewrite (nth_indep _ 0 (f 0%nat)) by (now rewrite map_length, seq_length).
  rewrite (map_nth f), seq_nth by auto. cbn [Nat.add]. unfold f, A_. destruct i as [|i]; cbn [nth].
  - rewrite app_nth1 by lia. rewrite Rmax_right by lra. lra.
  - rewrite !nth_repeat' by lia. rewrite Rmax_left by lra. lra.
Qed.
Lemma w3_value p K : accepted W3 p -> positions (k_pos p) K -> exists z, transformed W3 p (optimal_y W3 p K) = z ++ [0] /\ unit_ (nth 0 z 0) /\ evaluate W3 p (positional_to_optimal W3 p K) = scaled (wfg3_line (n_obj p - 1) (nth 0 z 0)).
Proof.
  intros HA [LK UK]. pose proof (accepted_valid _ p HA) as HV. destruct (optimal_ok _ p HV W3 K UK LK) as (U & L & _).
  assert (DZ : last (transformed W3 p (optimal_y W3 p K)) 0 = 0) by (apply (optimal_distance _ p HA); auto; left; reflexivity).
  destruct (transformed_reduced _ p HV W3 _ U L) as (z & d & E & ZL & ZU & D). rewrite E, last_last in DZ. subst d. exists z. split; auto. pose proof (val_M _ _ HV) as [M1 M2]. split; [now apply units_nth|].
  unfold evaluate, positional_to_optimal. rewrite normalized_denormalized. unfold after_post. rewrite E, w3_post by (auto; lia). rewrite removelast_last, M2, ZL, w3_shape by (auto; now apply units_nth).
  rewrite calculate_value by (unfold wfg3_line; now rewrite map_length, seq_length). rewrite last_last, value_0. f_equal. f_equal. lia.
Qed.
Lemma groups_front p X s s' : length X = k_pos p -> (exists e, valid_params e p) -> groups p (X ++ s) = groups p (X ++ s').
Proof.
  intros LX [e HV]. unfold groups. apply map_ext_in. intros m Hm. apply in_seq in Hm. destruct (group_bound e p HV m ltac:(lia)) as [B1 B2]. set (g := (k_pos p / (n_obj p - 1))%nat) in *.
  unfold slice. rewrite !skipn_app, !firstn_app, !skipn_length. replace (m * g - (m - 1) * g - (length X - (m - 1) * g))%nat with 0%nat by lia. reflexivity.
Qed.
(** C116: the values of the solutions WFG3 reports as optimal are exactly a segment (it is degenerate), whatever the number of objectives *)
Theorem C116_wfg3_reported p : accepted W3 p ->
  forall q, (exists K, positions (k_pos p) K /\ q = evaluate W3 p (positional_to_optimal W3 p K)) <-> exists t, 0 <= t <= 1 /\ q = scaled (wfg3_line (n_obj p - 1) t).
Proof.
  intros HA q. pose proof (accepted_valid _ p HA) as HV. pose proof (val_M _ _ HV) as [M1 M2]. pose proof (val_k _ _ HV) as [K1 K2]. split.
  - intros (K & HK & ->). destruct (w3_value p K HA HK) as (z & _ & [Z1 Z2] & E). exists (nth 0 z 0). split; auto.
  - intros (t & Ht & ->). set (T := repeat t (n_obj p - 1)). assert (UT : units T) by (apply units_repeat; split; lra). assert (LT : length T = (n_obj p - 1)%nat) by apply repeat_length.
    destruct (blocks_ok _ p HV W3 T UT LT) as (UB & LB & GB). exists (blocks p W3 T). assert (HK : positions (k_pos p) (blocks p W3 T)) by (split; auto). split; auto.
    destruct (w3_value p _ HA HK) as (z & EZ & _ & ->). f_equal. f_equal.
    cbn [transformed optimal_y] in EZ. unfold w2_t3 in EZ. apply app_inj_tail in EZ as [EZ _].
    assert (E1 : w1_t1 (k_pos p) (blocks p W3 T ++ repeat 0.35 (n_var p - k_pos p)) = blocks p W3 T ++ repeat 0 (n_var p - k_pos p)) by (unfold w1_t1; rewrite (firstn_L _ _ _ LB), (skipn_L _ _ _ LB), map_repeat, linear_0; reflexivity).
    rewrite E1 in EZ. unfold w2_t2 in EZ. rewrite (firstn_L _ _ _ LB) in EZ.
    rewrite (groups_front p _ _ (repeat 0 (n_var p - k_pos p)) LB (ex_intro (fun e => valid_params e p) false HV)), GB, map_map in EZ. cbn [block] in EZ.
    assert (EM : map (fun z => weighted_sum_uniform (repeat z (k_pos p / (n_obj p - 1)))) T = T).
    { rewrite <- (map_id T) at 2. apply map_ext_in. intros v Hv. apply uniform_repeat; auto. rewrite Forall_forall in UT. auto. }
    rewrite EM in EZ. rewrite <- EZ. unfold T. symmetry. apply nth_repeat'. lia.
Qed.
Print Assumptions C116_wfg3_reported.
