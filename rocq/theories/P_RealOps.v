(** * Proofs for M_RealOps *)
From Coq Require Import Reals Lra.
From Verif Require Import M_RealOps.

(** ** exact SBX *)
Local Open Scope R_scope.
Lemma np_power_pos x y : 0 < x -> np_power x y = Rpower x y.
Proof. intros. unfold np_power. destruct (Req_EM_T x 0); lra. Qed.
Lemma np_power_nonneg x y : 0 <= np_power x y.
Proof. unfold np_power. destruct (Req_EM_T x 0); [lra|]. apply Rlt_le, exp_pos. Qed.
Lemma Rpower_le_base a b y : 0 < a -> a <= b -> 0 <= y -> Rpower a y <= Rpower b y.
Proof. intros. apply Rle_Rpower_l; lra. Qed.
Lemma np_power_le1 x y : 0 <= x -> x <= 1 -> 0 <= y -> np_power x y <= 1.
Proof.
  intros. unfold np_power. destruct (Req_EM_T x 0); [lra|]. rewrite <- (Rpower_1 1) by lra.
  replace (Rpower 1 1) with (Rpower 1 y). apply Rpower_le_base; lra. unfold Rpower. rewrite ln_1. f_equal. ring.
Qed.

Lemma betaq_le rand eta beta : 0 <= rand -> rand < 1 -> 0 < eta + 1 -> 1 <= beta ->
  0 <= calc_betaq_R rand eta beta <= beta.
Proof.
  intros Hr0 Hr1 He Hb. unfold calc_betaq_R. rewrite (np_power_pos beta) by lra.
  set (t := Rpower beta (- (eta + 1))).
  assert (Ht : 0 < t <= 1).
  { split; [apply exp_pos|]. unfold t. rewrite Rpower_Ropp. rewrite <- Rinv_1.
    apply Rinv_le_contravar; [lra|]. apply Rle_trans with (Rpower beta 0); [rewrite Rpower_O; lra|]. apply Rle_Rpower; lra. }
  split.
  { destruct (Rle_dec _ _); apply np_power_nonneg. }
  destruct (Rle_dec rand (1 / (2 - t))) as [Hd|Hd].
  - apply Rle_trans with 1; auto. apply np_power_le1.
    + apply Rmult_le_pos; lra.
    + apply Rmult_le_compat_r with (r := 2 - t) in Hd; [|lra]. replace (1 / (2 - t) * (2 - t)) with 1 in Hd by (field; lra). auto.
    + apply Rlt_le. apply Rdiv_lt_0_compat; lra.
  - assert (Hpos : t < 2 - rand * (2 - t)) by nra.
    assert (Hp2 : 0 < 1 / (2 - rand * (2 - t))) by (apply Rdiv_lt_0_compat; lra).
    rewrite np_power_pos by auto.
    apply Rle_trans with (Rpower (Rpower beta (eta + 1)) (1 / (eta + 1))).
    + apply Rpower_le_base; auto; [|apply Rlt_le, Rdiv_lt_0_compat; lra].
      apply Rle_trans with (/ t).
      * unfold Rdiv. rewrite Rmult_1_l. apply Rinv_le_contravar; lra.
      * unfold t. rewrite Rpower_Ropp, Rinv_inv. lra.
    + rewrite Rpower_mult. replace ((eta + 1) * (1 / (eta + 1))) with 1 by (field; lra). rewrite Rpower_1; lra.
Qed.

Lemma sbx_exact_box y1 y2 xl xu eta rand : xl <= y1 -> y1 < y2 -> y2 <= xu -> 0 < eta + 1 -> 0 <= rand -> rand < 1 ->
  xl <= sbx_c1_R y1 y2 xl eta rand <= (y1 + y2) / 2 /\ (y1 + y2) / 2 <= sbx_c2_R y1 y2 xu eta rand <= xu.
Proof.
  intros. unfold sbx_c1_R, sbx_c2_R. cbv zeta. set (delta := y2 - y1). assert (Hd : 0 < delta) by (unfold delta; lra).
  assert (B1 : 1 <= 1 + 2 * (y1 - xl) / delta). { assert (0 <= 2 * (y1 - xl) / delta) by (apply Rmult_le_pos; [lra|apply Rlt_le, Rinv_0_lt_compat; auto]). lra. }
  assert (B2 : 1 <= 1 + 2 * (xu - y2) / delta). { assert (0 <= 2 * (xu - y2) / delta) by (apply Rmult_le_pos; [lra|apply Rlt_le, Rinv_0_lt_compat; auto]). lra. }
  pose proof (betaq_le rand eta _ H3 H4 H2 B1) as [L1 U1]. pose proof (betaq_le rand eta _ H3 H4 H2 B2) as [L2 U2].
  assert (E1 : (1 + 2 * (y1 - xl) / delta) * delta = delta + 2 * (y1 - xl)) by (field; lra).
  assert (E2 : (1 + 2 * (xu - y2) / delta) * delta = delta + 2 * (xu - y2)) by (field; lra).
  assert (U1' := Rmult_le_compat_r delta _ _ (Rlt_le _ _ Hd) U1). assert (U2' := Rmult_le_compat_r delta _ _ (Rlt_le _ _ Hd) U2).
  assert (L1' : 0 <= calc_betaq_R rand eta (1 + 2 * (y1 - xl) / delta) * delta) by (apply Rmult_le_pos; lra).
  assert (L2' : 0 <= calc_betaq_R rand eta (1 + 2 * (xu - y2) / delta) * delta) by (apply Rmult_le_pos; lra).
  rewrite E1 in U1'. rewrite E2 in U2'. unfold delta in *. lra.
Qed.

(** ** exact polynomial mutation *)
Lemma np_power_root v xy e : 0 <= xy -> xy <= 1 -> 0 < e -> np_power xy e <= v -> v <= 1 -> xy <= np_power v (1 / e) <= 1.
Proof.
  intros Hx0 Hx1 He Hv Hv1. assert (0 <= v) by (pose proof (np_power_nonneg xy e); lra).
  split.
  - destruct (Req_EM_T xy 0) as [->|Hn]; [apply np_power_nonneg|].
    assert (0 < np_power xy e) by (rewrite np_power_pos by lra; apply exp_pos).
    rewrite np_power_pos by lra. rewrite np_power_pos in Hv by lra.
    apply Rle_trans with (Rpower (Rpower xy e) (1 / e)).
    + rewrite Rpower_mult. replace (e * (1 / e)) with 1 by (field; lra). rewrite Rpower_1; lra.
    + apply Rpower_le_base; auto; [apply exp_pos|]. apply Rlt_le, Rdiv_lt_0_compat; lra.
  - apply np_power_le1; auto. apply Rlt_le, Rdiv_lt_0_compat; lra.
Qed.
Lemma pm_exact_box x xl xu eta rand : xl < xu -> xl <= x <= xu -> 0 < eta + 1 -> 0 <= rand < 1 ->
  xl <= mut_pm_R x xl xu eta rand <= xu /\
  (rand <= 1 / 2 -> mut_pm_R x xl xu eta rand <= x) /\ (1 / 2 < rand -> x <= mut_pm_R x xl xu eta rand).
Proof.
  intros Hb Hx He Hr. unfold mut_pm_R. cbv zeta. set (w := xu - xl). assert (Hw : 0 < w) by (unfold w; lra).
  set (d1 := (x - xl) / w). set (d2 := (xu - x) / w).
  assert (D1 : d1 * w = x - xl) by (unfold d1; field; lra). assert (D2 : d2 * w = xu - x) by (unfold d2; field; lra).
  assert (D1r : 0 <= d1 <= 1). { unfold d1. split; [apply Rmult_le_pos; [lra|apply Rlt_le, Rinv_0_lt_compat; auto]|].
    apply Rmult_le_reg_r with w; auto. unfold Rdiv. rewrite Rmult_assoc, Rinv_l by lra. unfold w; lra. }
  assert (D2r : 0 <= d2 <= 1). { unfold d2. split; [apply Rmult_le_pos; [lra|apply Rlt_le, Rinv_0_lt_compat; auto]|].
    apply Rmult_le_reg_r with w; auto. unfold Rdiv. rewrite Rmult_assoc, Rinv_l by lra. unfold w; lra. }
  pose proof (np_power_nonneg (1 - d1) (eta + 1)) as P1. pose proof (np_power_nonneg (1 - d2) (eta + 1)) as P2.
  pose proof (np_power_le1 (1 - d1) (eta + 1) ltac:(lra) ltac:(lra) ltac:(lra)) as Q1.
  pose proof (np_power_le1 (1 - d2) (eta + 1) ltac:(lra) ltac:(lra) ltac:(lra)) as Q2.
  destruct (Rle_dec rand (1 / 2)) as [Hd|Hd].
  - set (v := 2 * rand + (1 - 2 * rand) * np_power (1 - d1) (eta + 1)).
    assert (Hv : np_power (1 - d1) (eta + 1) <= v <= 1) by (unfold v; nra).
    pose proof (np_power_root v (1 - d1) (eta + 1) ltac:(lra) ltac:(lra) He ltac:(lra) ltac:(lra)) as [R1 R2].
    set (q := np_power v (1 / (eta + 1))) in *.
    assert (- d1 * w <= (q - 1) * w) by (apply Rmult_le_compat_r; lra).
    assert ((q - 1) * w <= 0 * w) by (apply Rmult_le_compat_r; lra). unfold w in *. split; [lra|split; intros; lra].
  - set (v := 2 * (1 - rand) + 2 * (rand - 1 / 2) * np_power (1 - d2) (eta + 1)).
    assert (Hv : np_power (1 - d2) (eta + 1) <= v <= 1) by (unfold v; nra).
    pose proof (np_power_root v (1 - d2) (eta + 1) ltac:(lra) ltac:(lra) He ltac:(lra) ltac:(lra)) as [R1 R2].
    set (q := np_power v (1 / (eta + 1))) in *.
    assert ((1 - q) * w <= d2 * w) by (apply Rmult_le_compat_r; lra).
    assert (0 * w <= (1 - q) * w) by (apply Rmult_le_compat_r; lra). unfold w in *. split; [lra|split; intros; lra].
Qed.
