(** * Proofs for M_RoundOps *)
From Coq Require Import Reals Lra Lia ZArith.
From Flocq Require Import Core Plus_error.
From Verif Require Import M_RoundOps.
Local Open Scope R_scope.

Global Instance fexp64_valid : Valid_exp fexp64.
Proof. apply FLT_exp_valid. unfold Prec_gt_0. lia. Qed.

Lemma rnd64_le x y : x <= y -> rnd64 x <= rnd64 y.
Proof. apply round_le; auto with typeclass_instances. Qed.
Lemma rnd64_id x : is_b64 x -> rnd64 x = x.
Proof. apply round_generic; auto with typeclass_instances. Qed.
Lemma is_b64_rnd x : is_b64 (rnd64 x).
Proof. apply generic_format_round; auto with typeclass_instances. Qed.
Lemma is_b64_0 : is_b64 0.
Proof. apply generic_format_0. Qed.

(** the product with r <= 1 - 2^-53 is at most the predecessor of a normal number *)
Lemma mult_below_pred d r : is_b64 d -> bpow radix2 (-1021) <= d -> 0 <= r -> r <= 1 - bpow radix2 (-53) ->
  rnd64 (d * r) <= pred radix2 fexp64 d.
Proof.
  intros Fd Hd Hr0 Hr1. pose proof (bpow_gt_0 radix2 (-1021)) as Hb.
  assert (Hdp : 0 < d) by lra.
  assert (Hup : d * r <= d * (1 - bpow radix2 (-53))) by (apply Rmult_le_compat_l; lra).
  apply Rle_trans with (rnd64 (d * (1 - bpow radix2 (-53)))); [apply rnd64_le; auto|].
  (* exponents *)
  destruct (mag radix2 d) as [e He]. specialize (He ltac:(lra)). rewrite Rabs_pos_eq in He by lra.
  assert (Hmag : mag_val radix2 d (mag radix2 d) = e). { apply mag_unique_pos. lra. }
  assert (He2 : (-1020 <= e)%Z). {  assert (bpow radix2 (-1021) < bpow radix2 e) by lra. apply lt_bpow in H. lia. }
  assert (Hulp : ulp radix2 fexp64 d = bpow radix2 (e - 53)).
  { rewrite ulp_neq_0 by lra. unfold cexp, fexp64, FLT_exp. rewrite Hmag. f_equal. lia. }
  destruct He as [He1 He3].
  assert (Hdm : d * bpow radix2 (-53) >= bpow radix2 (e - 1 - 53)).
  { apply Rle_ge. unfold Zminus at 1. rewrite bpow_plus. apply Rmult_le_compat_r; [apply bpow_ge_0|auto]. }
  destruct (Rle_lt_or_eq_dec _ _ He1) as [Hlt|Heq].
  - (* not a power of two: pred d = d - ulp d *)
    assert (Hpred : pred radix2 fexp64 d = d - bpow radix2 (e - 53)).
    { rewrite pred_eq_pos by lra. unfold pred_pos. rewrite Hmag. rewrite Req_bool_false by lra. now rewrite Hulp. }
    rewrite Hpred.
    assert (Hh : bpow radix2 (e - 53) = 2 * bpow radix2 (e - 1 - 53)).
    { replace (e - 53)%Z with (1 + (e - 1 - 53))%Z by lia. rewrite bpow_plus. f_equal. }
    assert (Hlt2 : d * (1 - bpow radix2 (-53)) < (d - bpow radix2 (e - 53) + d) / 2).
    { assert (bpow radix2 (e - 1) * bpow radix2 (-53) < d * bpow radix2 (-53)) by (apply Rmult_lt_compat_r; [apply bpow_gt_0|auto]).
      rewrite <- bpow_plus in H. replace (e - 1 + -53)%Z with (e - 1 - 53)%Z in H by lia. lra. }
    apply Rle_trans with (pred radix2 fexp64 d); [|rewrite Hpred; lra].
    apply round_N_le_midp; auto with typeclass_instances.
    + apply generic_format_pred; auto with typeclass_instances.
    + assert (Hsucc : succ radix2 fexp64 (pred radix2 fexp64 d) = d) by (apply succ_pred; auto with typeclass_instances).
      rewrite Hsucc, Hpred. lra.
  - (* d = 2^(e-1): d * (1 - 2^-53) = pred d exactly *)
    assert (Hpred : pred radix2 fexp64 d = d - bpow radix2 (e - 1 - 53)).
    { rewrite pred_eq_pos by lra. unfold pred_pos. rewrite Hmag. rewrite Req_bool_true by auto.
      f_equal. f_equal. unfold fexp64, FLT_exp. lia. }
    assert (E : d * (1 - bpow radix2 (-53)) = pred radix2 fexp64 d).
    { rewrite Hpred. rewrite Rmult_minus_distr_l, Rmult_1_r. f_equal. rewrite <- Heq, <- bpow_plus. reflexivity. }
    rewrite E. rewrite rnd64_id; [lra|]. apply generic_format_pred; auto with typeclass_instances.
Qed.

Lemma sample64_box xl xu r : is_b64 xl -> is_b64 xu -> xl <= xu -> 0 <= r -> r <= 1 - bpow radix2 (-53) ->
  xl <= sample64 xl xu r <= xu.
Proof.
  intros Fl Fu HB Hr0 Hr1. unfold sample64. pose proof (bpow_gt_0 radix2 (-53)) as Hb53.
  set (d := rnd64 (xu - xl)).
  assert (Hd0 : 0 <= d). { unfold d. rewrite <- (rnd64_id 0) by apply is_b64_0. apply rnd64_le. lra. }
  assert (Fd : is_b64 d) by apply is_b64_rnd.
  assert (Hm0 : 0 <= rnd64 (d * r)). { rewrite <- (rnd64_id 0) by apply is_b64_0. apply rnd64_le. apply Rmult_le_pos; auto. }
  split.
  { rewrite <- (rnd64_id xl) at 1 by auto. apply rnd64_le. lra. }
  assert (Hkey : rnd64 (d * r) <= xu - xl).
  { assert (Hle : rnd64 (d * r) <= d). { rewrite <- (rnd64_id d) at 2 by auto. apply rnd64_le. rewrite <- (Rmult_1_r d) at 2. apply Rmult_le_compat_l; lra. }
    destruct (Rle_lt_dec d (xu - xl)) as [Hd|Hd]; [lra|].
    (* d was rounded up: xu - xl is not representable, so d is normal *)
    assert (Hbig : bpow radix2 (-1021) <= xu - xl).
    { destruct (Rle_lt_dec (bpow radix2 (-1021)) (xu - xl)) as [|Hs]; auto. exfalso.
      assert (is_b64 (xu - xl)).
      { unfold Rminus. apply FLT_format_plus_small with (1 := ltac:(unfold Prec_gt_0; lia) : Prec_gt_0 53); auto.
        - apply generic_format_opp; auto.
        - replace (xu + - xl) with (xu - xl) by ring. rewrite Rabs_pos_eq by lra. simpl Zplus. lra. }
      rewrite <- (rnd64_id (xu - xl)) in Hd by auto. unfold d in Hd. lra. }
    assert (Hdb : bpow radix2 (-1021) <= d) by lra.
    apply Rle_trans with (pred radix2 fexp64 d); [apply mult_below_pred; auto|].
    (* the predecessor of d is below xu - xl *)
    destruct (Rle_lt_dec (pred radix2 fexp64 d) (xu - xl)) as [|Hc]; auto. exfalso.
    assert (H : d <= pred radix2 fexp64 d).
    { unfold d at 1. rewrite <- (rnd64_id (pred radix2 fexp64 d)); [apply rnd64_le; lra|]. apply generic_format_pred; auto with typeclass_instances. }
    pose proof (pred_lt_id radix2 fexp64 d ltac:(pose proof (bpow_gt_0 radix2 (-1021)); lra)). lra. }
  apply Rle_trans with (rnd64 xu); [apply rnd64_le; lra|rewrite rnd64_id; auto; lra].
Qed.
