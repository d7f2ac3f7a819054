(** * C34: the budget test in binary64.  Python computes [n / N >= 1.0] in floating point; for budgets up to 2^53 the rounding of the
    quotient never changes the outcome. *)
From Coq Require Import ZArith Reals Lra Lia.
From Flocq Require Import Core.
Local Open Scope R_scope.

Definition b64 : R -> R := round radix2 (FLT_exp (-1074) 53) ZnearestE.

Theorem C34_binary64 : forall n N : Z, (1 <= N <= 2 ^ 53)%Z -> (0 <= n)%Z -> (1 <= b64 (IZR n / IZR N) <-> (N <= n)%Z).
Proof.
  intros n N HN Hn. assert (HNr : 1 <= IZR N) by (apply IZR_le; lia).
  assert (Hrep1 : b64 1 = 1).
  { apply round_generic; [apply valid_rnd_N|]. apply generic_format_FLT. apply FLT_spec with (f := Float radix2 1 0); cbn; try lia.
    unfold F2R; cbn; lra. }
  split.
  - intros H. destruct (Z_lt_le_dec n N) as [Hlt|]; auto. exfalso.
    set (p := 1 - / IZR (2 ^ 53)).
    assert (Hp : b64 p = p).
    { apply round_generic; [apply valid_rnd_N|]. apply generic_format_FLT. apply FLT_spec with (f := Float radix2 (2 ^ 53 - 1) (-53)); cbn; try lia.
      unfold F2R, p; cbn. lra. }
    assert (Hle : IZR n / IZR N <= p).
    { apply Rmult_le_reg_r with (IZR N); [lra|]. unfold Rdiv. rewrite Rmult_assoc, Rinv_l by lra. rewrite Rmult_1_r.
      unfold p. rewrite Rmult_minus_distr_r, Rmult_1_l.
      assert (HnN : IZR n <= IZR N - 1) by (rewrite <- minus_IZR; apply IZR_le; lia).
      assert (/ IZR (2 ^ 53) * IZR N <= 1). { apply Rmult_le_reg_l with (IZR (2 ^ 53)); [lra|]. rewrite <- Rmult_assoc, Rinv_r by (cbn; lra). rewrite Rmult_1_l, Rmult_1_r.
        apply IZR_le. lia. }
      lra. }
    assert (Hr : b64 (IZR n / IZR N) <= p). { rewrite <- Hp. apply round_le; [apply FLT_exp_valid; reflexivity|apply valid_rnd_N|auto]. }
    assert (p < 1) by (unfold p; lra). lra.
  - intros H. rewrite <- Hrep1. apply round_le; [apply FLT_exp_valid; reflexivity|apply valid_rnd_N|].
    apply Rmult_le_reg_r with (IZR N); [lra|]. unfold Rdiv. rewrite Rmult_assoc, Rinv_l by lra. rewrite Rmult_1_l, Rmult_1_r. apply IZR_le; auto.
Qed.
Example C34_binary64_case : (1 <= 1000003 <= 2 ^ 53)%Z /\ (0 <= 1000002)%Z /\ ~ 1 <= b64 (IZR 1000002 / IZR 1000003).
Proof. split; [lia|]. split; [lia|]. intros H. apply C34_binary64 in H; lia. Qed.
Print Assumptions C34_binary64.
