(** * C26 (continued): SBX and polynomial mutation in exact arithmetic stay inside even without the final clamp; the clamp only undoes
    rounding errors.  These theorems are about real numbers and use the axioms of Coq's [Reals] library. *)
From Coq Require Import Reals Lra.
From Verif Require Import M_RealOps P_RealOps.
Local Open Scope R_scope.

(** children of parents y1 < y2 inside the box: the lower child lies between xl and the mean of the parents, the upper one between mean and xu *)
Theorem C26_sbx_exact : forall y1 y2 xl xu eta rand,
  xl <= y1 -> y1 < y2 -> y2 <= xu -> 0 < eta + 1 -> 0 <= rand -> rand < 1 ->
  xl <= sbx_c1_R y1 y2 xl eta rand <= (y1 + y2) / 2 /\ (y1 + y2) / 2 <= sbx_c2_R y1 y2 xu eta rand <= xu.
Proof. exact sbx_exact_box. Qed.
Example C26_sbx_exact_case : (0 <= 1 /\ 1 < 2 /\ 2 <= 3 /\ 0 < 15 + 1 /\ 0 <= 1/3 < 1). Proof. lra. Qed.

(** polynomial mutation: inside the box; random numbers up to 1/2 move the value down, larger ones up *)
Theorem C26_pm_exact : forall x xl xu eta rand, xl < xu -> xl <= x <= xu -> 0 < eta + 1 -> 0 <= rand < 1 ->
  xl <= mut_pm_R x xl xu eta rand <= xu /\
  (rand <= 1 / 2 -> mut_pm_R x xl xu eta rand <= x) /\ (1 / 2 < rand -> x <= mut_pm_R x xl xu eta rand).
Proof. exact pm_exact_box. Qed.
Example C26_pm_exact_case : mut_pm_R 1 0 2 1 0 = 0.
Proof.
  unfold mut_pm_R. cbv zeta. destruct (Rle_dec 0 (1 / 2)); [|lra].
  replace (2 * 0 + (1 - 2 * 0) * np_power (1 - (1 - 0) / (2 - 0)) (1 + 1)) with (np_power (1 / 2) 2).
  2: { replace (1 - (1 - 0) / (2 - 0)) with (1 / 2) by field. replace (1 + 1) with 2 by ring. ring. }
  rewrite (np_power_pos (1 / 2) 2) by lra. rewrite np_power_pos by apply exp_pos.
  rewrite Rpower_mult. replace (2 * (1 / (1 + 1))) with 1 by field. rewrite Rpower_1 by lra. lra.
Qed.
Print Assumptions C26_sbx_exact.
Print Assumptions C26_pm_exact.
