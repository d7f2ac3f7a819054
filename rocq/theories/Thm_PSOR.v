(** * C78: the adaptive inertia weight *)
From Coq Require Import Reals Lra.
From Verif Require Import M_SwarmR.
Local Open Scope R_scope.
(** C78: whatever the evolutionary factor -- also when it is negative -- the inertia stays strictly between 0 and 1, it is 0.4 for factor 0 and grows with the factor *)
Theorem C78_inertia : pso_inertia 0 = 2 / 5 /\ (forall f, 0 < pso_inertia f < 1) /\ forall f g, f < g -> pso_inertia f < pso_inertia g.
Proof.
  unfold pso_inertia. assert (P : forall f, 0 < exp (- (13 / 5) * f)) by (intros; apply exp_pos). split; [|split].
  - rewrite Rmult_0_r, exp_0. lra.
  - intros f. specialize (P f). split; [apply Rdiv_lt_0_compat; lra|]. apply (Rmult_lt_reg_r (1 + 3 / 2 * exp (- (13 / 5) * f))); [lra|]. field_simplify; lra.
  - intros f g H. pose proof (P f). pose proof (P g). assert (exp (- (13 / 5) * g) < exp (- (13 / 5) * f)) by (apply exp_increasing; lra).
    unfold Rdiv. rewrite !Rmult_1_l. apply Rinv_lt_contravar; [apply Rmult_lt_0_compat; lra|lra].
Qed.
Print Assumptions C78_inertia.
