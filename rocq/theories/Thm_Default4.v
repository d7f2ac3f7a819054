(** * C101: UntilFeasibleTermination, and concrete runs of the default termination *)
From Coq Require Import List Arith Bool QArith Qabs Lia Lqa.
From Verif Require Import ListAux M_Termination P_Termination Thm_Termination M_Default Thm_Default Thm_Default2 Thm_Default3.
Import ListNotations.
Local Open Scope nat_scope.

Lemma until_step i cv : (0 < i)%Q -> let '(p, j) := until_feasible (Some i) cv in j = Some i /\ ((0 <= p)%Q <-> (cv <= i)%Q) /\ ((1 <= p)%Q <-> (cv <= 0)%Q).
Proof.
  intros Hi. unfold until_feasible. split; [reflexivity|].
  assert (E : (cv == (cv / i) * i)%Q) by (field; intros C; rewrite C in Hi; now apply Qlt_irrefl in Hi).
  set (q := (cv / i)%Q) in *. split; split; intros H.
  - assert (q * i <= 1 * i)%Q by (apply Qmult_le_compat_r; [lra|lra]). lra.
  - assert (q <= 1)%Q; [|lra]. apply (Qmult_le_r _ _ i); auto. lra.
  - assert (q * i <= 0 * i)%Q by (apply Qmult_le_compat_r; [lra|lra]). lra.
  - assert (q <= 0)%Q; [|lra]. apply (Qmult_le_r _ _ i); auto. lra.
Qed.
Lemma until_run_ref i cvs : (0 < i)%Q -> cvs <> [] ->
  (Forall (fun c => (c <= i)%Q) cvs -> until_run (Some i) cvs = Some (Qle_bool (last cvs 0%Q) 0)) /\
  (~ Forall (fun c => (c <= i)%Q) cvs -> until_run (Some i) cvs = None).
Proof.
  intros Hi. induction cvs as [|c r IH]; intros Hne; [congruence|]. cbn [until_run]. pose proof (until_step i c Hi) as U.
  destruct (until_feasible (Some i) c) as [p j]. destruct U as (-> & U1 & U2). destruct (Qle_bool 0 p) eqn:E.
  - apply Qle_bool_iff, U1 in E. destruct r as [|c' r'].
    + split; [|intros H; exfalso; apply H; repeat constructor; auto]. intros _. cbn [last]. f_equal. apply eq_iff_eq_true. now rewrite !Qle_bool_iff.
    + destruct IH as [I1 I2]; [discriminate|]. split.
      * intros H. apply Forall_inv_tail in H. now rewrite I1.
      * intros H. apply I2. intros C. apply H. now constructor.
  - split; [|reflexivity]. intros H. apply Forall_inv in H. apply U1, Qle_bool_iff in H. congruence.
Qed.
(** ** C101: UntilFeasibleTermination.  The reference is the first violation (1e-32 if that is already zero): as long as the violation of the optimum stays at or below it, the criterion
    is complete exactly when the violation is zero; the first violation above it makes the update raise *)
Theorem C101_until_feasible : forall c cs, let ref := if Qle_bool c 0 then (1 # (10 ^ 32))%Q else c in
  (Forall (fun v => (v <= ref)%Q) (c :: cs) -> exists b, until_run None (c :: cs) = Some b /\ (b = true <-> (last (c :: cs) 0 <= 0)%Q)) /\
  ((exists v, In v (c :: cs) /\ (ref < v)%Q) -> until_run None (c :: cs) = None).
Proof.
  intros c cs ref. assert (Hr : (0 < ref)%Q).
  { unfold ref. destruct (Qle_bool c 0) eqn:E; [reflexivity|]. apply Qnot_le_lt. intros C. apply Qle_bool_iff in C. congruence. }
  assert (E : until_run None (c :: cs) = until_run (Some ref) (c :: cs)) by reflexivity. rewrite E.
  destruct (until_run_ref ref (c :: cs) Hr ltac:(discriminate)) as [U1 U2]. split.
  - intros H. eexists. split; [now apply U1|]. apply Qle_bool_iff.
  - intros (v & V1 & V2). apply U2. intros C. rewrite Forall_forall in C. specialize (C v V1). lra.
Qed.
Example C101_until_case : until_run None [2; 1; 2; 0]%Q = Some true /\ until_run None [2; 1]%Q = Some false /\ until_run None [2; 3]%Q = None /\ until_run None [0]%Q = Some true.
Proof. vm_compute. auto. Qed.

(** ** C101: concrete runs (period 2, no skipping): the best value 5, 3, 3, 3, ... stalls; the stop comes with the third repetition, not before *)
Definition c101_obs (n : nat) (f x : Q) : tobs Q := {| ob_n_gen := n; ob_n_eval := 10 * n; ob_constr := false; ob_F := [[f]]; ob_feas := [true]; ob_cv := [0%Q]; ob_x := x |}.
Definition c101_dx (a b : Q) : option Q := Some (Qabs (a - b)).
Definition c101_stop (period : nat) (os : list (tobs Q)) : option bool :=
  option_map has_terminated (default_run c101_dx (fun _ _ => 0%Q) (1 # 100) (1 # 100) (1 # 100) 0 (default_single period (Limit 100) (Limit 4000)) os).
Example C101_case :
  c101_stop 2 [c101_obs 1 5 0; c101_obs 2 3 1; c101_obs 3 3 2] = Some false /\
  c101_stop 2 [c101_obs 1 5 0; c101_obs 2 3 1; c101_obs 3 3 2; c101_obs 4 3 3] = Some true /\
  c101_stop 2 [c101_obs 1 5 0; c101_obs 2 3 1; c101_obs 3 2 2; c101_obs 4 1 3] = Some false /\
  c101_stop 2 [c101_obs 1 5 0; c101_obs 2 3 1; c101_obs 100 2 2] = Some true.
Proof. vm_compute. auto. Qed.
(** the variables alone can stop a run in which nothing feasible was found and the violation still decreases *)
Definition c101_inf (n : nat) (cv : Q) : tobs Q := {| ob_n_gen := n; ob_n_eval := n; ob_constr := true; ob_F := [[0%Q]]; ob_feas := [false]; ob_cv := [cv]; ob_x := 0%Q |}.
Example C101_case_x : c101_stop 2 [c101_inf 1 9; c101_inf 2 8; c101_inf 3 7] = Some true.
Proof. vm_compute. auto. Qed.
