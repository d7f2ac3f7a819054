(** * C116: the mixed shape, and the transformed vectors *)
From Coq Require Import Reals List Arith ZArith Lra Lia Psatz.
From Verif Require Import ListAux M_NSGA3R M_Bench M_RealOps P_RealOps M_DTLZ M_DF S_Bench Thm_Bench Thm_Bench2 Thm_DTLZ Thm_DF Thm_DF2 M_WFG Thm_WFG Thm_WFG2 Thm_WFG3.
Import ListNotations.
Local Open Scope R_scope.

(** ** mixed *)
Lemma sin_strict a b : a < b -> sin b - sin a < b - a.
Proof.
  intros H. set (m := (a + b) / 2).
  assert (S2 : sin b - sin a = 2 * cos m * sin ((b - a) / 2)).
  { replace b with (m + (b - a) / 2) at 1 by (unfold m; lra). replace a with (m - (b - a) / 2) at 2 by (unfold m; lra). rewrite sin_plus, sin_minus. ring. }
  rewrite S2. pose proof (COS_bound m) as [C1 C2]. pose proof (sin_lt_x ((b - a) / 2) ltac:(lra)) as B1.
  assert (B2 : - ((b - a) / 2) < sin ((b - a) / 2)).
  { pose proof PI2_3_2 as P. destruct (Rle_dec ((b - a) / 2) 1); [assert (0 < sin ((b - a) / 2)) by (apply sin_gt_0; lra); lra|pose proof (SIN_bound ((b - a) / 2)); lra]. }
  destruct (Rle_dec 0 (sin ((b - a) / 2))); nra.
Qed.
Definition mx (x : R) : R := 1 - x - cos (2 * 5 * PI * x + 0.5 * PI) / (2 * 5 * PI).
Lemma mx_sin x : mx x = 1 - x + sin (10 * PI * x) / (10 * PI).
Proof.
  pose proof PI_RGT_0. unfold mx. replace (2 * 5 * PI * x + 0.5 * PI) with (PI / 2 + 10 * PI * x) by lra. rewrite <- (Ropp_involutive (cos (PI / 2 + 10 * PI * x))), <- sin_cos. replace (2 * 5 * PI) with (10 * PI) by ring. field. lra.
Qed.
Lemma mx_lt x y : x < y -> mx y < mx x.
Proof.
  intros H. pose proof PI_RGT_0 as HP. rewrite !mx_sin. pose proof (sin_strict (10 * PI * x) (10 * PI * y) ltac:(nra)) as S1.
  assert (E : sin (10 * PI * y) / (10 * PI) - sin (10 * PI * x) / (10 * PI) < y - x); [|lra].
  replace (y - x) with ((10 * PI * y - 10 * PI * x) / (10 * PI)) by (field; lra). unfold Rdiv. rewrite <- Rmult_minus_distr_r. apply Rmult_lt_compat_r; [apply Rinv_0_lt_compat; lra|exact S1].
Qed.
Lemma mx_0 : mx 0 = 1.
Proof. rewrite mx_sin, Rmult_0_r, sin_0. lra. Qed.
Lemma mx_1 : mx 1 = 0.
Proof. pose proof PI_RGT_0. rewrite mx_sin. replace (10 * PI * 1) with (0 + 2 * INR 5 * PI) by (cbn; lra). rewrite sin_period, sin_0. unfold Rdiv. lra. Qed.
Lemma mixed_val x : unit_ x -> shape_mixed x 5 1 = mx x /\ unit_ (mx x).
Proof.
  intros [H1 H2]. assert (U : unit_ (mx x)).
  { split; [rewrite <- mx_1; destruct H2 as [H2| ->]; [left; now apply mx_lt|lra]|rewrite <- mx_0; destruct H1 as [H1|<-]; [left; now apply mx_lt|lra]]. }
  split; auto. unfold shape_mixed. fold (mx x). assert (E : np_power (mx x) 1 = mx x).
  { destruct U as [[U|<-] _]; [rewrite np_power_pos, Rpower_1 by lra; auto|apply np_power_0]. }
  rewrite E. now apply correct_id.
Qed.

(** ** WFG1's shape vector *)
Definition convex_mixed (M : nat) (z : list R) : list R := map (fun i => shape_convex z (i + 1)) (seq 0 M) ++ [shape_mixed (nth 0 z 0) 5 1].
Lemma convex_mixed_val v t : units (v :: t) -> convex_mixed (S (length t)) (v :: t) = obj_rows (S (length t)) (ca v) (map ca t) (map cb t) ++ [mx v] /\ units (convex_mixed (S (length t)) (v :: t)).
Proof.
  intros H. destruct (shape_rows ca cb ca_unit cb_unit (v :: t) (S (length t)) H ltac:(cbn; lia) ltac:(cbn; lia)) as [E U]. destruct (mixed_val v (Forall_inv H)) as [EM UM].
  unfold convex_mixed, shape_convex. change (fun v0 : R => 1 - cos (0.5 * v0 * PI)) with ca. change (fun v0 : R => 1 - sin (0.5 * v0 * PI)) with cb. cbn [nth]. rewrite EM. split.
  - f_equal. rewrite E. assert (O : obj_rows (S (length (v :: t))) 1 (map ca (v :: t)) (map cb (v :: t)) = obj_rows (S (length t)) (1 * ca v) (map ca t) (map cb t) ++ [1 * cb v]) by (cbn [map length]; rewrite <- (map_length ca t); apply obj_rows_cons).
    rewrite O, Rmult_1_l, firstn_app, obj_rows_length, Nat.sub_diag, firstn_O, app_nil_r, firstn_all2 by (rewrite obj_rows_length; lia). reflexivity.
  - apply Forall_app. split; auto.
Qed.
Lemma convex_mixed_rigid M : (1 <= M)%nat -> rigid (convex_mixed M) M.
Proof.
  intros HM [|v t] [|v' t'] L L' U U' W; cbn [length] in *; try lia. subst M. injection L' as L'. destruct (convex_mixed_val v t U) as [E _]. destruct (convex_mixed_val v' t' U') as [E' _]. rewrite L' in E'. rewrite E, E' in *.
  pose proof (Forall_inv U) as V. pose proof (Forall_inv U') as V'. pose proof (Forall_inv_tail U) as UT. pose proof (Forall_inv_tail U') as UT'.
  apply weak_snoc in W as [W1 W2]; [|now rewrite !obj_rows_length]. assert (LE : v <= v') by (apply Rnot_lt_le; intros K; pose proof (mx_lt _ _ K); lra).
  pose proof (ca_le v v' V V' LE). destruct (ca_unit v V) as [A1 _]. destruct (convex_rows_rigid t t' (ca v) (ca v') L' UT UT' ltac:(lra) W1) as [EQ ER]. rewrite ER. f_equal. apply ca_inj in EQ; auto. congruence.
Qed.
