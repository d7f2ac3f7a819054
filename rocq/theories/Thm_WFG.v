(** * C116: the WFG transformations *)
From Coq Require Import Reals List Arith Lra Lia Psatz.
From Verif Require Import ListAux M_NSGA3R M_Bench M_RealOps P_RealOps M_DTLZ M_DF S_Bench Thm_Bench Thm_Bench2 Thm_DF M_WFG.
Import ListNotations.
Local Open Scope R_scope.

Definition unit_ (v : R) : Prop := 0 <= v <= 1.
Lemma correct_id v : unit_ v -> correct_to_01 v = v.
Proof. intros [H1 H2]. unfold correct_to_01. destruct (Rlt_dec v 0); [lra|]. destruct (Rlt_dec 1 v); [lra|auto]. Qed.
Lemma floor_val r z : IZR z <= r < IZR z + 1 -> floorR r = IZR z.
Proof.
  intros [H1 H2]. unfold floorR. f_equal. pose proof (floor_spec r) as [F1 F2]. apply Z.le_antisymm.
  - apply Z.lt_succ_r, lt_IZR. rewrite succ_IZR. lra.
  - apply Z.lt_succ_r, lt_IZR. rewrite succ_IZR. lra.
Qed.
Lemma floor0 r : 0 <= r < 1 -> floorR r = 0.
Proof. intros. apply (floor_val r 0). lra. Qed.
Lemma floorm1 r : -1 <= r < 0 -> floorR r = -1.
Proof. intros. apply (floor_val r (-1)). lra. Qed.
Lemma unit_div a b : 0 < b -> 0 <= a <= b -> unit_ (a / b).
Proof.
  intros Hb [H1 H2]. split; [apply Rmult_le_pos; [lra|left; now apply Rinv_0_lt_compat]|]. apply Rmult_le_reg_r with b; auto. unfold Rdiv. rewrite Rmult_assoc, Rinv_l by lra. lra.
Qed.

(** ** shift_linear *)
Lemma linear_val v : unit_ v -> shift_linear v 0.35 = if Rle_dec v 0.35 then (0.35 - v) / 0.35 else (v - 0.35) / 0.65.
Proof.
  intros [H1 H2]. unfold shift_linear. destruct (Rle_dec v 0.35).
  - rewrite floor0 by lra. rewrite (Rabs_left1 (v - 0.35)), (Rabs_pos_eq (0 + 0.35)) by lra. replace (- (v - 0.35) / (0 + 0.35)) with ((0.35 - v) / 0.35) by (f_equal; lra). apply correct_id, unit_div; lra.
  - rewrite floorm1 by lra. rewrite (Rabs_pos_eq (v - 0.35)), (Rabs_left1 (-1 + 0.35)) by lra. replace ((v - 0.35) / - (-1 + 0.35)) with ((v - 0.35) / 0.65) by (f_equal; lra). apply correct_id, unit_div; lra.
Qed.
Lemma linear_unit v : unit_ v -> unit_ (shift_linear v 0.35).
Proof. intros H. rewrite linear_val by auto. destruct H. destruct (Rle_dec v 0.35); apply unit_div; lra. Qed.
Lemma linear_0 : shift_linear 0.35 0.35 = 0.
Proof. rewrite linear_val by (split; lra). destruct (Rle_dec 0.35 0.35); [|lra]. unfold Rdiv. rewrite Rminus_diag_eq by lra. lra. Qed.

(** ** the deceptive transformation with A = 0.35, B = 0.001, C = 0.05 *)
Definition dec_ (y : R) : R := deceptive y 0.35 0.001 0.05.
Lemma dec_core y : unit_ y -> exists v, dec_ y = correct_to_01 v /\ unit_ v /\ (0.349 <= y <= 0.35 -> v = (0.35 - y) * 1000).
Proof.
  intros [H1 H2]. unfold dec_, deceptive. eexists. split; [reflexivity|].
  assert (E1 : (0.35 - 0.001) / 0.001 = 349) by lra. assert (E2 : (1 - 0.35 - 0.001) / 0.001 = 649) by lra. assert (E3 : 1 / 0.001 = 1000) by lra. rewrite E1, E2, E3.
  replace (1 - 0.05 + 349) with 349.95 by lra. replace (1 - 0.05 + 649) with 649.95 by lra.
  destruct (Rle_dec 0.349 y).
  - rewrite (floor0 (y - 0.35 + 0.001)) by lra. destruct (Rle_dec y 0.351).
    + rewrite (floor0 (0.35 + 0.001 - y)) by lra. replace (0 * 349.95 / (0.35 - 0.001) + 0 * 649.95 / (1 - 0.35 - 0.001) + 1000) with 1000 by lra.
      destruct (Rle_dec y 0.35); [rewrite Rabs_left1 by lra|rewrite Rabs_pos_eq by lra]; split; try (split; lra); intros; lra.
    + rewrite (floorm1 (0.35 + 0.001 - y)) by lra. rewrite Rabs_pos_eq by lra. split; [split; lra|intros; lra].
  - rewrite (floorm1 (y - 0.35 + 0.001)) by lra. rewrite (floor0 (0.35 + 0.001 - y)) by lra. rewrite Rabs_left1 by lra. split; [split; lra|intros; lra].
Qed.
Lemma dec_unit y : unit_ y -> unit_ (dec_ y).
Proof. intros H. destruct (dec_core y H) as (v & -> & U & _). now rewrite correct_id. Qed.
Lemma dec_reach z : unit_ z -> unit_ (0.35 - z / 1000) /\ dec_ (0.35 - z / 1000) = z.
Proof.
  intros [Z1 Z2]. assert (U : unit_ (0.35 - z / 1000)) by (split; lra). split; auto. destruct (dec_core _ U) as (v & -> & UV & E). rewrite correct_id by auto. rewrite E; lra.
Qed.
Lemma dec_0 : dec_ 0.35 = 0.
Proof. destruct (dec_reach 0 ltac:(split; lra)) as [_ E]. replace (0.35 - 0 / 1000) with 0.35 in E by lra. exact E. Qed.

(** ** the multi-modal transformation; B >= 0 *)
Definition mm_ (B y : R) : R := multi_modal y 30 B 0.35.
Lemma mm_core B y : 0 <= B -> unit_ y -> exists u, -(1/2) <= u <= 1/2 /\ mm_ B y = correct_to_01 ((1 + cos ((4 * 30 + 2) * PI * (0.5 - u)) + 4 * B * u ^ 2) / (B + 2)) /\ unit_ ((1 + cos ((4 * 30 + 2) * PI * (0.5 - u)) + 4 * B * u ^ 2) / (B + 2)) /\ (y <= 0.35 -> u = (0.35 - y) / 0.7).
Proof.
  intros HB [H1 H2]. exists (Rabs (y - 0.35) / (2 * (floorR (0.35 - y) + 0.35))).
  assert (HU : -(1/2) <= Rabs (y - 0.35) / (2 * (floorR (0.35 - y) + 0.35)) <= 1/2 /\ (y <= 0.35 -> Rabs (y - 0.35) / (2 * (floorR (0.35 - y) + 0.35)) = (0.35 - y) / 0.7)).
  { destruct (Rle_dec y 0.35).
    - rewrite floor0, Rabs_left1 by lra. replace (2 * (0 + 0.35)) with 0.7 by lra. split; [lra|intros; f_equal; lra].
    - rewrite floorm1, Rabs_pos_eq by lra. replace (2 * (-1 + 0.35)) with (-1.3) by lra. split; [lra|intros; lra]. }
  destruct HU as [HU HE]. split; auto. split; [reflexivity|]. split; auto. set (u := Rabs _ / _) in *. pose proof (cos_b ((4 * 30 + 2) * PI * (0.5 - u))) as HC. assert (u ^ 2 <= 1/4) by nra. assert (0 <= u ^ 2) by nra.
  apply unit_div; [lra|]. split; [nra|]. nra.
Qed.
Lemma mm_unit B y : 0 <= B -> unit_ y -> unit_ (mm_ B y).
Proof. intros HB H. destruct (mm_core B y HB H) as (u & _ & -> & U & _). now rewrite correct_id. Qed.
Lemma cos_61 : cos ((4 * 30 + 2) * PI * (0.5 - 0)) = -1.
Proof. replace ((4 * 30 + 2) * PI * (0.5 - 0)) with (PI + 2 * INR 30 * PI) by (rewrite INR_IZR_INZ; cbn [Z.of_nat Pos.of_succ_nat Pos.succ]; lra). rewrite cos_period. apply cos_PI. Qed.
Lemma mm_0 B : 0 <= B -> mm_ B 0.35 = 0.
Proof.
  intros HB. destruct (mm_core B 0.35 HB ltac:(split; lra)) as (u & _ & -> & U & E). rewrite correct_id by auto. rewrite E by lra. replace ((0.35 - 0.35) / 0.7) with 0 by lra. rewrite cos_61. field. lra.
Qed.
(** every value between 0 and 1 is taken between 0 and 0.35 *)
Lemma mm_reach B z : 0 <= B -> unit_ z -> exists y, unit_ y /\ mm_ B y = z.
Proof.
  intros HB [Z1 Z2]. set (f := fun u => (1 + cos ((4 * 30 + 2) * PI * (0.5 - u)) + 4 * B * u ^ 2) / (B + 2) - z).
  assert (CF : continuity f) by (unfold f; reg; lra).
  assert (F0 : f 0 <= 0) by (unfold f; rewrite cos_61; replace (1 + -1 + 4 * B * 0 ^ 2) with 0 by ring; lra).
  assert (F1 : 0 <= f (1/2)). { unfold f. replace ((4 * 30 + 2) * PI * (0.5 - 1 / 2)) with 0 by lra. rewrite cos_0. replace ((1 + 1 + 4 * B * (1 / 2) ^ 2) / (B + 2)) with 1 by (field; lra). lra. }
  assert (EX : exists u, 0 <= u <= 1/2 /\ f u = 0).
  { destruct (IVT_cor f 0 (1/2) CF ltac:(lra)) as (u & HU & EU); [nra|]. exists u. auto. }
  destruct EX as (u & HU & EU). exists (0.35 - 0.7 * u). assert (UY : unit_ (0.35 - 0.7 * u)) by (split; lra). split; auto. destruct (mm_core B _ HB UY) as (u' & _ & -> & UV & E). rewrite correct_id by auto.
  rewrite E by lra. replace ((0.35 - (0.35 - 0.7 * u)) / 0.7) with u by lra. unfold f in EU. lra.
Qed.

(** ** bias_flat with 0.8, 0.75, 0.85 *)
Definition flat_ (y : R) : R := bias_flat y 0.8 0.75 0.85.
Lemma Rmin_0_0 : Rmin 0 0 = 0. Proof. apply Rmin_left; lra. Qed.
Lemma Rmin_0_m1 : Rmin 0 (-1) = -1. Proof. apply Rmin_right; lra. Qed.
Lemma flat_core y : unit_ y -> exists v, flat_ y = correct_to_01 v /\ unit_ v /\ (y = 0 -> v = 0).
Proof.
  intros [H1 H2]. unfold flat_, bias_flat. eexists. split; [reflexivity|]. destruct (Rle_dec 0.75 y).
  - rewrite (floor0 (y - 0.75)) by lra. rewrite Rmin_0_0. destruct (Rle_dec y 0.85).
    + rewrite (floor0 (0.85 - y)) by lra. rewrite Rmin_0_0. split; [split; lra|intros; lra].
    + rewrite (floorm1 (0.85 - y)) by lra. rewrite Rmin_0_m1. split; [split; lra|intros; lra].
  - rewrite (floorm1 (y - 0.75)), (floor0 (0.85 - y)) by lra. rewrite Rmin_0_0, Rmin_0_m1. split; [split; lra|intros; subst; lra].
Qed.
Lemma flat_unit y : unit_ y -> unit_ (flat_ y).
Proof. intros H. destruct (flat_core y H) as (v & -> & U & _). now rewrite correct_id. Qed.
Lemma flat_0 : flat_ 0 = 0.
Proof. destruct (flat_core 0 ltac:(split; lra)) as (v & -> & U & E). rewrite correct_id by auto. now apply E. Qed.

(** ** powers *)
Lemma power_unit v e : unit_ v -> 0 < e -> unit_ (np_power v e).
Proof. intros [H1 H2] He. split; [rewrite <- (np_power_0 e)|rewrite <- (np_power_1 e)]; apply np_power_le; lra. Qed.
Lemma power_inv v e : unit_ v -> 0 < e -> unit_ (np_power v (/ e)) /\ np_power (np_power v (/ e)) e = v.
Proof.
  intros H He. assert (0 < / e) by now apply Rinv_0_lt_compat. split; [now apply power_unit|]. destruct H as [H1 H2]. destruct (Req_dec v 0) as [->|N]; [now rewrite !np_power_0|].
  rewrite (np_power_pos v) by lra. rewrite np_power_pos by apply exp_pos. rewrite Rpower_mult, Rinv_l by lra. apply Rpower_1. lra.
Qed.
Definition poly_ (y : R) : R := bias_poly y 0.02.
Lemma poly_unit y : unit_ y -> unit_ (poly_ y).
Proof. intros H. unfold poly_, bias_poly. rewrite correct_id; apply power_unit; auto; lra. Qed.
Lemma poly_0 : poly_ 0 = 0.
Proof. unfold poly_, bias_poly. rewrite np_power_0. apply correct_id. split; lra. Qed.
Lemma poly_reach z : unit_ z -> unit_ (np_power z 50) /\ poly_ (np_power z 50) = z.
Proof.
  intros H. destruct (power_inv z 0.02 H ltac:(lra)) as [P1 P2]. replace (/ 0.02) with 50 in * by lra. split; auto. unfold poly_, bias_poly. rewrite P2. now apply correct_id.
Qed.

(** ** the parameter-dependent exponent *)
Lemma exponent_val u : unit_ u -> (u <= 0.5 -> dep_exponent u = 0.02 + 1.96 * u) /\ 0.02 <= dep_exponent u.
Proof.
  intros [H1 H2]. unfold dep_exponent. set (A := 0.98 / 49.98). assert (EA : A * 49.98 = 0.98) by (unfold A; lra). assert (0 < A < 1) by lra.
  replace (50 - 0.02) with 49.98 by lra. destruct (Rle_dec u 0.5).
  - rewrite floor0, Rabs_pos_eq by lra. split; intros; nra.
  - rewrite floorm1, Rabs_left1 by lra. split; [intros; lra|]. nra.
Qed.
Lemma dependent_unit y u : unit_ y -> unit_ u -> unit_ (param_dependent y u).
Proof. intros Hy Hu. pose proof (exponent_val u Hu) as [_ E]. unfold param_dependent. rewrite correct_id; apply power_unit; auto; lra. Qed.
Lemma dependent_reach z u : unit_ z -> unit_ u -> unit_ (np_power z (/ dep_exponent u)) /\ param_dependent (np_power z (/ dep_exponent u)) u = z.
Proof.
  intros Hz Hu. pose proof (exponent_val u Hu) as [_ E]. destruct (power_inv z (dep_exponent u) Hz ltac:(lra)) as [P1 P2]. split; auto. unfold param_dependent. rewrite P2. now apply correct_id.
Qed.
