(** * C118: Adam, the projections and the points of the simplex *)
From Coq Require Import List Arith Bool Reals Lra Lia.
From Verif Require Import ListAux M_NSGA3R M_Energy.
Import ListNotations.
Local Open Scope R_scope.

(** ** the step of Adam is bounded *)
Lemma pow_bounds p t : 0 < p < 1 -> (1 <= t)%nat -> 0 < p ^ t <= p.
Proof.
  intros Hp Ht. destruct t as [|t]; [lia|]. cbn [pow]. assert (0 < p ^ t) by (apply pow_lt; lra). assert (p ^ t <= 1). { clear -Hp. induction t as [|t IH]; cbn; [lra|]. assert (0 < p ^ t) by (apply pow_lt; lra). nra. }
  split; nra.
Qed.
(** the bias corrections: 1 - b2^t <= (1 - b1^t)^2 *)
Lemma bias t : (1 <= t)%nat -> 1 - (999 / 1000) ^ t <= (1 - (9 / 10) ^ t) ^ 2.
Proof.
  intros Ht. destruct t as [|t]; [lia|]. clear Ht. induction t as [|t IH]; [cbn; lra|].
  pose proof (pow_bounds (9 / 10) (S t) ltac:(lra) ltac:(lia)) as P. change ((999 / 1000) ^ S (S t)) with (999 / 1000 * (999 / 1000) ^ S t). change ((9 / 10) ^ S (S t)) with (9 / 10 * (9 / 10) ^ S t).
  set (p := (9 / 10) ^ S t) in *. set (q := (999 / 1000) ^ S t) in *. nra.
Qed.
Definition moment_ok (c : cell) : Prop := 0 <= c_v c /\ c_m c ^ 2 <= 64 * c_v c.
Lemma adam_moments alpha t c g : moment_ok c -> moment_ok (adam_cell alpha t c g).
Proof.
  unfold moment_ok, adam_cell. cbn [c_m c_v]. intros [H1 H2]. split; [nra|].
  (* (a m + b g)^2 <= a^2 m^2 / w + b^2 g^2 / (1 - w), w = 0.82 *)
  assert (K : (9 / 10 * c_m c + (1 - 9 / 10) * g) ^ 2 <= 81 / 82 * c_m c ^ 2 + / 18 * g ^ 2).
  { assert (0 <= (9 / 10 * c_m c * / 10 * 18 - 82 * / 100 * g) ^ 2) by apply pow2_ge_0. nra. }
  assert (0 <= g * g) by nra. assert (81 / 82 * c_m c ^ 2 <= 64 * (999 / 1000 * c_v c)) by nra. nra.
Qed.
Lemma adam_move alpha t c g : 0 <= alpha -> (1 <= t)%nat -> moment_ok c -> Rabs (c_x (adam_cell alpha t c g) - c_x c) <= 8 * alpha.
Proof.
  intros Ha Ht Hc. pose proof (adam_moments alpha t c g Hc) as [K1 K2]. unfold adam_cell in *. cbn [c_x c_m c_v] in *. set (m := 9 / 10 * c_m c + (1 - 9 / 10) * g) in *. set (v := 999 / 1000 * c_v c + (1 - 999 / 1000) * (g * g)) in *.
  pose proof (pow_bounds (9 / 10) t ltac:(lra) Ht) as P1. pose proof (pow_bounds (999 / 1000) t ltac:(lra) Ht) as P2. pose proof (bias t Ht) as B.
  set (p := (9 / 10) ^ t) in *. set (q := (999 / 1000) ^ t) in *.
  assert (Hp : 0 < 1 - p) by lra. assert (Hq : 0 < 1 - q) by lra. assert (Hs : 0 <= sqrt (v / (1 - q))) by apply sqrt_pos.
  assert (HM : Rabs (m / (1 - p)) <= 8 * sqrt (v / (1 - q))).
  { assert (Hv : 0 <= v / (1 - q)) by (apply Rmult_le_pos; [auto|left; now apply Rinv_0_lt_compat]).
    apply Rsqr_incr_0_var; [|lra]. rewrite <- Rsqr_abs. unfold Rsqr. replace (8 * sqrt (v / (1 - q)) * (8 * sqrt (v / (1 - q)))) with (64 * (sqrt (v / (1 - q)) * sqrt (v / (1 - q)))) by ring. rewrite sqrt_sqrt by auto.
    replace (m / (1 - p) * (m / (1 - p))) with (m ^ 2 / (1 - p) ^ 2) by (field; lra).
    apply Rle_trans with (64 * v / (1 - p) ^ 2); [apply Rmult_le_compat_r; [left; apply Rinv_0_lt_compat; nra|lra]|].
    replace (64 * (v / (1 - q))) with (64 * v * / (1 - q)) by (unfold Rdiv; ring). unfold Rdiv. apply Rmult_le_compat_l; [lra|]. apply Rinv_le_contravar; lra. }
  replace (c_x c - alpha * (m / (1 - p)) / (sqrt (v / (1 - q)) + 1 / 100000000) - c_x c) with (- (alpha * ((m / (1 - p)) / (sqrt (v / (1 - q)) + 1 / 100000000)))) by (field; lra).
  rewrite Rabs_Ropp, Rabs_mult, (Rabs_right alpha) by lra. rewrite (Rmult_comm 8). apply Rmult_le_compat_l; auto.
  unfold Rdiv at 1. rewrite Rabs_mult, Rabs_inv. rewrite (Rabs_right (sqrt _ + _)) by lra. apply Rmult_le_reg_r with (sqrt (v / (1 - q)) + 1 / 100000000); [lra|]. rewrite Rmult_assoc, Rinv_l by lra. lra.
Qed.
(** no gradient, no moments: no movement *)
Definition still (c : cell) : Prop := c_m c = 0 /\ c_v c = 0.
Lemma adam_still alpha t c : still c -> c_x (adam_cell alpha t c 0) = c_x c /\ still (adam_cell alpha t c 0).
Proof.
  unfold still, adam_cell. cbn [c_x c_m c_v]. intros [-> ->]. split; [|split; ring]. replace (9 / 10 * 0 + (1 - 9 / 10) * 0) with 0 by ring. replace (999 / 1000 * 0 + (1 - 999 / 1000) * (0 * 0)) with 0 by ring. unfold Rdiv. rewrite !Rmult_0_l, Rmult_0_r, Rmult_0_l. ring.
Qed.

(** ** the simplex *)
Definition on_simplex (x : list R) : Prop := Forall (fun v => 0 <= v) x /\ rsum x = 1.
Lemma negative_false x : negative x = false <-> Forall (fun v => 0 <= v) x.
Proof.
  unfold negative. induction x as [|v x IH]; cbn; [split; auto|]. destruct (Rlt_dec v 0); cbn; [split; [discriminate|intros H; inversion H; lra]|]. rewrite IH. split; [intros; constructor; auto; lra|intros H; now inversion H].
Qed.
Lemma rsum_nonneg x : Forall (fun v => 0 <= v) x -> 0 <= rsum x.
Proof. unfold rsum. induction 1; cbn; lra. Qed.
Lemma rsum_pos_in x : Forall (fun v => 0 <= v) x -> (exists v, In v x /\ 0 < v) -> 0 < rsum x.
Proof.
  intros H (v & Hv & Hp). induction H as [|a x Ha H IH]; [destruct Hv|]. unfold rsum in *. cbn. pose proof (rsum_nonneg x H). unfold rsum in *. destruct Hv as [->|Hv]; [lra|]. specialize (IH Hv). lra.
Qed.
Lemma sum_one_pos x : rsum x = 1 -> exists v, In v x /\ 0 < v.
Proof.
  unfold rsum. intros H. assert (G : 0 < fold_right Rplus 0 x) by lra. clear H. induction x as [|a x IH]; cbn in *; [lra|]. destruct (Rlt_dec 0 a) as [Ha|Ha]; [exists a; auto|]. destruct IH as (v & Hv & Hp); [lra|]. exists v; auto.
Qed.
Definition npos (x : list R) : nat := length (filter positive x).
Lemma sub_sum x t : Forall (fun v => 0 <= v) x -> rsum (map (fun v => if positive v then v - t else v) x) = rsum (filter positive x) - INR (npos x) * t.
Proof.
  unfold npos, positive, rsum. induction 1 as [|v x Hv H IH]; cbn [map filter fold_right length]; [cbn; lra|]. rewrite IH. destruct (Rlt_dec 0 v); cbn [fold_right length]; [rewrite S_INR; lra|lra].
Qed.
Lemma positive_iff v : positive v = true <-> 0 < v.
Proof. unfold positive. destruct (Rlt_dec 0 v); split; auto; try discriminate; lra. Qed.
Lemma step_spec x : (exists v, In v x /\ 0 < v) -> exists y, simplex_step x = Some y /\ length y = length x /\ rsum y = 1 /\ (npos y <= npos x)%nat /\ (negative y = true -> (npos y < npos x)%nat).
Proof.
  intros (v & Hv & Hp). unfold simplex_step. set (c := clip x).
  assert (Hc : Forall (fun v => 0 <= v) c) by (unfold c, clip; apply Forall_map, Forall_forall; intros u _; destruct (Rlt_dec u 0); lra).
  assert (Hcx : filter positive c = filter positive x).
  { unfold c, clip, positive. clear. induction x as [|u x IH]; cbn [map filter]; auto. rewrite IH. destruct (Rlt_dec u 0); auto. destruct (Rlt_dec 0 0); [lra|]. destruct (Rlt_dec 0 u); [lra|auto]. }
  assert (Hne : filter positive c <> []).
  { rewrite Hcx. assert (In v (filter positive x)) by (apply filter_In; split; auto; unfold positive; destruct (Rlt_dec 0 v); auto; lra). intros E. rewrite E in H. destruct H. }
  destruct (filter positive c) as [|s0 sub] eqn:ES; [congruence|]. set (SS := s0 :: sub) in *. set (t := (rsum SS - 1) / INR (length SS)).
  eexists. split; [reflexivity|]. split; [rewrite map_length; unfold c, clip; apply map_length|].
  split; [|].
  - rewrite sub_sum by auto. unfold npos. rewrite ES. fold SS. unfold t. field. apply not_0_INR. discriminate.
  - assert (HG : forall l, Forall (fun v => 0 <= v) l -> let y := map (fun v => if positive v then v - t else v) l in (npos y <= npos l)%nat /\ (negative y = true -> (npos y < npos l)%nat)).
    { clear. unfold npos, negative. induction l as [|u l IH]; intros H; cbn [map filter existsb]; [split; [lia|discriminate]|]. inversion H; subst. destruct (IH H3) as [I1 I2].
      destruct (positive u) eqn:E.
      - destruct (positive (u - t)) eqn:E2; cbn [length].
        + split; [lia|]. apply positive_iff in E2. destruct (Rlt_dec (u - t) 0); [lra|]. cbn [orb]. intros Hf. apply I2 in Hf. lia.
        + split; lia.
      - rewrite E. split; [auto|]. destruct (Rlt_dec u 0); [lra|]. cbn [orb]. auto. }
    destruct (HG c Hc) as [G1 G2]. assert (Hnc : npos c = npos x) by (unfold npos; now rewrite ES, <- Hcx). rewrite Hnc in *. split; auto.
Qed.
Lemma loop_spec fuel : forall x, (exists v, In v x /\ 0 < v) -> (npos x <= fuel)%nat -> exists y, simplex_loop fuel x = Some y /\ on_simplex y /\ length y = length x.
Proof.
  induction fuel as [|fuel IH]; intros x Hx Hf.
  - exfalso. destruct Hx as (v & Hv & Hp). assert (In v (filter positive x)) by (apply filter_In; split; auto; unfold positive; destruct (Rlt_dec 0 v); auto; lra). unfold npos in Hf. destruct (filter positive x); [destruct H|cbn in Hf; lia].
  - cbn [simplex_loop]. destruct (step_spec x Hx) as (y & -> & Hl & Hs & H1 & H2). destruct (negative y) eqn:E.
    + destruct (IH y) as (z & Hz & Hz2 & Hz3); [now apply sum_one_pos|specialize (H2 eq_refl); lia|]. exists z. split; auto. split; auto. congruence.
    + exists y. split; auto. split; auto. split; auto. now apply negative_false.
Qed.
Lemma scaled_sum x c : rsum (map (fun v => v / c) x) = rsum x / c.
Proof. unfold rsum. induction x as [|v x IH]; cbn; [unfold Rdiv; ring|]. rewrite IH. unfold Rdiv. ring. Qed.
Lemma project_spec x : (exists v, In v x /\ 0 < v) -> exists y, project_simplex_row x = Some y /\ on_simplex (map (fun v => v / rsum y) y) /\ length y = length x.
Proof.
  intros Hx. assert (G : forall y, Forall (fun v => 0 <= v) y -> (exists v, In v y /\ 0 < v) -> on_simplex (map (fun v => v / rsum y) y)).
  { intros y H1 H2. pose proof (rsum_pos_in y H1 H2) as Hs. split; [|rewrite scaled_sum; field; lra]. apply Forall_map. eapply Forall_impl; [|exact H1]. cbn. intros v Hv. apply Rmult_le_pos; auto. left. now apply Rinv_0_lt_compat. }
  unfold project_simplex_row. destruct (negative x) eqn:E.
  - destruct (loop_spec (S (length x)) x Hx) as (y & -> & [H1 H2] & H3); [unfold npos; clear; induction x as [|a x IH]; cbn; [lia|]; destruct (positive a); cbn in *; lia|]. exists y. split; auto. split; auto. apply G; auto. now apply sum_one_pos.
  - exists x. split; auto. split; auto. apply G; auto. now apply negative_false.
Qed.
Lemma big_coord x : on_simplex x -> (length x <= 24)%nat -> exists k, (k < length x)%nat /\ 4 / 100 < nth k x 0.
Proof.
  intros [H1 H2] Hn. destruct (existsb (fun v => if Rlt_dec (4 / 100) v then true else false) x) eqn:E.
  - apply existsb_exists in E as (v & Hv & E). destruct (Rlt_dec (4 / 100) v); [|discriminate]. apply (In_nth _ _ 0) in Hv as (k & Hk & <-). eauto.
  - exfalso. assert (HF : Forall (fun v => v <= 4 / 100) x).
    { apply Forall_forall. intros v Hv. destruct (Rlt_dec (4 / 100) v) as [Hv'|Hv']; [|lra]. assert (K : existsb (fun v => if Rlt_dec (4 / 100) v then true else false) x = true) by (apply existsb_exists; exists v; split; auto; destruct (Rlt_dec (4 / 100) v); auto; lra). congruence. }
    assert (K : rsum x <= INR (length x) * (4 / 100)). { clear -HF. unfold rsum. induction HF; cbn [fold_right length]; [cbn; lra|]. rewrite S_INR. lra. }
    assert (INR (length x) <= 24) by (replace 24 with (INR 24) by (cbn; lra); now apply le_INR). lra.
Qed.
