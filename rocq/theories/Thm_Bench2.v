From Coq Require Import Reals List Lra Lia Psatz Machin.
From Verif Require Import ListAux M_NSGA3R M_Bench S_Bench Thm_Bench.
Import ListNotations.
Local Open Scope R_scope.

Lemma PI_ub : PI < 31415926537/10000000000.
Proof. pose proof (proj2 (PI_2_3_7_ineq 5)) as H. unfold sum_f_R0, tg_alt, PI_2_3_7_tg, Ratan_seq in H. cbn [Nat.mul Nat.add pow INR] in H. lra. Qed.
Lemma PI_lb : 31415926535/10000000000 < PI.
Proof. pose proof (proj1 (PI_2_3_7_ineq 5)) as H. unfold sum_f_R0, tg_alt, PI_2_3_7_tg, Ratan_seq in H. cbn [Nat.mul Nat.add pow INR] in H. lra. Qed.
Lemma cos_ub4 d : -2 <= d <= 2 -> cos d <= 1 - d^2/2 + d^4/24.
Proof. intros [H1 H2]. pose proof (proj2 (pre_cos_bound d 0 H1 H2)) as H. unfold cos_approx, cos_term in H. cbn in H. lra. Qed.
Lemma cos_lb6 d : -2 <= d <= 2 -> 1 - d^2/2 + d^4/24 - d^6/720 <= cos d.
Proof. intros [H1 H2]. pose proof (proj1 (pre_cos_bound d 1 H1 H2)) as H. unfold cos_approx, cos_term in H. cbn in H. lra. Qed.
Lemma cos_lb2 d : -2 <= d <= 2 -> 1 - d^2/2 <= cos d.
Proof. intros [H1 H2]. pose proof (proj1 (pre_cos_bound d 0 H1 H2)) as H. unfold cos_approx, cos_term in H. cbn in H. lra. Qed.
Lemma sin_shift y : sin y = cos (y - 13 * PI / 2).
Proof.
  rewrite cos_sin. replace (PI / 2 + (y - 13 * PI / 2)) with (y - 2 * INR 3 * PI) by (cbn; lra).
  rewrite <- (sin_period (y - 2 * INR 3 * PI) 3). f_equal. lra.
Qed.
Lemma key_poly d : 0 <= d <= 2 -> (2042035225/100000000 + d)^2 * (1 - d^2/2 + d^4/24) < 4189829/10000.
Proof.
  intros Hd. set (e := d - 243/2500). set (C := 2042035225/100000000) in *.
  set (q0 := 4189829/10000 - C^2). 
  assert (HQ : exists Q r1 r0, 4189829/10000 - (C + d)^2 * (1 - d^2/2 + d^4/24) = e^2 * Q + r1 * e + r0 /\ 160 <= Q /\ 0 < r1 < 13/1000 /\ 12/1000000 <= r0).
  { set (t := 243/2500).
    (* synthetic division by (d - t)^2 *)
    set (p6 := - (1/24)). set (p5 := - (C/12)). set (p4 := 1/2 - C^2/24). set (p3 := C). set (p2 := C^2/2 - 1). set (p1 := - (2 * C)). set (p0 := q0).
    set (a5 := p6). set (a4 := p5 + t * a5). set (a3 := p4 + t * a4). set (a2 := p3 + t * a3). set (a1 := p2 + t * a2). set (a0 := p1 + t * a1). set (r0 := p0 + t * a0).
    set (b4 := a5). set (b3 := a4 + t * b4). set (b2 := a3 + t * b3). set (b1 := a2 + t * b2). set (b0 := a1 + t * b1). set (r1 := a0 + t * b0).
    exists (b0 + b1 * d + b2 * d^2 + b3 * d^3 + b4 * d^4), r1, r0. split; [|split].
    - unfold r1, r0, b0, b1, b2, b3, b4, a0, a1, a2, a3, a4, a5, p0, p1, p2, p3, p4, p5, p6, q0, e. fold t. field.
    - assert (B0 : 2109/10 <= b0) by (unfold b0, b1, b2, b3, b4, a1, a2, a3, a4, a5, p2, p3, p4, p5, p6, t, C; lra).
      assert (B1 : 0 <= b1) by (unfold b1, b2, b3, b4, a2, a3, a4, a5, p3, p4, p5, p6, t, C; lra).
      assert (B1' : 17 <= b1) by (unfold b1, b2, b3, b4, a2, a3, a4, a5, p3, p4, p5, p6, t, C; lra).
      assert (B2 : -1721/100 <= b2) by (unfold b2, b3, b4, a3, a4, a5, p4, p5, p6, t, C; lra).
      assert (B3 : -171/100 <= b3) by (unfold b3, b4, a4, a5, p5, p6, t, C; lra).
      assert (B4 : -5/100 <= b4) by (unfold b4, a5, p6; lra).
      assert (D2 : 0 <= d^2 <= 2 * d) by (split; nra). assert (D3 : 0 <= d^3 <= 4 * d) by (replace (d^3) with (d^2 * d) by ring; split; nra). assert (D4 : 0 <= d^4 <= 8 * d) by (replace (d^4) with (d^2 * d^2) by ring; split; nra).
      assert (b1 * d >= 17 * d) by nra. assert (b2 * d^2 >= -1721/100 * d^2) by nra. assert (b3 * d^3 >= -171/100 * d^3) by nra. assert (b4 * d^4 >= -5/100 * d^4) by nra. lra.
    - split; [unfold r1, a0, b0, b1, b2, b3, b4, a1, a2, a3, a4, a5, p1, p2, p3, p4, p5, p6, t, C; lra|].
      unfold r0, a0, a1, a2, a3, a4, a5, p0, p1, p2, p3, p4, p5, p6, q0, t, C; lra. }
  destruct HQ as (Q & r1 & r0 & HE & HQ & Hr1 & Hr0). assert (0 < e^2 * Q + r1 * e + r0); [|lra].
  assert (0 <= e^2) by apply sq_ge0. assert (e^2 * Q >= e^2 * 160) by nra. assert (0 <= (e * 10 + r1 / 20)^2) by apply sq_ge0. nra.
Qed.
(** one coordinate *)
Lemma schwefel_term x : -500 <= x <= 500 -> x * sin (sqrt (Rabs x)) < 4189829/10000.
Proof.
  intros Hx. set (y := sqrt (Rabs x)). pose proof (SIN_bound y) as [S1 S2]. destruct (Rlt_le_dec (Rabs x) (4189829/10000)) as [Hs|Hs].
  { assert (HA : x * sin y <= Rabs x * 1).
    { apply Rle_trans with (Rabs (x * sin y)); [apply Rle_abs|]. rewrite Rabs_mult. apply Rmult_le_compat_l; [apply Rabs_pos|]. apply Rabs_le. lra. }
    lra. }
  assert (HA : Rabs x <= 500) by (apply Rabs_le; lra). assert (Hy0 : 0 <= y) by apply sqrt_pos. assert (Hyy : y * y = Rabs x) by (apply sqrt_sqrt, Rabs_pos).
  assert (Hy1 : 20468/1000 <= y) by (apply Rnot_lt_le; intros C; assert (y * y < 20468/1000 * (20468/1000)) by nra; lra). assert (Hy2 : y <= 22361/1000) by (apply Rnot_lt_le; intros C; assert (22361/1000 * (22361/1000) < y * y) by nra; lra).
  pose proof PI_ub as P1. pose proof PI_lb as P2. set (d := y - 13 * PI / 2). assert (Hd : 4/100 <= d <= 195/100) by (unfold d; lra). assert (Hy : y < 2042035225/100000000 + d) by (unfold d; lra).
  pose proof (sin_shift y) as ES. fold d in ES. destruct (Rle_lt_dec 0 x) as [H0|H0].
  - assert (Ex : x = y * y) by (rewrite Hyy, Rabs_pos_eq; auto). rewrite Ex, ES. pose proof (cos_ub4 d ltac:(lra)) as HC. set (p := 1 - d^2/2 + d^4/24) in *. pose proof (key_poly d ltac:(lra)) as HK. fold p in HK.
    assert (HY : y * y < (2042035225/100000000 + d)^2) by nra. destruct (Rle_lt_dec p 0) as [HP|HP].
    + assert (y * y * cos d <= 0) by (assert (0 <= y * y) by nra; nra). lra.
    + assert (y * y * cos d <= y * y * p) by (apply Rmult_le_compat_l; nra). assert (y * y * p < (2042035225/100000000 + d)^2 * p) by (apply Rmult_lt_compat_r; auto). lra.
  - assert (Ex : x = - (y * y)) by (rewrite Hyy, Rabs_left; lra). rewrite Ex, ES. pose proof (cos_lb6 d ltac:(lra)) as HC.
    assert (HL : -1/2 <= cos d).
    { apply Rle_trans with (1 - d^2/2 + d^4/24 - d^6/720); auto. set (s := d^2). replace (d^4) with (s * s) by (unfold s; ring). replace (d^6) with (s * s * s) by (unfold s; ring). assert (Hs1 : 0 <= s <= 38025/10000) by (unfold s; split; [apply sq_ge0|nra]).
      assert (0 <= s * s) by nra. assert (s * s * s <= s * s * (38025/10000)) by nra. assert (HH : 0 <= (s - 38025/10000)^2) by apply sq_ge0. nra. }
    assert (HYY : y * y <= 500) by lra. assert (0 <= y * y) by nra. nra.
Qed.
(** C85: Schwefel's function is positive on the whole box: the reported optimal value 0 is not attained; at the reported point the value is below n / 500 *)
Theorem C85_schwefel : forall n x, (0 < n)%nat -> length x = n -> in_box schwefel_box x -> bench_front < schwefel n x.
Proof.
  intros n x Hn HL HB. unfold bench_front, schwefel. unfold in_box in HB. rewrite Forall_forall in HB.
  assert (G : forall l, (forall v, In v l -> -500 <= v <= 500) -> rsum (map (fun xi => xi * sin (sqrt (Rabs xi))) l) <= 4189829/10000 * INR (length l) /\ ((0 < length l)%nat -> rsum (map (fun xi => xi * sin (sqrt (Rabs xi))) l) < 4189829/10000 * INR (length l))).
  { induction l as [|a l IH]; intros H; [cbn; split; [lra|lia]|]. destruct IH as [I1 _]; [intros; apply H; right; auto|]. pose proof (schwefel_term a (H a (or_introl eq_refl))). cbn [length map]. rewrite S_INR. unfold rsum in *. cbn [fold_right]. split; intros; lra. }
  destruct (G x) as [_ G2]; [intros v Hv; apply HB in Hv; cbn in Hv; auto|]. rewrite HL in G2. specialize (G2 Hn). lra.
Qed.
Theorem C85_schwefel_set : forall n, length (schwefel_set n) = n /\ in_box schwefel_box (schwefel_set n) /\ schwefel n (schwefel_set n) <= INR n / 500.
Proof.
  intros n. unfold schwefel_set. rewrite repeat_length. split; auto. split; [apply box_repeat; cbn; lra|]. unfold schwefel.
  set (v := 4209687/10000). set (h := v * sin (sqrt (Rabs v))).
  assert (Hh : 4189829/10000 - 1/500 <= h).
  { unfold h. rewrite Rabs_pos_eq by (unfold v; lra). set (y := sqrt v). assert (Hy0 : 0 <= y) by apply sqrt_pos. assert (Hyy : y * y = v) by (apply sqrt_sqrt; unfold v; lra).
    assert (Hy1 : 20517521/1000000 <= y) by (apply Rnot_lt_le; intros C; assert (y * y < 20517521/1000000 * (20517521/1000000)) by nra; unfold v in Hyy; lra). assert (Hy2 : y <= 20517522/1000000) by (apply Rnot_lt_le; intros C; assert (20517522/1000000 * (20517522/1000000) < y * y) by nra; unfold v in Hyy; lra).
    pose proof PI_ub. pose proof PI_lb. rewrite sin_shift. set (d := y - 13 * PI / 2). assert (Hd : 0 <= d <= 9717/100000) by (unfold d; lra). pose proof (cos_lb2 d ltac:(lra)). assert (d^2 <= 9717/100000 * (9717/100000)) by nra. assert (cos d >= 1 - 9717/100000 * (9717/100000) / 2) by lra. unfold v. nra. }
  assert (E : rsum (map (fun xi => xi * sin (sqrt (Rabs xi))) (repeat v n)) = INR n * h). { clear. induction n as [|k IH]; [cbn; ring|]. cbn [repeat map]. rewrite S_INR. unfold rsum in *. cbn [fold_right]. rewrite IH. fold h. ring. }
  rewrite E. pose proof (pos_INR n). nra.
Qed.
