(** * C122: optima of the CEC 2006 problems *)
From Coq Require Import List Arith Reals Lra Lia Psatz.
From Verif Require Import ListAux M_KKTPM Thm_KKTPM M_GProb.
Import ListNotations.
Local Open Scope R_scope.

(** ** specification *)
(** inside the bounds, no inequality constraint positive, every equality constraint at most tol away from 0 *)
Definition satisfies (tol : R) (p : gproblem) (x : sol) : Prop :=
  (forall i, (i < g_n p)%nat -> g_lo p i <= x i <= g_hi p i) /\ List.Forall (fun g => g x <= 0) (g_ineq p) /\ List.Forall (fun h => Rabs (h x) <= tol) (g_eq p).
(** feasible, and no feasible solution is better by more than delta *)
Definition optimal_within (delta : R) (p : gproblem) (x : sol) : Prop := satisfies 0 p x /\ forall y, satisfies 0 p y -> g_f p x <= g_f p y + delta.
Definition optimal (p : gproblem) (x : sol) : Prop := satisfies 0 p x /\ forall y, satisfies 0 p y -> g_f p x <= g_f p y.

Ltac ineqs H := repeat (match type of H with List.Forall _ (_ :: _) => let G := fresh "G" in inversion H as [|? ? G ?]; subst; clear H; match goal with K : List.Forall _ _ |- _ => rename K into H end | _ => idtac end).
Ltac bound H k := let B := fresh "B" in pose proof (H k ltac:(cbn; lia)) as B; cbn [g_lo g_hi at_ nth G1 G3 G4 G6 G7 G11 G12 G24] in B.
Ltac box := let i := fresh "i" in let Hi := fresh in intros i Hi; cbn in Hi; repeat (first [lia | destruct i as [|i]; [cbn; lra|]]).

(** C122: G1's reported solution is optimal, with the reported value -15 *)
Theorem C122_g1 : optimal G1 (g_reported G1) /\ g_f G1 (g_reported G1) = -15.
Proof.
  assert (E : g_f G1 (g_reported G1) = -15) by (cbn; lra). split; [|exact E]. split.
  - split; [box|]. split; [repeat constructor; cbn; lra|constructor].
  - intros y (HB & HI & _). rewrite E. cbn [g_ineq G1] in HI. rewrite !Forall_cons_iff in HI. destruct HI as (_ & _ & _ & _ & _ & _ & H7 & H8 & H9 & _).
    cbn [g_f G1 vsum Nat.add]. bound HB 0%nat. bound HB 1%nat. bound HB 2%nat. bound HB 3%nat. bound HB 4%nat. bound HB 5%nat. bound HB 6%nat. bound HB 7%nat. bound HB 8%nat. bound HB 12%nat.
    assert (Q : forall t, 0 <= t <= 1 -> t ^ 2 <= t) by (intros; nra). pose proof (Q _ B). pose proof (Q _ B0). pose proof (Q _ B1). pose proof (Q _ B2). lra.
Qed.
Lemma vprod_scale n c f : vprod n (fun i => c * f i) = c ^ n * vprod n f.
Proof. induction n as [|n IH]; cbn [vprod pow]; [lra|]. rewrite IH. ring. Qed.
Lemma vprod_const n c : vprod n (fun _ => c) = c ^ n.
Proof. induction n as [|n IH]; cbn [vprod pow]; [lra|]. rewrite IH. ring. Qed.
Lemma vprod_le_exp n f : (forall i, (i < n)%nat -> 0 <= f i) -> 0 <= vprod n f <= exp (vsum n (fun i => f i - 1)).
Proof.
  induction n as [|n IH]; cbn [vprod vsum]; intros H; [rewrite exp_0; lra|]. destruct IH as [I1 I2]; [intros; apply H; lia|]. rewrite exp_plus. specialize (H n ltac:(lia)).
  assert (f n <= exp (f n - 1)). { pose proof (exp_ineq1_le (f n - 1)). lra. } split; [now apply Rmult_le_pos|]. apply Rmult_le_compat; auto.
Qed.
Lemma vprod_sq n f : vprod n (fun i => f i ^ 2) = vprod n f ^ 2.
Proof. induction n as [|n IH]; cbn [vprod]; [ring|]. rewrite IH. ring. Qed.
Lemma vprod_nonneg n f : (forall i, (i < n)%nat -> 0 <= f i) -> 0 <= vprod n f.
Proof. intros H. apply (vprod_le_exp n f H). Qed.
(** C122: G3's reported solution is optimal, with value -1, for every number of variables *)
Theorem C122_g3 : forall n, (1 <= n)%nat -> optimal (G3 n) (g_reported (G3 n)) /\ g_f (G3 n) (g_reported (G3 n)) = -1.
Proof.
  intros n Hn. assert (HN : 1 <= INR n) by (replace 1 with (INR 1) by reflexivity; now apply le_INR). assert (Hs : 1 <= sqrt (INR n)) by (rewrite <- sqrt_1 at 1; apply sqrt_le_1; lra). assert (Hss : sqrt (INR n) * sqrt (INR n) = INR n) by (apply sqrt_sqrt; lra).
  assert (E : g_f (G3 n) (g_reported (G3 n)) = -1).
  { cbn [g_f g_reported G3]. rewrite vprod_const. unfold Rdiv. rewrite Rmult_1_l, pow_inv. field. apply pow_nonzero. lra. }
  split; [|exact E]. split.
  - split; [|split; [constructor|]].
    + intros i _. cbn [g_lo g_hi g_reported G3]. assert (0 < / sqrt (INR n)) by (apply Rinv_0_lt_compat; lra). assert (/ sqrt (INR n) <= 1) by (rewrite <- Rinv_1; apply Rinv_le_contravar; lra). unfold Rdiv. lra.
    + constructor; [|constructor]. cbn [g_reported G3]. rewrite vsum_const. replace (INR n * (1 / sqrt (INR n)) ^ 2 - 1) with 0; [rewrite Rabs_R0; lra|]. rewrite <- Hss at 1. field. lra.
  - intros y (HB & _ & HE). rewrite E. cbn [g_eq G3] in HE. apply Forall_inv in HE. assert (H1 : vsum n (fun i => y i ^ 2) = 1) by (pose proof (Rle_abs (vsum n (fun i => y i ^ 2) - 1)); pose proof (Rle_abs (- (vsum n (fun i => y i ^ 2) - 1))) as H2; rewrite Rabs_Ropp in H2; lra).
    cbn [g_f G3]. assert (P : 0 <= vprod n y) by (apply vprod_nonneg; intros i Hi; apply (HB i); exact Hi).
    assert (S1 : (sqrt (INR n) ^ n * vprod n y) ^ 2 <= 1).
    { rewrite Rpow_mult_distr, <- vprod_sq, <- pow_mult, Nat.mul_comm, pow_mult. replace (sqrt (INR n) ^ 2) with (INR n) by (rewrite <- Hss at 1; ring). rewrite <- vprod_scale.
      destruct (vprod_le_exp n (fun i => INR n * y i ^ 2)) as [_ L]; [intros i _; pose proof (pow2_ge_0 (y i)); nra|]. eapply Rle_trans; [exact L|]. apply Req_le.
      rewrite (vsum_ext n _ (fun i => INR n * y i ^ 2 + -1)) by (intros; ring). rewrite vsum_plus, vsum_scal, H1, vsum_const. replace (INR n * 1 + INR n * -1) with 0 by ring. apply exp_0. }
    assert (0 <= sqrt (INR n) ^ n) by (apply pow_le; lra). assert (0 <= sqrt (INR n) ^ n * vprod n y) by now apply Rmult_le_pos. nra.
Qed.
(** C122 (refuted with the tolerance which evaluations apply): with 1/10000 allowed in the equality constraint, solutions which count as feasible are better than the one reported *)
Theorem C122_g3_refuted : forall n, (2 <= n)%nat -> exists x, satisfies (1 / 10000) (G3 n) x /\ g_f (G3 n) x < g_f (G3 n) (g_reported (G3 n)).
Proof.
  intros n Hn. assert (HN : 2 <= INR n) by (replace 2 with (INR 2) by (cbn; lra); now apply le_INR). set (c := sqrt (1 + 1 / 10000)). assert (Hcc : c * c = 1 + 1 / 10000) by (apply sqrt_sqrt; lra). assert (Hc1 : 1 < c) by (unfold c; rewrite <- sqrt_1 at 1; apply sqrt_lt_1; lra).
  assert (Hss : sqrt (INR n) * sqrt (INR n) = INR n) by (apply sqrt_sqrt; lra). assert (Hs : 0 < sqrt (INR n)) by (apply sqrt_lt_R0; lra). assert (Hcs : c <= sqrt (INR n)) by (apply sqrt_le_1; lra).
  exists (fun _ => c / sqrt (INR n)). split.
  - split; [|split; [constructor|]].
    + intros i _. cbn [g_lo g_hi G3]. assert (0 < / sqrt (INR n)) by now apply Rinv_0_lt_compat. split; [unfold Rdiv; nra|]. apply (Rmult_le_reg_r (sqrt (INR n))); auto. unfold Rdiv. rewrite Rmult_assoc, Rinv_l by lra. lra.
    + constructor; [|constructor]. rewrite vsum_const. replace (INR n * (c / sqrt (INR n)) ^ 2 - 1) with (1 / 10000); [rewrite Rabs_right; lra|]. rewrite <- Hss at 1. transitivity (c * c - 1); [lra|]. field. lra.
  - destruct (C122_g3 n ltac:(lia)) as [_ E]. rewrite E. cbn [g_f G3]. rewrite vprod_const. unfold Rdiv. rewrite Rpow_mult_distr, pow_inv. replace (- sqrt (INR n) ^ n * (c ^ n * / sqrt (INR n) ^ n)) with (- c ^ n) by (field; apply pow_nonzero; lra).
    assert (1 < c ^ n); [|lra]. apply Rlt_pow_R1; [lra|lia].
Qed.
(** C122 (refuted): the solution reported for G4 violates a constraint by a rounding error *)
Theorem C122_g4_refuted : ~ satisfies 0 G4 (g_reported G4).
Proof. intros (_ & HI & _). cbn [g_ineq G4] in HI. rewrite !Forall_cons_iff in HI. destruct HI as (_ & H & _). unfold G4_u in H. cbn [g_reported G4 at_ nth] in H. lra. Qed.
Lemma cube_le a b : a <= b -> a ^ 3 <= b ^ 3.
Proof. intros H. assert (0 <= (a + b) * (a + b)) by apply Rle_0_sqr. assert (0 <= a * a) by apply Rle_0_sqr. assert (0 <= b * b) by apply Rle_0_sqr. nra. Qed.
(** C122: G6's reported solution is optimal *)
Theorem C122_g6 : optimal G6 (g_reported G6).
Proof.
  set (s := sqrt (100 - (14095 / 1000 - 5) ^ 2)). assert (Hs0 : 0 <= s) by apply sqrt_pos. assert (Hs : s * s = 100 - (14095 / 1000 - 5) ^ 2) by (apply sqrt_sqrt; lra). assert (Hs5 : s <= 5) by nra. split.
  - split; [|split; [|constructor]].
    + intros i Hi. cbn in Hi. destruct i as [|[|i]]; [cbn; lra| |lia]. cbn [g_lo g_hi g_reported G6 at_ nth]. fold s. lra.
    + cbn [g_ineq G6]. repeat constructor; cbn [g_reported G6 at_ nth]; fold s; nra.
  - intros y (HB & HI & _). cbn [g_ineq G6] in HI. rewrite !Forall_cons_iff in HI. destruct HI as (H1 & H2 & _). bound HB 0%nat. cbn [g_f g_reported G6 at_ nth]. fold s.
    set (a := y 0%nat) in *. set (b := y 1%nat) in *. clearbody a b s. assert (Ha : 14095 / 1000 <= a) by nra. assert (Hb : (b - 5) * (b - 5) <= s * s) by nra. assert (Hb' : 5 - s <= b) by nra.
    pose proof (cube_le (14095 / 1000 - 10) (a - 10) ltac:(lra)). pose proof (cube_le (5 - s - 20) (b - 20) ltac:(lra)). lra.
Qed.
(** C122: G7's reported solution is feasible, and no feasible solution is better by more than 1e-9 *)
Theorem C122_g7 : optimal_within (1 / 1000000000) G7 (g_reported G7).
Proof.
  split.
  - split; [box|]. split; [|constructor]. cbn [g_ineq G7]. repeat constructor; cbn [g_reported G7 at_ nth]; lra.
  - intros x (HB & HI & _). cbn [g_ineq G7] in HI. rewrite !Forall_cons_iff in HI. destruct HI as (H1 & H2 & H3 & H4 & H5 & H6 & _). bound HB 0%nat. bound HB 1%nat. bound HB 2%nat. bound HB 3%nat. bound HB 4%nat. bound HB 5%nat. bound HB 6%nat. bound HB 7%nat. bound HB 8%nat. bound HB 9%nat.
    pose proof (Rle_0_sqr (x 2%nat - (8773926544187 / 1000000000000))). pose proof (Rle_0_sqr (x 3%nat - (20383938031 / 4000000000))). pose proof (Rle_0_sqr (x 4%nat - (495327177 / 500000000))). pose proof (Rle_0_sqr (x 5%nat - (1430574067 / 1000000000))). pose proof (Rle_0_sqr (x 6%nat - (165205667 / 125000000))). pose proof (Rle_0_sqr (x 7%nat - (9828727117929 / 1000000000000))). pose proof (Rle_0_sqr (x 8%nat - (662407159 / 80000000))). pose proof (Rle_0_sqr (x 9%nat - (837592841 / 100000000))). pose proof (Rle_0_sqr (x 0%nat + (732083067749 / 10000000000000) * x 1%nat + (-23450372883711 / 10000000000000))). pose proof (Rle_0_sqr (x 1%nat - (23636861850447 / 10000000000000))). pose proof (Rle_0_sqr (x 0%nat)). pose proof (Rle_0_sqr (x 1%nat)). unfold Rsqr in *. cbn [g_f g_reported G7 at_ nth]. cbn [pow] in *. clear HB. lra.
Qed.
(** C122: G11's reported solution is optimal, with value 3/4 *)
Theorem C122_g11 : optimal G11 (g_reported G11) /\ g_f G11 (g_reported G11) = 3 / 4.
Proof.
  assert (Hs : sqrt (1 / 2) * sqrt (1 / 2) = 1 / 2) by (apply sqrt_sqrt; lra). pose proof (sqrt_pos (1 / 2)) as Hp. assert (E : g_f G11 (g_reported G11) = 3 / 4) by (cbn [g_f g_reported G11 at_ nth]; nra). split; [|exact E]. split.
  - split; [|split; [|constructor]].
    + intros i Hi. cbn in Hi. destruct i as [|[|i]]; [|cbn; lra|lia]. cbn [g_lo g_hi g_reported G11 at_ nth]. nra.
    + constructor; [|constructor]. cbn [g_reported G11 at_ nth]. nra.
  - intros y (HB & HI & _). rewrite E. cbn [g_ineq G11] in HI. inversion HI as [|? ? H _]; subst. cbn [g_f G11]. set (a := y 0%nat) in *. set (b := y 1%nat) in *. assert (0 <= (b - 1 / 2) * (b - 1 / 2)) by apply Rle_0_sqr. nra.
Qed.
Lemma fold_min_le {A} (f : A -> R) l : forall m, fold_left (fun g c => Rmin g (f c)) l m <= m /\ forall c, In c l -> fold_left (fun g c => Rmin g (f c)) l m <= f c.
Proof.
  induction l as [|a l IH]; cbn [fold_left]; intros m; [split; [lra|intros c []]|]. destruct (IH (Rmin m (f a))) as [I1 I2]. split; [eapply Rle_trans; [exact I1|apply Rmin_l]|]. intros c [->|Hc]; [eapply Rle_trans; [exact I1|apply Rmin_r]|auto].
Qed.
(** C122: G12's reported solution is optimal, with value -1 *)
Theorem C122_g12 : optimal G12 (g_reported G12) /\ g_f G12 (g_reported G12) = -1.
Proof.
  assert (E : g_f G12 (g_reported G12) = -1) by (cbn [g_f g_reported G12]; lra). split; [|exact E]. split.
  - split; [box|]. split; [|constructor]. constructor; [|constructor]. eapply Rle_trans; [apply (fold_min_le (sphere (g_reported G12)) centres _)|].
    + instantiate (1 := (5, 5, 5)%nat). unfold centres. apply in_flat_map. exists 5%nat. split; [apply in_seq; lia|]. apply in_flat_map. exists 5%nat. split; [apply in_seq; lia|]. apply in_map_iff. exists 5%nat. split; [reflexivity|apply in_seq; lia].
    + unfold sphere. cbn [g_reported G12]. cbn [INR]. lra.
  - intros y _. rewrite E. cbn [g_f G12]. pose proof (pow2_ge_0 (y 0%nat - 5)). pose proof (pow2_ge_0 (y 1%nat - 5)). pose proof (pow2_ge_0 (y 2%nat - 5)). lra.
Qed.
(** C122: the solution reported for G24 violates a constraint by a rounding error (refuted), but no feasible solution is better by more than 1e-15 *)
Theorem C122_g24_refuted : ~ satisfies 0 G24 (g_reported G24).
Proof. intros (_ & HI & _). cbn [g_ineq G24] in HI. rewrite !Forall_cons_iff in HI. destruct HI as (_ & H & _). cbn [g_reported G24 at_ nth] in H. lra. Qed.
Theorem C122_g24 : forall y, satisfies 0 G24 y -> g_f G24 (g_reported G24) <= g_f G24 y + 1 / 1000000000000000.
Proof.
  intros y (HB & HI & _). cbn [g_ineq G24] in HI. rewrite !Forall_cons_iff in HI. destruct HI as (H1 & H2 & _). bound HB 0%nat. bound HB 1%nat. cbn [g_f g_reported G24 at_ nth]. set (x := y 0%nat) in *. set (z := y 1%nat) in *. clearbody x z. clear HB.
  set (a := 2329520197477607 / 1000000000000000). assert (Ha : 2.3295 < a < 2.3296) by (unfold a; lra).
  assert (H1' : z <= 2 * (x * (x - 2)) * (x * (x - 2)) + 2) by (replace (2 * (x * (x - 2)) * (x * (x - 2))) with (2 * x ^ 4 - 8 * x ^ 3 + 8 * x ^ 2) by ring; lra). assert (H2' : z <= 4 * ((x - 1) * (x - 3)) * ((x - 1) * (x - 3))) by (replace (4 * ((x - 1) * (x - 3)) * ((x - 1) * (x - 3))) with (4 * x ^ 4 - 32 * x ^ 3 + 88 * x ^ 2 - 96 * x + 36) by ring; lra).
  assert (Pa : 2 * (a * (a - 2)) * (a * (a - 2)) + 2 <= 317849307411768 / 100000000000000 + 1 / 1000000000000000) by (unfold a; lra).
  assert (Qa : 4 * ((a - 1) * (a - 3)) * ((a - 1) * (a - 3)) <= 317849307411768 / 100000000000000) by (unfold a; lra). fold a. clearbody a.
  destruct (Rle_lt_dec a x) as [C|C].
  - (* the second constraint decreases *)
    assert (M1 : (x - 1) * (3 - x) <= (a - 1) * (3 - a)) by nra. assert (M2 : 0 <= (x - 1) * (3 - x)) by nra. assert (M3 : (a - 1) * (3 - a) - (x - 1) * (3 - x) = (x - a) * (x + a - 4)) by ring.
    assert (M4 : 4 * ((x - 1) * (x - 3)) * ((x - 1) * (x - 3)) = 4 * ((x - 1) * (3 - x)) * ((x - 1) * (3 - x))) by ring. assert (M5 : 4 * ((a - 1) * (a - 3)) * ((a - 1) * (a - 3)) = 4 * ((a - 1) * (3 - a)) * ((a - 1) * (3 - a))) by ring.
    set (qx := (x - 1) * (3 - x)) in *. set (qa := (a - 1) * (3 - a)) in *. assert (Hqa : 0.89 < qa) by (unfold qa; nra). assert (x + a - 4 > 0.65) by lra. assert (M6 : (x - a) * 0.65 <= qa - qx) by (rewrite M3; apply Rmult_le_compat_l; lra). assert (M7 : (qa - qx) * 0.89 <= (qa - qx) * (qa + qx)) by (apply Rmult_le_compat_l; lra). assert (x - a <= 4 * qa * qa - 4 * qx * qx); [|lra]. replace (4 * qa * qa - 4 * qx * qx) with (4 * ((qa - qx) * (qa + qx))) by ring. lra.
  - destruct (Rle_lt_dec x 1.5) as [C1|C1]; [lra|]. destruct (Rle_lt_dec x 2) as [C2|C2].
    + assert (- 1 <= x * (x - 2) <= 0) by nra. assert (- 0.75 <= x * (x - 2)) by nra. set (p := x * (x - 2)) in *. clearbody p. assert (p * p <= 0.5625) by nra. lra.
    + assert (0 <= x * (x - 2)) by nra. assert (x * (x - 2) <= a * (a - 2)) by nra. set (px := x * (x - 2)) in *. set (pa := a * (a - 2)) in *. clearbody px pa. assert (px * px <= pa * pa) by nra. lra.
Qed.
