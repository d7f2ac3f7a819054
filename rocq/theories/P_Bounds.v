(** * Proofs for M_Bounds *)
From Coq Require Import List Arith Bool ZArith QArith Qround Lia Lqa.
From Verif Require Import Flt ListAux M_Bounds P_Perm.
Import ListNotations.
Local Open Scope nat_scope.

(** ** clamping *)
Lemma clamp_box x xl xu : fleb xl xu = true -> isnan x = false -> fleb xl (clamp x xl xu) = true /\ fleb (clamp x xl xu) xu = true.
Proof.
  intros HB HN. unfold clamp.
  pose proof (fle_nonnan_l _ _ HB) as Nl. pose proof (fle_nonnan_r _ _ HB) as Nu.
  destruct (fltb x xl) eqn:E1.
  - rewrite (fle_not_lt _ _ HB). split; auto. apply fle_refl; auto.
  - destruct (fltb xu x) eqn:E2.
    + split; auto. apply fle_refl; auto.
    + split; apply nlt_le; auto.
Qed.
Lemma clamp_nan x xl xu : isnan x = true -> clamp x xl xu = x.
Proof. destruct x; simpl; try discriminate. intros _. unfold clamp. simpl. destruct xu as [[]|[]| |[] m e]; auto. Qed.
Lemma clamp_id x xl xu : fleb xl x = true -> fleb x xu = true -> clamp x xl xu = x.
Proof. intros H1 H2. unfold clamp. rewrite (fle_not_lt _ _ H1), (fle_not_lt _ _ H2). auto. Qed.

(** ** exact repairs *)
Lemma Qltb_iff a b : Qltb a b = true <-> (a < b)%Q.
Proof.
  unfold Qltb. rewrite negb_true_iff. split; intros H.
  - apply Qnot_le_lt. intro C. apply Qle_bool_iff in C. congruence.
  - destruct (Qle_bool b a) eqn:E; auto. apply Qle_bool_iff in E. exfalso; apply (Qlt_not_le _ _ H E).
Qed.
Lemma Qltb_false a b : Qltb a b = false <-> (b <= a)%Q.
Proof.
  unfold Qltb. rewrite negb_false_iff. apply Qle_bool_iff.
Qed.
Ltac qb := repeat match goal with
  | H : Qltb _ _ = true |- _ => apply Qltb_iff in H
  | H : Qltb _ _ = false |- _ => apply Qltb_false in H
  end.

Local Open Scope Q_scope.
Lemma np_mod_range a r : 0 < r -> exists m, np_mod a r = Some m /\ 0 <= m /\ m < r.
Proof.
  intros Hr. unfold np_mod. destruct (Qeq_bool r 0) eqn:E.
  - apply Qeq_bool_iff in E. lra.
  - exists (a - r * inject_Z (Qfloor (a / r))). split; auto.
    pose proof (Qfloor_le (a / r)) as H1. pose proof (Qlt_floor (a / r)) as H2. rewrite inject_Z_plus in H2.
    assert (E2 : a == r * (a / r)) by (field; lra).
    set (q := a / r) in *. set (f := inject_Z (Qfloor q)) in *. change (inject_Z 1) with 1 in H2.
    assert (r * f <= r * q) by (rewrite !(Qmult_comm r); apply Qmult_le_compat_r; lra).
    assert (r * q < r * (f + 1)) by (rewrite !(Qmult_comm r); apply Qmult_lt_compat_r; lra).
    lra.
Qed.

Lemma bounce_back_box x xl xu : xl < xu -> exists y, bounce_back x xl xu = Some y /\ xl <= y /\ y <= xu.
Proof.
  intros H. unfold bounce_back. destruct (Qltb x xl) eqn:E1; qb.
  - destruct (np_mod_range (xl - x) (xu - xl)) as (m & -> & M1 & M2); [lra|]. simpl.
    destruct (Qltb xu (xl + m)) eqn:E2; qb; [lra|]. exists (xl + m); split; auto; lra.
  - simpl. destruct (Qltb xu x) eqn:E2; qb.
    + destruct (np_mod_range (x - xu) (xu - xl)) as (m & -> & M1 & M2); [lra|]. simpl. exists (xu - m); split; auto; lra.
    + exists x; split; auto.
Qed.
Lemma periodic_box x xl xu : xl < xu -> exists y, repair_periodic x xl xu = Some y /\ xl <= y /\ y <= xu.
Proof.
  intros H. unfold repair_periodic. destruct (Qltb x xl) eqn:E1; qb.
  - destruct (np_mod_range (xl - x) (xu - xl)) as (m & -> & M1 & M2); [lra|]. simpl.
    destruct (Qltb xu (xu - m)) eqn:E2; qb; [lra|]. exists (xu - m); split; auto; lra.
  - simpl. destruct (Qltb xu x) eqn:E2; qb.
    + destruct (np_mod_range (x - xu) (xu - xl)) as (m & -> & M1 & M2); [lra|]. simpl. exists (xl + m); split; auto; lra.
    + exists x; split; auto.
Qed.
Lemma scale_range r t : 0 <= r -> r < 1 -> 0 <= t -> 0 <= r * t /\ r * t <= t.
Proof.
  intros. assert (0 * t <= r * t) by (apply Qmult_le_compat_r; lra). assert (r * t <= 1 * t) by (apply Qmult_le_compat_r; lra). lra.
Qed.
Lemma random_init_box x p xl xu r1 r2 : xl <= p -> p <= xu -> 0 <= r1 -> r1 < 1 -> 0 <= r2 -> r2 < 1 ->
  xl <= repair_random_init x p xl xu r1 r2 /\ repair_random_init x p xl xu r1 r2 <= xu.
Proof.
  intros. unfold repair_random_init.
  pose proof (scale_range r1 (p - xl)). pose proof (scale_range r2 (xu - p)).
  destruct (Qltb x xl) eqn:E1; qb.
  - destruct (Qltb xu _) eqn:E2; qb; lra.
  - destruct (Qltb xu x) eqn:E2; qb; lra.
Qed.
Lemma midway_box x p xl xu : xl <= p -> p <= xu -> xl <= midway x p xl xu /\ midway x p xl xu <= xu.
Proof.
  intros. unfold midway.
  assert (H1 : (p - xl) / 2 == (p - xl) * (1 # 2)) by field. assert (H2 : (xu - p) / 2 == (xu - p) * (1 # 2)) by field.
  set (a := (p - xl) / 2) in *. set (b := (xu - p) / 2) in *. destruct (Qltb x xl) eqn:E1; qb; destruct (Qltb xu _) eqn:E2; qb; lra.
Qed.
Lemma rand_init_box x xl xu r1 r2 : xl <= xu -> 0 <= r1 -> r1 < 1 -> 0 <= r2 -> r2 < 1 ->
  xl <= rand_init x xl xu r1 r2 /\ rand_init x xl xu r1 r2 <= xu.
Proof.
  intros. unfold rand_init. pose proof (scale_range r1 (xu - xl)). pose proof (scale_range r2 (xu - xl)).
  destruct (Qltb x xl) eqn:E1; qb; destruct (Qltb xu _) eqn:E2; qb; lra.
Qed.
Lemma to_bounds_box x xl xu : xl <= xu -> xl <= to_bounds x xl xu /\ to_bounds x xl xu <= xu.
Proof. intros. unfold to_bounds. destruct (Qltb x xl) eqn:E1; qb; destruct (Qltb xu _) eqn:E2; qb; lra. Qed.

(** inside the box nothing changes *)
Lemma inside_unchanged x p xl xu r1 r2 : xl <= x -> x <= xu ->
  bounce_back x xl xu = Some x /\ repair_periodic x xl xu = Some x /\ repair_random_init x p xl xu r1 r2 = x /\
  midway x p xl xu = x /\ rand_init x xl xu r1 r2 = x /\ to_bounds x xl xu = x.
Proof.
  intros H1 H2. apply Qltb_false in H1, H2.
  unfold bounce_back, repair_periodic, repair_random_init, midway, rand_init, to_bounds. rewrite !H1. simpl. rewrite !H2. auto 10.
Qed.

(** ** rounding *)
Lemma around_bounds q l u : inject_Z l <= q -> q <= inject_Z u -> (l <= around q <= u)%Z.
Proof.
  intros Hl Hu. unfold around.
  assert (H1 : (l <= Qfloor q)%Z). { rewrite <- (Qfloor_Z l). apply Qfloor_resp_le; auto. }
  assert (H2 : (Qfloor q <= u)%Z). { rewrite <- (Qfloor_Z u). apply Qfloor_resp_le; auto. }
  assert (H3 : Qltb (q - inject_Z (Qfloor q)) (1 # 2) = false -> (Qfloor q + 1 <= u)%Z).
  { intros E. qb. destruct (Z.eq_dec (Qfloor q) u) as [Eu|]; [|lia]. exfalso. rewrite Eu in E. lra. }
  destruct (Qltb (q - inject_Z (Qfloor q)) (1 # 2)) eqn:E1; [lia|]. specialize (H3 eq_refl).
  destruct (Qltb (1 # 2) _); [lia|]. destruct (Z.even _); lia.
Qed.
Lemma around_Z z : around (inject_Z z) = z.
Proof.
  unfold around. rewrite Qfloor_Z. replace (Qltb (inject_Z z - inject_Z z) (1 # 2)) with true; auto.
  symmetry. apply Qltb_iff. lra.
Qed.
Lemma around_near q : -(1 # 2) <= inject_Z (around q) - q /\ inject_Z (around q) - q <= 1 # 2.
Proof.
  unfold around. pose proof (Qfloor_le q) as H1. pose proof (Qlt_floor q) as H2. rewrite inject_Z_plus in H2. change (inject_Z 1) with 1 in H2.
  destruct (Qltb _ (1 # 2)) eqn:E1; qb; [lra|]. destruct (Qltb (1 # 2) _) eqn:E2; qb; [rewrite inject_Z_plus; change (inject_Z 1) with 1; lra|].
  destruct (Z.even _); [lra|rewrite inject_Z_plus; change (inject_Z 1) with 1; lra].
Qed.
Lemma around_even q : q - inject_Z (Qfloor q) == 1 # 2 -> Z.even (around q) = true.
Proof.
  intros E. unfold around. replace (Qltb (q - inject_Z (Qfloor q)) (1 # 2)) with false by (symmetry; apply Qltb_false; lra).
  replace (Qltb (1 # 2) (q - inject_Z (Qfloor q))) with false by (symmetry; apply Qltb_false; lra).
  destruct (Z.even (Qfloor q)) eqn:E2; auto. rewrite Z.even_add, E2. auto.
Qed.
Lemma Qcompat_Qfloor a b : a == b -> Qfloor a = Qfloor b.
Proof. intros E. apply Z.le_antisymm; apply Qfloor_resp_le; lra. Qed.

