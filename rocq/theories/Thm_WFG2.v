(** * C116: the WFG reductions *)
From Coq Require Import Reals List Arith ZArith Lra Lia Psatz.
From Verif Require Import ListAux M_NSGA3R M_Bench M_RealOps P_RealOps M_DTLZ M_DF S_Bench Thm_Bench Thm_Bench2 Thm_DTLZ Thm_DF M_WFG Thm_WFG.
Import ListNotations.
Local Open Scope nat_scope.
Local Open Scope R_scope.

Notation units := (Forall unit_).
Lemma rsum_cons a l : rsum (a :: l) = a + rsum l.
Proof. reflexivity. Qed.
Lemma units_sum l : units l -> 0 <= rsum l <= INR (length l).
Proof. induction 1 as [|a l [H1 H2] _ IH]; [cbn; lra|]. rewrite rsum_cons. cbn [length]. rewrite S_INR. lra. Qed.
Lemma mean_unit l : units l -> (1 <= length l)%nat -> unit_ (mean l).
Proof. intros H L. apply unit_div; [apply lt_0_INR; lia|now apply units_sum]. Qed.
Lemma rsum_repeat v n : rsum (repeat v n) = INR n * v.
Proof. induction n as [|n IH]; cbn [repeat]; [cbn; ring|]. rewrite rsum_cons, IH, S_INR. ring. Qed.
Lemma mean_repeat v n : (1 <= n)%nat -> mean (repeat v n) = v.
Proof. intros L. unfold mean. rewrite rsum_repeat, repeat_length. field. apply not_0_INR. lia. Qed.
Lemma uniform_unit l : units l -> (1 <= length l)%nat -> weighted_sum_uniform l = mean l /\ unit_ (weighted_sum_uniform l).
Proof. intros H L. unfold weighted_sum_uniform. pose proof (mean_unit l H L). rewrite correct_id by auto. auto. Qed.
Lemma uniform_repeat v n : unit_ v -> (1 <= n)%nat -> weighted_sum_uniform (repeat v n) = v.
Proof. intros H L. unfold weighted_sum_uniform. rewrite mean_repeat by auto. now apply correct_id. Qed.
Lemma weights_sum w : Forall (fun v => 0 < v) w -> (1 <= length w)%nat -> 0 < rsum w.
Proof. intros H L. destruct H as [|a w Ha Hw]; [cbn in L; lia|]. rewrite rsum_cons. enough (0 <= rsum w) by lra. clear L. induction Hw as [|b w Hb Hw IH]; [cbn; lra|rewrite rsum_cons; lra]. Qed.
Lemma weighted_bounds y : forall w, Forall (fun v => 0 < v) w -> units y -> length y = length w -> 0 <= rsum (map2 Rmult y w) <= rsum w.
Proof.
  induction y as [|a y IH]; intros [|b w] HW HY L; try discriminate; [cbn; lra|]. cbn [map2]. rewrite !rsum_cons. injection L as L. specialize (IH w (Forall_inv_tail HW) (Forall_inv_tail HY) L). pose proof (Forall_inv HW). pose proof (Forall_inv HY) as [Y1 Y2]. nra.
Qed.
Lemma weighted_unit y w : Forall (fun v => 0 < v) w -> units y -> length y = length w -> (1 <= length w)%nat -> unit_ (weighted_sum y w).
Proof. intros HW HY L L1. unfold weighted_sum. pose proof (weights_sum w HW L1). pose proof (weighted_bounds y w HW HY L). rewrite correct_id; apply unit_div; auto. Qed.
Lemma weighted_repeat v w : unit_ v -> Forall (fun v => 0 < v) w -> (1 <= length w)%nat -> weighted_sum (repeat v (length w)) w = v.
Proof.
  intros H HW L. unfold weighted_sum. pose proof (weights_sum w HW L). assert (E : rsum (map2 Rmult (repeat v (length w)) w) = v * rsum w).
  { clear. induction w as [|a w IH]; cbn [length repeat map2]; [cbn; ring|]. rewrite !rsum_cons, IH. ring. }
  rewrite E. replace (v * rsum w / rsum w) with v by (field; lra). now apply correct_id.
Qed.

(** ** the non-separable reduction *)
Definition dist_to (a : R) (l : list R) : R := rsum (map (fun b => Rabs (a - b)) l).
Definition all_dist (l : list R) : R := rsum (map (fun a => dist_to a l) l).
Lemma rsum_map_add {A} (f g : A -> R) l : rsum (map (fun a => f a + g a) l) = rsum (map f l) + rsum (map g l).
Proof. induction l as [|a l IH]; cbn [map]; [cbn; ring|]. rewrite !rsum_cons, IH. ring. Qed.
Lemma all_dist_cons a l : all_dist (a :: l) = all_dist l + 2 * dist_to a l.
Proof.
  unfold all_dist. cbn [map]. rewrite rsum_cons. unfold dist_to at 1. cbn [map]. rewrite rsum_cons. fold (dist_to a l). replace (a - a) with 0 by ring. rewrite Rabs_R0.
  rewrite (map_ext (fun b => dist_to b (a :: l)) (fun b => Rabs (a - b) + dist_to b l)).
  - rewrite rsum_map_add. fold (dist_to a l). ring.
  - intros b. unfold dist_to. cbn [map]. rewrite rsum_cons, Rabs_minus_sym. reflexivity.
Qed.
(** p ones, q zeros and the values [l] *)
Definition mixed_sum (p q : R) (l : list R) : R := p + rsum l + 2 * p * q + 2 * rsum (map (fun x => p * (1 - x) + q * x) l) + all_dist l.
Lemma mixed_step p q x l : unit_ x -> units l -> mixed_sum p q (x :: l) <= (1 - x) * mixed_sum p (q + 1) l + x * mixed_sum (p + 1) q l.
Proof.
  intros [X1 X2] HL. unfold mixed_sum. cbn [map]. rewrite !rsum_cons, all_dist_cons.
  assert (D : dist_to x l <= (1 - x) * rsum l + x * rsum (map (fun b => 1 - b) l)).
  { induction HL as [|b l [B1 B2] _ IH]; unfold dist_to in *; cbn [map]; [cbn; lra|]. rewrite !rsum_cons. assert (Rabs (x - b) <= (1 - x) * b + x * (1 - b)) by (apply Rabs_le; nra). lra. }
  assert (E1 : rsum (map (fun b => p * (1 - b) + (q + 1) * b) l) = rsum (map (fun b => p * (1 - b) + q * b) l) + rsum l) by (clear; induction l as [|b l IH]; cbn [map]; [cbn; ring|rewrite !rsum_cons, IH; ring]).
  assert (E2 : rsum (map (fun b => (p + 1) * (1 - b) + q * b) l) = rsum (map (fun b => p * (1 - b) + q * b) l) + rsum (map (fun b => 1 - b) l)) by (clear; induction l as [|b l IH]; cbn [map]; [cbn; ring|rewrite !rsum_cons, IH; ring]).
  rewrite E1, E2. set (s := rsum (map (fun b => p * (1 - b) + q * b) l)) in *. nra.
Qed.
Definition max_val (m : nat) : R := INR ((m + 1) / 2) * (1 + 2 * INR m - 2 * INR ((m + 1) / 2)).
Lemma z_par1 (d : Z) : (0 <= d * (1 + 2 * d))%Z.
Proof. destruct (Z_le_gt_dec 0 d); nia. Qed.
Lemma z_par2 (d : Z) : (0 <= d * (2 * d - 1))%Z.
Proof. destruct (Z_le_gt_dec 1 d); nia. Qed.
Lemma max_val_ge m p : (p <= m)%nat -> INR p * (1 + 2 * INR m - 2 * INR p) <= max_val m.
Proof.
  intros H. unfold max_val. assert (HM : exists a, m = (2 * a)%nat \/ m = (2 * a + 1)%nat) by (exists (m / 2)%nat; pose proof (Nat.div_mod m 2); pose proof (Nat.mod_upper_bound m 2); lia).
  destruct HM as (a & [-> | ->]).
  - replace ((2 * a + 1) / 2)%nat with a by (rewrite Nat.mul_comm, Nat.div_add_l by lia; cbn; lia). rewrite !INR_IZR_INZ, Nat2Z.inj_mul. set (x := Z.of_nat a). set (y := Z.of_nat p). rewrite mult_IZR. change (IZR (Z.of_nat 2)) with 2.
    pose proof (z_par1 (x - y)) as Z. apply IZR_le in Z. rewrite mult_IZR, plus_IZR, mult_IZR, minus_IZR in Z. nra.
  - replace ((2 * a + 1 + 1) / 2)%nat with (a + 1)%nat by (replace (2 * a + 1 + 1)%nat with ((a + 1) * 2)%nat by lia; now rewrite Nat.div_mul). rewrite !plus_INR, mult_INR, !INR_IZR_INZ. set (x := Z.of_nat a). set (y := Z.of_nat p). change (IZR (Z.of_nat 2)) with 2. change (IZR (Z.of_nat 1)) with 1.
    pose proof (z_par2 (x + 1 - y)) as Z. apply IZR_le in Z. rewrite mult_IZR, !minus_IZR, mult_IZR, minus_IZR, plus_IZR in Z. nra.
Qed.
Lemma mixed_bound l : forall p q, units l -> mixed_sum (INR p) (INR q) l <= max_val (p + q + length l).
Proof.
  induction l as [|x l IH]; intros p q H.
  - unfold mixed_sum, all_dist. cbn [map length]. replace (rsum []) with 0 by reflexivity. rewrite Nat.add_0_r. eapply Rle_trans; [|apply (max_val_ge (p + q) p); lia]. rewrite plus_INR. nra.
  - pose proof (Forall_inv H) as HX. pose proof (Forall_inv_tail H) as HL. pose proof (mixed_step (INR p) (INR q) x l HX HL) as M. pose proof (IH p (S q) HL) as I1. pose proof (IH (S p) q HL) as I2. rewrite !S_INR in *. cbn [length]. replace (p + q + S (length l))%nat with (p + S q + length l)%nat by lia. replace (S p + q + length l)%nat with (p + S q + length l)%nat in I2 by lia.
    destruct HX as [X1 X2]. nra.
Qed.
Lemma rsum_perm_seq (f : nat -> R) m j : (j < m)%nat -> rsum (map (fun k => f ((1 + j + k) mod m)%nat) (seq 0 (m - 1))) + f j = rsum (map f (seq 0 m)).
Proof.
  intros H. assert (E : map (fun k => f ((1 + j + k) mod m)%nat) (seq 0 (m - 1)) = map f (seq (j + 1) (m - 1 - j)) ++ map f (seq 0 j)).
  { replace (m - 1)%nat with ((m - 1 - j) + j)%nat at 1 by lia. rewrite seq_app, map_app. f_equal.
    - rewrite <- (map_map (fun k => (1 + j + k) mod m)%nat f). f_equal. rewrite <- (Nat.add_0_r (j + 1)).
      assert (G : forall a n, (j + 1 + a + n <= m)%nat -> map (fun k => ((1 + j + k) mod m)%nat) (seq a n) = seq (j + 1 + a) n).
      { intros a n; revert a. induction n as [|n IH]; intros a L; cbn [seq map]; auto. f_equal; [rewrite Nat.mod_small by lia; lia|]. rewrite IH by lia. f_equal. lia. }
      apply G. lia.
    - rewrite <- (map_map (fun k => (1 + j + k) mod m)%nat f). f_equal. cbn [Nat.add].
      assert (G : forall a n, (a + n <= m)%nat -> map (fun k => (S (j + k) mod m)%nat) (seq (m - 1 - j + a) n) = seq a n).
      { intros a n; revert a. induction n as [|n IH]; intros a L; cbn [seq map]; auto. f_equal.
        - replace (S (j + (m - 1 - j + a)))%nat with (a + 1 * m)%nat by lia. rewrite Nat.mod_add by lia. apply Nat.mod_small. lia.
        - replace (S (m - 1 - j + a)) with (m - 1 - j + S a)%nat by lia. apply IH. lia. }
      specialize (G 0%nat j ltac:(lia)). rewrite Nat.add_0_r in G. exact G. }
  rewrite E, rsum_app. replace (seq 0 m) with (seq 0 j ++ [j] ++ seq (j + 1) (m - 1 - j)).
  - rewrite !map_app, !rsum_app. cbn [map]. rewrite rsum1. ring.
  - replace m with (j + (1 + (m - 1 - j)))%nat at 2 by lia. rewrite seq_app, seq_app. reflexivity.
Qed.
Lemma rsum_nth_seq (f : R -> R) l : rsum (map (fun j => f (nth j l 0)) (seq 0 (length l))) = rsum (map f l).
Proof.
  rewrite <- (map_map (fun j => nth j l 0) f). f_equal. f_equal. apply (nth_ext _ _ 0 0); [now rewrite map_length, seq_length|]. intros i Hi. rewrite map_length, seq_length in Hi.
  rewrite (nth_indep _ 0 (nth 0 l 0)) by (now rewrite map_length, seq_length). rewrite (map_nth (fun j => nth j l 0)), seq_nth by auto. reflexivity.
Qed.
Lemma non_sep_val y : (1 <= length y)%nat -> non_sep y (length y) = correct_to_01 ((rsum y + all_dist y) / max_val (length y)).
Proof.
  intros L. unfold non_sep. set (m := length y). f_equal. f_equal.
  - rewrite rsum_map_add. rewrite (rsum_nth_seq (fun v => v)), map_id. f_equal. unfold all_dist. rewrite <- (rsum_nth_seq (fun a => dist_to a y)). fold m. f_equal. apply map_ext_in. intros j HJ. apply in_seq in HJ.
    unfold dist_to. rewrite <- (rsum_nth_seq (fun b => Rabs (nth j y 0 - b)) y). fold m. rewrite <- (rsum_perm_seq (fun l => Rabs (nth j y 0 - nth l y 0)) m j) by lia. replace (nth j y 0 - nth j y 0) with 0 by ring. rewrite Rabs_R0. ring.
  - unfold max_val. field. apply not_0_INR. lia.
Qed.
Lemma max_val_pos m : (1 <= m)%nat -> 0 < max_val m.
Proof. intros H. pose proof (max_val_ge m 1 H) as G. change (INR 1) with 1 in G. apply le_INR in H. change (INR 1) with 1 in H. nra. Qed.
Lemma all_dist_nonneg l : 0 <= all_dist l.
Proof.
  unfold all_dist. assert (G : forall (f : R -> R) l, (forall v, 0 <= f v) -> 0 <= rsum (map f l)) by (intros; now apply rsum_nonneg). apply G. intros v. unfold dist_to. apply G. intros. apply Rabs_pos.
Qed.
Lemma non_sep_unit y A : units y -> A = length y -> (1 <= A)%nat -> unit_ (non_sep y A).
Proof.
  intros H -> L. rewrite non_sep_val by auto. pose proof (max_val_pos _ L) as MP. pose proof (mixed_bound y 0 0 H) as MB. cbn [Nat.add] in MB. change (INR 0) with 0 in MB. unfold mixed_sum in MB.
  rewrite (map_ext (fun x => 0 * (1 - x) + 0 * x) (fun _ => 0)) in MB by (intros; ring). assert (Z : forall l : list R, rsum (map (fun _ => 0) l) = 0) by (induction l as [|a l IH]; cbn [map]; auto; rewrite rsum_cons, IH; ring). rewrite Z in MB.
  pose proof (all_dist_nonneg y). pose proof (units_sum y H). assert (U : unit_ ((rsum y + all_dist y) / max_val (length y))) by (apply unit_div; auto; lra). now rewrite correct_id.
Qed.
Lemma dist_repeat a v n : dist_to a (repeat v n) = INR n * Rabs (a - v).
Proof. unfold dist_to. induction n as [|n IH]; cbn [repeat map]; [cbn; ring|]. rewrite rsum_cons, IH, S_INR. ring. Qed.
Lemma dist_app a l l' : dist_to a (l ++ l') = dist_to a l + dist_to a l'.
Proof. unfold dist_to. now rewrite map_app, rsum_app. Qed.
Lemma all_dist_pattern z p q : 0 <= z -> all_dist (repeat z p ++ repeat 0 q) = 2 * INR p * INR q * z.
Proof.
  intros Hz. induction p as [|p IH]; cbn [repeat app].
  - replace (all_dist (repeat 0 q)) with 0; [cbn [INR]; ring|]. induction q as [|q IH]; cbn [repeat]; [reflexivity|]. rewrite all_dist_cons, <- IH, dist_repeat, Rminus_0_r, Rabs_R0. ring.
  - rewrite all_dist_cons, IH, dist_app, !dist_repeat, Rminus_0_r, (Rminus_diag_eq z z), Rabs_R0, (Rabs_pos_eq z) by auto. rewrite S_INR. ring.
Qed.
(** the pattern on which the reduction is [z] *)
Definition pattern (m : nat) (z : R) : list R := repeat z ((m + 1) / 2) ++ repeat 0 (m - (m + 1) / 2).
Lemma pattern_len m z : length (pattern m z) = m.
Proof. unfold pattern. rewrite app_length, !repeat_length. pose proof (Nat.div_le_upper_bound (m + 1) 2 (m + 1)). assert ((m + 1) / 2 <= m)%nat; [|lia]. destruct m; [cbn; lia|]. apply Nat.lt_succ_r, Nat.div_lt_upper_bound; lia. Qed.
Lemma pattern_units m z : unit_ z -> units (pattern m z).
Proof. intros H. apply Forall_app. split; apply Forall_forall; intros v HV; apply repeat_spec in HV; subst; auto. split; lra. Qed.
Lemma non_sep_pattern m z : unit_ z -> (1 <= m)%nat -> non_sep (pattern m z) m = z.
Proof.
  intros H L. pose proof (pattern_len m z) as PL. rewrite <- PL at 2. rewrite non_sep_val by lia. rewrite PL. unfold pattern in *. rewrite app_length, !repeat_length in PL. destruct H as [H1 H2]. rewrite all_dist_pattern by auto. rewrite rsum_app, !rsum_repeat.
  pose proof (max_val_pos m L) as MP. set (v := ((m + 1) / 2)%nat) in *. assert (E : INR (m - v) = INR m - INR v) by (apply minus_INR; lia). rewrite E.
  replace (INR v * z + (INR m - INR v) * 0 + 2 * INR v * (INR m - INR v) * z) with (z * max_val m) by (unfold max_val; fold v; ring). replace (z * max_val m / max_val m) with z by (field; lra). apply correct_id. split; auto.
Qed.
Lemma non_sep_zero m : (1 <= m)%nat -> non_sep (repeat 0 m) m = 0.
Proof.
  intros L. pose proof (non_sep_pattern m 0 ltac:(split; lra) L) as P. unfold pattern in P. rewrite <- repeat_app in P. replace ((m + 1) / 2 + (m - (m + 1) / 2))%nat with m in P; auto. pose proof (pattern_len m 0) as PL. unfold pattern in PL. rewrite app_length, !repeat_length in PL. lia.
Qed.
