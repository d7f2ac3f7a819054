(** * C111, continued: C3DTLZ4, C3DTLZ1, DC1DTLZ1, DC1DTLZ3, DC3DTLZ1 and DC3DTLZ3 *)
From Coq Require Import Reals List Lra Lia Psatz.
From Verif Require Import ListAux M_NSGA3R M_Bench M_DTLZ M_CDTLZ S_Bench Thm_Bench Thm_ZDT Thm_ZDT2 Thm_DTLZ Thm_CDTLZ.
Import ListNotations.
Local Open Scope R_scope.

(** ** C3DTLZ4 *)
Definition phi (j : nat) (f : list R) : R := sumsq f - 3/4 * (nth j f 0)^2.
Lemma fold_rmax l b : (In (fold_right Rmax b l) (b :: l)) /\ forall v, In v (b :: l) -> v <= fold_right Rmax b l.
Proof.
  induction l as [|a l [IH1 IH2]]; cbn [fold_right]; [split; [now left|intros v [<-|[]]; lra]|]. set (m := fold_right Rmax b l) in *. split.
  - unfold Rmax. destruct (Rle_dec a m); [destruct IH1 as [E|E]; [left|right; right]; auto|right; now left].
  - intros v [<-|[<-|Hv]]; [apply Rle_trans with m; [apply IH2; now left|apply Rmax_r]|apply Rmax_l|apply Rle_trans with m; [apply IH2; now right|apply Rmax_r]].
Qed.
Lemma c3_a f : f <> [] -> exists j, (j < length f)%nat /\ c3dtlz4_a f = sqrt (phi j f) /\ forall i, (i < length f)%nat -> phi j f <= phi i f.
Proof.
  intros Hf. unfold c3dtlz4_a, phi. fold (sumsq f). set (q := map (fun v => v^2) f). assert (Hq : q <> []) by (unfold q; destruct f; cbn; congruence).
  destruct (fold_rmax (tl q) (hd 0 q)) as [H1 H2]. assert (E : hd 0 q :: tl q = q) by (destruct q; [congruence|reflexivity]). rewrite E in H1, H2. set (m := fold_right Rmax (hd 0 q) (tl q)) in *.
  apply (In_nth _ _ 0) in H1 as (j & Hj & Ej). unfold q in Hj. rewrite map_length in Hj. assert (Nq : forall i, nth i q 0 = (nth i f 0)^2) by (intros i; unfold q; apply nth_map0; ring). exists j. split; auto. rewrite <- Nq, Ej. split; auto.
  intros i Hi. assert (nth i q 0 <= m); [|rewrite Nq in *; lra]. apply H2, nth_In. unfold q. now rewrite map_length.
Qed.
Lemma sumsq_upd f : forall j v, (j < length f)%nat -> sumsq (upd f j v) = sumsq f - (nth j f 0)^2 + v^2.
Proof.
  induction f as [|a f IH]; intros j v Hj; [cbn in Hj; lia|]. destruct j as [|j]; cbn [upd nth]; unfold sumsq, rsum in *; cbn [map fold_right]; [ring|]. rewrite IH by (cbn in Hj; lia). ring.
Qed.
Lemma phi_upd j f : (j < length f)%nat -> phi j f = sumsq (upd f j (nth j f 0 / 2)).
Proof. intros Hj. unfold phi. rewrite sumsq_upd by auto. field. Qed.
Lemma phi_dom j p q : nonneg p -> (j < length p)%nat -> pareto_dom p q -> phi j p < phi j q.
Proof.
  intros HN Hj (HL & H & k & Hk & Hs). rewrite !phi_upd by lia. apply dom_sumsq.
  - unfold nonneg. apply Forall_forall. intros v Hv. apply (In_nth _ _ 0) in Hv as (i & Hi & <-). rewrite length_upd in Hi. destruct (Nat.eq_dec i j) as [->|Hn]; [rewrite nth_upd_eq by auto; pose proof (nonneg_nth p j HN); lra|rewrite nth_upd_neq by auto; now apply nonneg_nth].
  - split; [now rewrite !length_upd|]. rewrite length_upd. split.
    + intros i Hi. specialize (H i Hi). destruct (Nat.eq_dec i j) as [->|Hn]; [rewrite !nth_upd_eq by lia; lra|rewrite !nth_upd_neq by auto; auto].
    + exists k. split; auto. destruct (Nat.eq_dec k j) as [->|Hn]; [rewrite !nth_upd_eq by lia; lra|rewrite !nth_upd_neq by auto; auto].
Qed.
Lemma c3_cons f : Forall (fun g => g <= 0) (constraint_c3_spherical f) <-> forall i, (i < length f)%nat -> 1 <= phi i f.
Proof.
  unfold constraint_c3_spherical, phi. rewrite Forall_forall. split.
  - intros H i Hi. assert (1 - (nth i f 0)^2 / 4 - (sum2 f - (nth i f 0)^2) <= 0); [|rewrite sum2_sumsq in *; lra]. apply H. apply in_map_iff. exists i. split; auto. apply in_seq. lia.
  - intros H g Hg. apply in_map_iff in Hg as (i & <- & Hi). apply in_seq in Hi. specialize (H i ltac:(lia)). rewrite sum2_sumsq. lra.
Qed.
Lemma phi_scale j c f : phi j (map (fun v => v * c) f) = c^2 * phi j f.
Proof. unfold phi. rewrite sumsq_scale, nth_map0 by ring. ring. Qed.
(** on the unit sphere, 1/4 <= phi *)
Lemma phi_unit n w j : on_sphere n w -> 1/4 <= phi j w <= 1.
Proof. intros (_ & N & E). unfold phi. rewrite E. pose proof (unit_coord w j E). pose proof (nonneg_nth w j N). nra. Qed.
Lemma obj_func_scale n alpha xs g : obj_func n alpha xs g = map (fun v => v * (1 + g)) (obj_func n alpha xs 0).
Proof. unfold obj_func, obj_rows. rewrite map_map. apply map_ext. intros i. cbv zeta. rewrite map_length. destruct i; ring. Qed.
Lemma g2_bound l : in_box (0, 1) l -> g2 l <= INR (length l) / 4.
Proof.
  induction 1 as [|v l Hv Hl IH]; unfold g2, rsum in *; cbn [map fold_right]; [cbn; lra|]. cbn [length]. rewrite S_INR. cbn in Hv. nra.
Qed.
Lemma g2_repeat v k : g2 (repeat v k) = INR k * (v - 1/2)^2.
Proof. unfold g2, rsum. induction k as [|k IH]; [cbn; ring|]. rewrite S_INR. cbn [repeat map fold_right]. rewrite IH. ring. Qed.
Lemma dtlz4_value n_var n_obj alpha x : (1 <= n_obj)%nat -> (n_obj <= n_var + 1)%nat -> box_dom n_var (0, 1) x ->
  length (dtlz4 n_obj alpha x) = n_obj /\ nonneg (dtlz4 n_obj alpha x) /\ exists g, 0 <= g <= INR (n_var + 1 - n_obj) / 4 /\ sumsq (dtlz4 n_obj alpha x) = (1 + g)^2.
Proof.
  intros H1 H2 Hx. destruct (split_box n_var n_obj x H1 H2 Hx) as (D1 & D2 & D3 & D4). destruct (obj_func_spec n_obj alpha (x_dir n_obj x) (g2 (x_dist n_obj x)) ltac:(lia) D2 (g2_ge0 _)) as (O1 & O2 & O3). split; auto. split; auto. exists (g2 (x_dist n_obj x)). split; auto. split; [apply g2_ge0|]. rewrite <- D3. now apply g2_bound.
Qed.
Lemma dtlz4_reach n_var n_obj alpha w g : (1 <= n_obj)%nat -> (n_obj <= n_var + 1)%nat -> (1 <= alpha)%nat -> on_sphere n_obj w -> 0 <= g <= INR (n_var + 1 - n_obj) / 4 ->
  exists x, box_dom n_var (0, 1) x /\ dtlz4 n_obj alpha x = map (fun v => v * (1 + g)) w.
Proof.
  intros H1 H2 Ha Hw Hg. destruct (sphere_obj n_obj alpha w H1 Ha Hw) as (xs & X1 & X2 & X3). set (k := (n_var + 1 - n_obj)%nat) in *. set (v := 1/2 + sqrt (g / INR k)).
  assert (HV : 0 <= v <= 1 /\ INR k * (v - 1/2)^2 = g).
  { unfold v. replace (1/2 + sqrt (g / INR k) - 1/2) with (sqrt (g / INR k)) by ring. destruct (Nat.eq_dec k 0) as [Ek|Hk].
    - rewrite Ek in *. cbn in Hg. assert (g = 0) by lra. subst g. replace (0 / INR 0) with 0 by (unfold Rdiv; ring). rewrite sqrt_0. cbn. split; lra.
    - assert (HP : 0 < INR k) by (apply lt_0_INR; lia). assert (HQ : 0 <= g / INR k <= 1/4). { split; [apply Rmult_le_pos; [lra|left; now apply Rinv_0_lt_compat]|]. apply (Rmult_le_reg_r (INR k)); auto. unfold Rdiv. rewrite Rmult_assoc, Rinv_l by lra. lra. }
      pose proof (sqrt_pos (g / INR k)) as P1. pose proof (sqrt_sqrt (g / INR k) ltac:(lra)) as P2. split; [split; [lra|nra]|]. replace (sqrt (g / INR k) ^ 2) with (sqrt (g / INR k) * sqrt (g / INR k)) by ring. rewrite P2. field. lra. }
  destruct HV as [HV HE]. destruct (join_box n_var n_obj xs v H1 H2 X1 X2 HV) as (J1 & J2 & J3). exists (xs ++ repeat v k). split; auto. unfold dtlz4. fold k in J1, J2, J3. rewrite J2, J3, g2_repeat, HE, obj_func_scale. now rewrite X3.
Qed.
(** the point reported for the direction with unit vector w *)
Definition c3_point (w : list R) : list R := map (fun v => v / c3dtlz4_a w) w.
Lemma c3_point_spec n w : (1 <= n)%nat -> on_sphere n w -> exists j, (j < n)%nat /\ length (c3_point w) = n /\ nonneg (c3_point w) /\ 1/2 <= c3dtlz4_a w <= 1 /\ phi j (c3_point w) = 1 /\ (forall i, (i < n)%nat -> 1 <= phi i (c3_point w)) /\ sumsq (c3_point w) = (/ c3dtlz4_a w)^2 /\ (c3dtlz4_a w)^2 = phi j w.
Proof.
  intros Hn Hw. pose proof Hw as (L & N & E). assert (Hne : w <> []) by (intros E0; rewrite E0 in L; cbn in L; lia). destruct (c3_a w Hne) as (j & Hj & Ea & Hmin). pose proof (phi_unit n w j Hw) as HP. assert (EA2 : (c3dtlz4_a w)^2 = phi j w) by (rewrite Ea; replace (sqrt (phi j w) ^ 2) with (sqrt (phi j w) * sqrt (phi j w)) by ring; apply sqrt_sqrt; lra).
  assert (HA : 1/2 <= c3dtlz4_a w <= 1). { pose proof (sqrt_pos (phi j w)). rewrite <- Ea in H. nra. } set (a := c3dtlz4_a w) in *. assert (Hi : 0 < / a) by (apply Rinv_0_lt_compat; lra). exists j. unfold c3_point. fold a. rewrite L in *. split; auto. split; [now rewrite map_length|].
  unfold Rdiv. split; [unfold nonneg in *; rewrite Forall_forall in *; intros v Hv; apply in_map_iff in Hv as (u & <- & Hu); apply N in Hu; apply Rmult_le_pos; lra|]. split; auto. split; [rewrite phi_scale, <- EA2; field; lra|]. split; [|split; auto; rewrite sumsq_scale, E; ring].
  intros i Hi'. rewrite phi_scale. specialize (Hmin i Hi'). rewrite <- EA2 in Hmin. replace 1 with ((/ a)^2 * a^2) by (field; lra). apply Rmult_le_compat_l; auto. apply sq_ge0.
Qed.
Lemma c3_front_In p dirs n : (1 <= n)%nat -> (forall d, In d dirs -> direction n d) -> In p (c3dtlz4_front dirs) -> exists w, on_sphere n w /\ p = c3_point w /\ In w (generic_sphere dirs).
Proof.
  intros Hn HD Hp. apply in_map_iff in Hp as (w & <- & Hw). exists w. split; auto. pose proof Hw as Hw'. apply in_map_iff in Hw' as (d & <- & Hd). apply sphere_dir, HD, Hd.
Qed.
Lemma c3_attained n_var n_obj alpha w : (1 <= n_obj)%nat -> (n_obj <= n_var + 1)%nat -> (1 <= alpha)%nat -> on_sphere n_obj w ->
  attained (feasible_dom n_var (c3dtlz4_G n_obj alpha)) (dtlz4 n_obj alpha) (c3_point w) <-> sqrt (sumsq (c3_point w)) <= 1 + INR (n_var + 1 - n_obj) / 4.
Proof.
  intros H1 H2 Ha Hw. destruct (c3_point_spec n_obj w H1 Hw) as (j & Hj & L & N & HA & Ej & Hphi & HS & _). set (a := c3dtlz4_a w) in *. assert (HI : 1 <= / a) by (rewrite <- Rinv_1; apply Rinv_le_contravar; lra). assert (ES : sqrt (sumsq (c3_point w)) = / a) by (rewrite HS; replace ((/ a)^2) with (/ a * / a) by ring; apply sqrt_square; lra). rewrite ES. split.
  - intros (x & [Hx _] & E). destruct (dtlz4_value n_var n_obj alpha x H1 H2 Hx) as (_ & _ & g & Hg & Eg). rewrite E, HS in Eg. nra.
  - intros HK. destruct (dtlz4_reach n_var n_obj alpha w (/ a - 1) H1 H2 Ha Hw ltac:(lra)) as (x & Hx & E). assert (EP : dtlz4 n_obj alpha x = c3_point w). { rewrite E. unfold c3_point. apply map_ext. intros v. fold a. unfold Rdiv. f_equal. ring. } exists x. split; auto. split; auto. unfold c3dtlz4_G. rewrite EP. apply c3_cons. rewrite L. auto.
Qed.
Lemma c3_unbeaten n_var n_obj alpha w : (1 <= n_obj)%nat -> (n_obj <= n_var + 1)%nat -> on_sphere n_obj w -> unbeaten (feasible_dom n_var (c3dtlz4_G n_obj alpha)) (dtlz4 n_obj alpha) (c3_point w).
Proof.
  intros H1 H2 Hw x [Hx HG] HD. destruct (c3_point_spec n_obj w H1 Hw) as (j & Hj & L & N & HA & Ej & _). destruct (dtlz4_value n_var n_obj alpha x H1 H2 Hx) as (L' & N' & _). apply (proj1 (c3_cons _)) with (i := j) in HG; [|now rewrite L']. apply (phi_dom j) in HD; auto; [|now rewrite L']. lra.
Qed.
(** C111: C3DTLZ4, with at least four distance variables, and what happens with fewer: a reported point is the value of a
    feasible solution iff its norm is at most 1 + k / 4 *)
Theorem C111_c3dtlz4 : forall n_var n_obj alpha ref_dirs, (1 <= n_obj)%nat -> (n_obj + 3 <= n_var)%nat -> (1 <= alpha)%nat -> (forall d, In d ref_dirs -> direction n_obj d) ->
  front_ok (feasible_dom n_var (c3dtlz4_G n_obj alpha)) (dtlz4 n_obj alpha) (c3dtlz4_front ref_dirs).
Proof.
  intros n_var n_obj alpha dirs H1 H2 Ha HD p Hp. apply (c3_front_In p dirs n_obj H1 HD) in Hp as (w & Hw & -> & _). split; [|apply c3_unbeaten; auto; lia]. apply c3_attained; auto; [lia|].
  destruct (c3_point_spec n_obj w H1 Hw) as (j & _ & _ & _ & HA & _ & _ & HS & _). assert (HI : / c3dtlz4_a w <= 2) by (replace 2 with (/ (1/2)) by field; apply Rinv_le_contravar; lra). assert (HP : 0 < / c3dtlz4_a w) by (apply Rinv_0_lt_compat; lra). rewrite HS. replace ((/ c3dtlz4_a w)^2) with (/ c3dtlz4_a w * / c3dtlz4_a w) by ring. rewrite sqrt_square by lra.
  assert (4 <= INR (n_var + 1 - n_obj)) by (change 4 with (IZR (Z.of_nat 4)); rewrite <- INR_IZR_INZ; apply le_INR; lia). lra.
Qed.
Theorem C111_c3dtlz4_general : forall n_var n_obj alpha ref_dirs, (1 <= n_obj)%nat -> (n_obj <= n_var + 1)%nat -> (1 <= alpha)%nat -> (forall d, In d ref_dirs -> direction n_obj d) ->
  (forall p, In p (c3dtlz4_front ref_dirs) -> unbeaten (feasible_dom n_var (c3dtlz4_G n_obj alpha)) (dtlz4 n_obj alpha) p /\
     (attained (feasible_dom n_var (c3dtlz4_G n_obj alpha)) (dtlz4 n_obj alpha) p <-> norm2 p <= 1 + INR (n_var + 1 - n_obj) / 4)) /\
  forall x, feasible_dom n_var (c3dtlz4_G n_obj alpha) x -> exists d p, direction n_obj d /\ c3dtlz4_front [d] = [p] /\ attained (feasible_dom n_var (c3dtlz4_G n_obj alpha)) (dtlz4 n_obj alpha) p /\ weakly_dom p (dtlz4 n_obj alpha x).
Proof.
  intros n_var n_obj alpha dirs H1 H2 Ha HD. split.
  - intros p Hp. apply (c3_front_In p dirs n_obj H1 HD) in Hp as (w & Hw & -> & _). split; [now apply c3_unbeaten|]. unfold norm2. fold (sumsq (c3_point w)). now apply c3_attained.
  - intros x [Hx HG]. destruct (dtlz4_value n_var n_obj alpha x H1 H2 Hx) as (L & N & g & Hg & E). unfold c3dtlz4_G in HG. set (f := dtlz4 n_obj alpha x) in *. set (w := map (fun v => v * / (1 + g)) f). assert (Hi : 0 < / (1 + g)) by (apply Rinv_0_lt_compat; lra).
    assert (HW : on_sphere n_obj w). { split; [unfold w; now rewrite map_length|]. split; [|unfold w; rewrite sumsq_scale, E; field; lra]. unfold nonneg in *. rewrite Forall_forall in *. intros v Hv. apply in_map_iff in Hv as (u & <- & Hu). apply N in Hu. apply Rmult_le_pos; lra. }
    destruct (c3_point_spec n_obj w H1 HW) as (j & Hj & LP & NP & HA & Ej & _ & HS & EA). apply (proj1 (c3_cons f)) with (i := j) in HG; [|now rewrite L]. unfold w in EA. rewrite phi_scale in EA. fold w in EA. set (a := c3dtlz4_a w) in *.
    assert (HK : 1 <= a * (1 + g)). { assert (E1 : (a * (1 + g))^2 = phi j f) by (rewrite Rpow_mult_distr, EA; field; lra). rewrite <- E1 in HG. assert (0 <= a * (1 + g)) by (apply Rmult_le_pos; lra). nra. }
    assert (HIa : / a <= 1 + g). { apply (Rmult_le_reg_l a); [lra|]. rewrite Rinv_r by lra. lra. }
    exists w, (c3_point w). split; [|split; [|split]].
    + destruct HW as (W1 & W2 & W3). split; auto. split; auto. destruct w as [|u w'] eqn:Ew; [cbn in W1; lia|]. assert (HX : exists v, In v (u :: w') /\ v <> 0); auto.
      clear - W3. revert W3. generalize (u :: w'). intros l HL. assert (HZ : (forall v, In v l -> v = 0) -> sumsq l = 0). { clear. intros H. unfold sumsq, rsum. induction l as [|a l IH]; [reflexivity|]. cbn [map fold_right]. rewrite IH by (intros; apply H; now right). rewrite (H a) by now left. ring. }
      destruct (Forall_Exists_dec (fun v => v = 0) (fun v => Req_EM_T v 0) l) as [HF|HE]; [rewrite Forall_forall in HF; apply HZ in HF; lra|]. apply Exists_exists in HE. exact HE.
    + unfold c3dtlz4_front, generic_sphere. cbn [map]. rewrite (norm2_1 n_obj w HW). replace (map (fun v => v / 1) w) with w; [reflexivity|]. rewrite <- (map_id w) at 1. apply map_ext. intros; field.
    + apply c3_attained; auto. rewrite HS. replace ((/ a)^2) with (/ a * / a) by ring. assert (0 < / a) by (apply Rinv_0_lt_compat; lra). rewrite sqrt_square by lra. lra.
    + split; [lia|]. intros i Hi'. unfold c3_point. fold a. rewrite nth_map0 by (unfold Rdiv; ring). assert (EN : nth i f 0 = nth i w 0 * (1 + g)) by (unfold w; rewrite nth_map0 by ring; field; lra). rewrite EN. unfold Rdiv. apply Rmult_le_compat_l; auto. apply nonneg_nth, HW.
Qed.
(** with fewer than four distance variables the first corner is reported and no solution has its value *)
Lemma e1_unit k : on_sphere (S k) (1 :: repeat 0 k) /\ c3_point (1 :: repeat 0 k) = 2 :: repeat 0 k.
Proof.
  assert (HS : sumsq (1 :: repeat 0 k) = 1). { unfold sumsq, rsum. cbn [map fold_right]. assert (E : fold_right Rplus 0 (map (fun a => a^2) (repeat 0 k)) = 0) by (induction k as [|k IH]; [reflexivity|cbn [repeat map fold_right]; rewrite IH; ring]). rewrite E. ring. }
  split; [split; [cbn; now rewrite repeat_length|split; auto]|].
  - constructor; [lra|]. apply Forall_forall. intros v Hv. apply repeat_spec in Hv. lra.
  - assert (EA : c3dtlz4_a (1 :: repeat 0 k) = 1/2).
    { unfold c3dtlz4_a. fold (sumsq (1 :: repeat 0 k)). rewrite HS. cbn [map hd tl]. assert (E : fold_right Rmax (1^2) (map (fun v => v^2) (repeat 0 k)) = 1). { induction k as [|k IH]; [cbn; ring|]. cbn [repeat map fold_right]. rewrite IH; [unfold Rmax; destruct (Rle_dec _ _); lra|]. unfold sumsq, rsum in HS |- *. cbn [repeat map fold_right] in HS |- *. lra. }
      rewrite E. replace (1 - 3/4 * 1) with (1/2 * (1/2)) by field. apply sqrt_square. lra. }
    unfold c3_point. rewrite EA. cbn [map]. f_equal; [field|]. induction k as [|k IH]; [reflexivity|]. cbn [repeat map]. f_equal; [unfold Rdiv; ring|]. clear - k. induction k as [|k IH]; [reflexivity|]. cbn [repeat map]. f_equal; auto. unfold Rdiv; ring.
Qed.
Theorem C111_c3dtlz4_refuted : forall n_var n_obj alpha, (1 <= n_obj)%nat -> (n_obj <= n_var + 1)%nat -> (n_var < n_obj + 3)%nat ->
  exists d p, direction n_obj d /\ c3dtlz4_front [d] = [p] /\ ~ attained (box_dom n_var (0, 1)) (dtlz4 n_obj alpha) p.
Proof.
  intros n_var n_obj alpha H1 H2 H3. destruct n_obj as [|k]; [lia|]. destruct (e1_unit k) as [HW HP]. exists (1 :: repeat 0 k), (2 :: repeat 0 k). split; [|split].
  - split; [cbn; now rewrite repeat_length|]. split; [apply HW|]. exists 1. split; [now left|lra].
  - assert (EQ : generic_sphere [1 :: repeat 0 k] = [1 :: repeat 0 k]).
    { assert (G : forall l, norm2 l = 1 -> generic_sphere [l] = [l]) by (intros l El; unfold generic_sphere; cbn [map]; rewrite El; f_equal; rewrite <- (map_id l) at 2; apply map_ext; intros; field). apply G, (norm2_1 (S k) _ HW). }
    unfold c3dtlz4_front. rewrite EQ. rewrite <- HP. reflexivity.
  - intros (x & Hx & E). destruct (dtlz4_value n_var (S k) alpha x H1 H2 Hx) as (_ & _ & g & Hg & Eg). rewrite E in Eg. assert (ES : sumsq (2 :: repeat 0 k) = 4). { unfold sumsq, rsum. cbn [map fold_right]. assert (E0 : fold_right Rplus 0 (map (fun a => a^2) (repeat 0 k)) = 0) by (clear; induction k as [|k IH]; [reflexivity|cbn [repeat map fold_right]; rewrite IH; ring]). rewrite E0. ring. }
    rewrite ES in Eg. assert (INR (n_var + 1 - S k) <= 3) by (change 3 with (IZR (Z.of_nat 3)); rewrite <- INR_IZR_INZ; apply le_INR; lia). nra.
Qed.
(** ** C3DTLZ1 reports the front of DTLZ1, no point of which is feasible *)
Theorem C111_c3dtlz1_refuted : forall n_var n_obj ref_dirs p, (2 <= n_obj)%nat -> (forall d, In d ref_dirs -> on_simplex n_obj d) -> In p (dtlz1_front ref_dirs) ->
  ~ Forall (fun g => g <= 0) (constraint_c3_linear p) /\ ~ attained (feasible_dom n_var (c3dtlz1_G n_var n_obj)) (dtlz1 n_var n_obj) p.
Proof.
  intros n_var n_obj dirs p H2 HD Hp. assert (HN : ~ Forall (fun g => g <= 0) (constraint_c3_linear p)).
  { apply in_map_iff in Hp as (d & <- & Hd). apply HD in Hd. destruct (half_point n_obj d Hd) as (L & N & HS). set (p := map _ d) in *. intros HF. unfold constraint_c3_linear in HF. rewrite Forall_forall in HF.
    assert (HH : forall i, (i < n_obj)%nat -> 1/2 <= nth i p 0). { intros i Hi. assert (1 - nth i p 0 / (5/10) - (rsum p - nth i p 0) <= 0) by (apply HF, in_map_iff; exists i; split; auto; apply in_seq; lia). rewrite HS in H. lra. }
    destruct p as [|a [|b l]]; cbn in L; try lia. pose proof (HH 0%nat ltac:(lia)) as A. pose proof (HH 1%nat ltac:(lia)) as B. cbn in A, B. unfold rsum in HS. cbn [fold_right] in HS. inversion N as [|? ? _ N']; subst. inversion N' as [|? ? _ N'']; subst. apply nonneg_rsum in N''. unfold rsum in N''. lra. }
  split; auto. intros (x & [_ HG] & E). unfold c3dtlz1_G in HG. rewrite E in HG. auto.
Qed.
(** ** DC1: the first variable of a solution that attains a reported point is determined by its last coordinate *)
Lemma last_row n r a c b s : length c = n -> last (obj_rows (S (S n)) r (a :: c) (b :: s)) 0 = r * b.
Proof. intros <-. rewrite obj_rows_cons. apply last_last. Qed.
Lemma dir_first n_obj x : (2 <= n_obj)%nat -> (n_obj <= length x + 1)%nat -> exists c, x_dir n_obj x = nth 0 x 0 :: c /\ length c = (n_obj - 2)%nat.
Proof. intros H1 H2. unfold x_dir. destruct x as [|a x]; [cbn in H2; lia|]. destruct n_obj as [|[|n]]; try lia. cbn [Nat.sub firstn nth]. exists (firstn n x). split; [reflexivity|]. rewrite firstn_length. cbn in H2. lia. Qed.
Lemma dtlz1_first n_var n_obj x p : (2 <= n_obj)%nat -> (n_obj <= n_var + 1)%nat -> box_dom n_var (0, 1) x -> dtlz1 n_var n_obj x = p -> rsum p = 1/2 -> nth 0 x 0 = 1 - 2 * last p 0.
Proof.
  intros H1 H2 Hx E HS. destruct (split_box n_var n_obj x ltac:(lia) H2 Hx) as (D1 & D2 & D3 & D4). destruct (dir_first n_obj x H1 ltac:(destruct Hx; lia)) as (c & Ec & Lc). unfold dtlz1 in E. set (g := g1 _ _) in E.
  assert (EG : g = 0). { rewrite <- E in HS. replace n_obj with (S (length (x_dir n_obj x))) in HS at 1 by lia. rewrite obj_rows_sum in HS. lra. }
  rewrite EG, Ec in E. destruct n_obj as [|[|n]]; try lia. cbn [map] in E. rewrite <- E. rewrite last_row by lia. lra.
Qed.
Lemma dtlz3_first n_var n_obj x w : (2 <= n_obj)%nat -> (n_obj <= n_var + 1)%nat -> box_dom n_var (0, 1) x -> dtlz3 n_var n_obj x = w -> sumsq w = 1 -> PI * nth 0 x 0 = 2 * asin (last w 0).
Proof.
  intros H1 H2 Hx E HS. destruct (split_box n_var n_obj x ltac:(lia) H2 Hx) as (D1 & D2 & D3 & D4). destruct (dir_first n_obj x H1 ltac:(destruct Hx; lia)) as (c & Ec & Lc). unfold dtlz3 in E. set (g := g1 _ _) in E. assert (Hg : 0 <= g) by (unfold g; rewrite <- D3; apply g1_ge0).
  assert (EG : g = 0). { rewrite <- E in HS. destruct (obj_func_spec n_obj 1 (x_dir n_obj x) g ltac:(lia) D2 Hg) as (_ & _ & O). rewrite O in HS. nra. }
  assert (H0 : 0 <= nth 0 x 0 <= 1). { rewrite Ec in D2. inversion D2 as [|? ? Hv _]; subst. exact Hv. }
  rewrite EG, Ec in E. unfold obj_func in E. destruct n_obj as [|[|n]]; try lia. cbn [map] in E. rewrite <- E. rewrite last_row by (rewrite map_length; lia). unfold angle. rewrite Rplus_0_r, Rmult_1_l, pow_1. pose proof PI_RGT_0. rewrite asin_sin by nra. field.
Qed.
Lemma in_last_half d : d <> [] -> last (map (fun v => 1/2 * v) d) 0 = 1/2 * last d 0.
Proof. intros H. rewrite (app_removelast_last 0 H) at 1. rewrite map_app. cbn [map]. apply last_last. Qed.
(** C111: DC1DTLZ1 and DC1DTLZ3: a reported point, never dominated by a feasible solution, is the value of a feasible solution exactly when the cosine allows it *)
Theorem C111_dc1dtlz1 : forall n_var n_obj d, (2 <= n_obj)%nat -> (n_obj <= n_var + 1)%nat -> on_simplex n_obj d -> let p := map (fun v => 1/2 * v) d in
  unbeaten (feasible_dom n_var dc1_G) (dtlz1 n_var n_obj) p /\ (attained (feasible_dom n_var dc1_G) (dtlz1 n_var n_obj) p <-> 95/100 <= cos (5 * PI * (1 - last d 0))).
Proof.
  intros n_var n_obj d H1 H2 Hd p. destruct (half_point n_obj d Hd) as (L & N & HS). fold p in L, N, HS. assert (Hne : d <> []) by (destruct Hd as (Ld & _); intros E; rewrite E in Ld; cbn in Ld; lia).
  assert (EL : last p 0 = 1/2 * last d 0) by now apply in_last_half. split.
  - destruct (C87_dtlz1 n_var n_obj [d] ltac:(lia) H2) as [HF _]; [intros d' [<-|[]]; auto|]. destruct (HF p (or_introl eq_refl)) as [_ HU]. eapply unbeaten_sub; [apply feas_box|exact HU].
  - assert (HX : forall x, box_dom n_var (0, 1) x -> dtlz1 n_var n_obj x = p -> nth 0 x 0 = 1 - last d 0) by (intros x Hx E; pose proof (dtlz1_first n_var n_obj x p H1 H2 Hx E HS); lra). split.
    + intros (x & [Hx HG] & E). inversion HG as [|? ? Hg _]; subst. unfold constraint_dc1 in Hg. rewrite (HX x Hx E) in Hg. lra.
    + intros HC. destruct (simplex_point n_var n_obj p ltac:(lia) H2 L N HS) as (xs & X1 & X2 & X3 & X4 & X5 & X6). eexists. split; [|exact X6]. split; auto. constructor; [|constructor]. unfold constraint_dc1. rewrite (HX _ X3 X6). lra.
Qed.
Theorem C111_dc1dtlz3 : forall n_var n_obj w, (2 <= n_obj)%nat -> (n_obj <= n_var + 1)%nat -> on_sphere n_obj w ->
  unbeaten (feasible_dom n_var dc1_G) (dtlz3 n_var n_obj) w /\ (attained (feasible_dom n_var dc1_G) (dtlz3 n_var n_obj) w <-> 95/100 <= cos (10 * asin (last w 0))).
Proof.
  intros n_var n_obj w H1 H2 Hw. split.
  - apply (unbeaten_sub (box_dom n_var (0, 1))); [apply feas_box|]. apply unbeaten_sumsq. intros x Hx. destruct (split_box n_var n_obj x ltac:(lia) H2 Hx) as (D1 & D2 & D3 & D4). assert (Hg : 0 <= g1 (n_var + 1 - n_obj) (x_dist n_obj x)) by (rewrite <- D3; apply g1_ge0). destruct (obj_func_spec n_obj 1 (x_dir n_obj x) _ ltac:(lia) D2 Hg) as (_ & O2 & O3). split; auto. unfold dtlz3. rewrite O3. destruct Hw as (_ & _ & ->). nra.
  - assert (HX : forall x, box_dom n_var (0, 1) x -> dtlz3 n_var n_obj x = w -> 5 * PI * nth 0 x 0 = 10 * asin (last w 0)) by (intros x Hx E; pose proof (dtlz3_first n_var n_obj x w H1 H2 Hx E (proj2 (proj2 Hw))); lra). split.
    + intros (x & [Hx HG] & E). inversion HG as [|? ? Hg _]; subst. unfold constraint_dc1 in Hg. rewrite (HX x Hx eq_refl) in Hg. lra.
    + intros HC. destruct (sphere_point n_var n_obj w ltac:(lia) H2 Hw) as (xs & X1 & X2 & X3 & X4 & X5 & X6 & _). eexists. split; [|exact X6]. split; auto. constructor; [|constructor]. unfold constraint_dc1. rewrite (HX _ X3 X6). lra.
Qed.
(** directions whose reported point is not feasible *)
Lemma cos_5PI2 : cos (5 * PI * (1/2)) = 0.
Proof. replace (5 * PI * (1/2)) with (PI / 2 + 2 * INR 1 * PI) by (cbn; field). rewrite cos_period. apply cos_PI2. Qed.
Definition two_ends (u v : R) (n : nat) : list R := u :: repeat 0 (n - 2) ++ [v].
Lemma two_ends_spec u v n : (2 <= n)%nat -> 0 <= u -> 0 <= v -> length (two_ends u v n) = n /\ nonneg (two_ends u v n) /\ rsum (two_ends u v n) = u + v /\ sumsq (two_ends u v n) = u^2 + v^2 /\ last (two_ends u v n) 0 = v.
Proof.
  intros Hn Hu Hv. unfold two_ends. split; [cbn; rewrite app_length, repeat_length; cbn; lia|]. split; [|split; [|split]].
  - constructor; auto. apply nonneg_app. split; [|now constructor]. apply Forall_forall. intros x Hx. apply repeat_spec in Hx. lra.
  - unfold rsum. cbn [fold_right]. fold (rsum (repeat 0 (n - 2) ++ [v])). rewrite rsum_app, rsum1. assert (E : rsum (repeat 0 (n - 2)) = 0); [|rewrite E; ring]. unfold rsum. generalize (n - 2)%nat. intros k. induction k as [|k IH]; [reflexivity|]. cbn [repeat fold_right]. rewrite IH. ring.
  - unfold sumsq, rsum. cbn [map fold_right]. rewrite map_app. fold (rsum (map (fun a => a^2) (repeat 0 (n - 2)) ++ map (fun a => a^2) [v])). rewrite rsum_app. cbn [map]. rewrite rsum1. assert (E : rsum (map (fun a => a^2) (repeat 0 (n - 2))) = 0); [|rewrite E; ring]. unfold rsum. generalize (n - 2)%nat. intros k. induction k as [|k IH]; [reflexivity|]. cbn [repeat map fold_right]. rewrite IH. ring.
  - rewrite app_comm_cons. apply last_last.
Qed.
Theorem C111_dc1_refuted : forall n_var n_obj, (2 <= n_obj)%nat -> (n_obj <= n_var + 1)%nat ->
  (exists d, on_simplex n_obj d /\ forall p, In p (dtlz1_front [d]) -> ~ attained (feasible_dom n_var dc1_G) (dtlz1 n_var n_obj) p /\ ~ attained (feasible_dom n_var (dc3_G n_var n_obj)) (dtlz1 n_var n_obj) p) /\
  (exists d, direction n_obj d /\ forall p, In p (generic_sphere [d]) -> ~ attained (feasible_dom n_var dc1_G) (dtlz3 n_var n_obj) p /\ ~ attained (feasible_dom n_var (dc3_G n_var n_obj)) (dtlz3 n_var n_obj) p).
Proof.
  intros n_var n_obj H1 H2. split.
  - destruct (two_ends_spec (1/2) (1/2) n_obj H1 ltac:(lra) ltac:(lra)) as (L & N & HS & _ & HL). set (d := two_ends (1/2) (1/2) n_obj) in *. assert (Hd : on_simplex n_obj d) by (split; auto; split; auto; lra). exists d. split; auto. intros p [<-|[]]. split.
    + intros HA. apply (proj2 (C111_dc1dtlz1 n_var n_obj d H1 H2 Hd)) in HA. rewrite HL in HA. replace (1 - 1/2) with (1/2) in HA by lra. rewrite cos_5PI2 in HA. lra.
    + intros (x & [Hx HG] & E). destruct (half_point n_obj d Hd) as (_ & _ & HP). pose proof (dtlz1_first n_var n_obj x _ H1 H2 Hx E HP) as HF. rewrite in_last_half, HL in HF by (unfold d, two_ends; congruence). destruct (dir_first n_obj x H1 ltac:(destruct Hx; lia)) as (c & Ec & _). unfold dc3_G, constraints_dc3 in HG. rewrite Ec in HG. apply Forall_inv_tail in HG. cbn [map] in HG. pose proof (Forall_inv HG) as Hg. cbv beta in Hg. rewrite HF in Hg. replace (1 - 2 * (1/2 * (1/2))) with (1/2) in Hg by lra. rewrite cos_5PI2 in Hg. lra.
  - pose proof PI_RGT_0 as HPI. pose proof PI4_RGT_0 as HP4. assert (HC : 0 < cos (PI/4)) by (apply cos_gt_0; lra). assert (HSn : 0 < sin (PI/4)) by (apply sin_gt_0; lra). pose proof (sin2_cos2 (PI/4)) as HSC. unfold Rsqr in HSC.
    destruct (two_ends_spec (cos (PI/4)) (sin (PI/4)) n_obj H1 ltac:(lra) ltac:(lra)) as (L & N & _ & HS & HL). set (d := two_ends (cos (PI/4)) (sin (PI/4)) n_obj) in *. assert (Hd : on_sphere n_obj d) by (split; auto; split; auto; rewrite HS; lra). exists d. split.
    + split; auto. split; auto. exists (cos (PI/4)). split; [now left|lra].
    + intros p [<-|[]]. rewrite (norm2_1 n_obj d Hd). replace (map (fun v => v / 1) d) with d by (rewrite <- (map_id d) at 1; apply map_ext; intros; field). assert (EA : asin (sin (PI/4)) = PI/4) by (apply asin_sin; lra). split.
      * intros HA. apply (proj2 (C111_dc1dtlz3 n_var n_obj d H1 H2 Hd)) in HA. rewrite HL, EA in HA. replace (10 * (PI / 4)) with (5 * PI * (1/2)) in HA by field. rewrite cos_5PI2 in HA. lra.
      * intros (x & [Hx HG] & E). pose proof (dtlz3_first n_var n_obj x _ H1 H2 Hx E (proj2 (proj2 Hd))) as HF. rewrite HL, EA in HF. destruct (dir_first n_obj x H1 ltac:(destruct Hx; lia)) as (c & Ec & _). unfold dc3_G, constraints_dc3 in HG. rewrite Ec in HG. apply Forall_inv_tail in HG. cbn [map] in HG. pose proof (Forall_inv HG) as Hg. cbv beta in Hg. replace (5 * PI * nth 0 x 0) with (5 * PI * (1/2)) in Hg by lra. rewrite cos_5PI2 in Hg. lra.
Qed.
(** C111: DC3DTLZ1 and DC3DTLZ3: the same with one cosine per direction variable *)
Theorem C111_dc3 : forall n_var n_obj, (1 <= n_obj)%nat -> (n_obj <= n_var + 1)%nat ->
  (forall d, on_simplex n_obj d -> let p := map (fun v => 1/2 * v) d in
     unbeaten (feasible_dom n_var (dc3_G n_var n_obj)) (dtlz1 n_var n_obj) p /\
     (attained (feasible_dom n_var (dc3_G n_var n_obj)) (dtlz1 n_var n_obj) p <->
      exists xs, length xs = (n_obj - 1)%nat /\ in_box (0, 1) xs /\ Forall (fun v => 1/2 <= cos (5 * PI * v)) xs /\ dtlz1 n_var n_obj (xs ++ repeat (1/2) (n_var + 1 - n_obj)) = p)) /\
  (forall w, on_sphere n_obj w ->
     unbeaten (feasible_dom n_var (dc3_G n_var n_obj)) (dtlz3 n_var n_obj) w /\
     (attained (feasible_dom n_var (dc3_G n_var n_obj)) (dtlz3 n_var n_obj) w <->
      exists xs, length xs = (n_obj - 1)%nat /\ in_box (0, 1) xs /\ Forall (fun v => 1/2 <= cos (5 * PI * v)) xs /\ dtlz3 n_var n_obj (xs ++ repeat (1/2) (n_var + 1 - n_obj)) = w)).
Proof.
  intros n_var n_obj H1 H2.
  assert (HB : forall xs, length xs = (n_obj - 1)%nat -> in_box (0, 1) xs -> Forall (fun v => 1/2 <= cos (5 * PI * v)) xs -> feasible_dom n_var (dc3_G n_var n_obj) (xs ++ repeat (1/2) (n_var + 1 - n_obj))).
  { intros xs X1 X2 X3. destruct (join_box n_var n_obj xs (1/2) H1 H2 X1 X2 ltac:(lra)) as (J1 & J2 & J3). split; auto. unfold dc3_G, constraints_dc3. rewrite J2, J3, g1_half. constructor; [replace (5 * PI * 0) with 0 by ring; rewrite cos_0; lra|]. apply Forall_forall. intros g Hg. apply in_map_iff in Hg as (v & <- & Hv). rewrite Forall_forall in X3. apply X3 in Hv. lra. }
  assert (HG : forall x, feasible_dom n_var (dc3_G n_var n_obj) x -> Forall (fun v => 1/2 <= cos (5 * PI * v)) (x_dir n_obj x)).
  { intros x [_ HG]. unfold dc3_G, constraints_dc3 in HG. inversion HG as [|? ? _ HG']; subst. apply Forall_forall. intros v Hv. rewrite Forall_forall in HG'. assert (5/10 - cos (5 * PI * v) <= 0) by (apply HG', in_map_iff; eauto). lra. }
  split.
  - intros d Hd p. destruct (half_point n_obj d Hd) as (L & N & HS). fold p in L, N, HS. split.
    + destruct (C87_dtlz1 n_var n_obj [d] H1 H2) as [HF _]; [intros d' [<-|[]]; auto|]. destruct (HF p (or_introl eq_refl)) as [_ HU]. eapply unbeaten_sub; [apply feas_box|exact HU].
    + split; [|intros (xs & X1 & X2 & X3 & X4); exists (xs ++ repeat (1/2) (n_var + 1 - n_obj)); auto].
      intros (x & HF & E). pose proof (feas_box _ _ _ HF) as Hx. destruct (split_box n_var n_obj x H1 H2 Hx) as (D1 & D2 & D3 & D4). exists (x_dir n_obj x). split; auto. split; auto. split; auto. destruct (join_box n_var n_obj (x_dir n_obj x) (1/2) H1 H2 D1 D2 ltac:(lra)) as (J1 & J2 & J3).
      rewrite <- E. unfold dtlz1 at 1. rewrite J2, J3, g1_half. unfold dtlz1. f_equal. rewrite <- E in HS. unfold dtlz1 in HS. replace n_obj with (S (length (x_dir n_obj x))) in HS at 1 by lia. rewrite obj_rows_sum in HS. lra.
  - intros w Hw. split.
    + apply (unbeaten_sub (box_dom n_var (0, 1))); [apply feas_box|]. apply unbeaten_sumsq. intros x Hx. destruct (split_box n_var n_obj x H1 H2 Hx) as (D1 & D2 & D3 & D4). assert (Hg : 0 <= g1 (n_var + 1 - n_obj) (x_dist n_obj x)) by (rewrite <- D3; apply g1_ge0). destruct (obj_func_spec n_obj 1 (x_dir n_obj x) _ ltac:(lia) D2 Hg) as (_ & O2 & O3). split; auto. unfold dtlz3. rewrite O3. destruct Hw as (_ & _ & ->). nra.
    + split; [|intros (xs & X1 & X2 & X3 & X4); exists (xs ++ repeat (1/2) (n_var + 1 - n_obj)); auto].
      intros (x & HF & E). pose proof (feas_box _ _ _ HF) as Hx. destruct (split_box n_var n_obj x H1 H2 Hx) as (D1 & D2 & D3 & D4). exists (x_dir n_obj x). split; auto. split; auto. split; auto. destruct (join_box n_var n_obj (x_dir n_obj x) (1/2) H1 H2 D1 D2 ltac:(lra)) as (J1 & J2 & J3).
      rewrite <- E. unfold dtlz3 at 1. rewrite J2, J3, g1_half. unfold dtlz3. f_equal. assert (Hg : 0 <= g1 (n_var + 1 - n_obj) (x_dist n_obj x)) by (rewrite <- D3; apply g1_ge0). destruct (obj_func_spec n_obj 1 (x_dir n_obj x) _ ltac:(lia) D2 Hg) as (_ & _ & O3). destruct Hw as (_ & _ & HS). rewrite <- E in HS. unfold dtlz3 in HS. rewrite O3 in HS. nra.
Qed.
(** non-vacuity *)
Example c111_example : on_simplex 3 [1/2; 1/4; 1/4] /\ direction 3 [1; 0; 2] /\ feasible_dom 7 (c3dtlz4_G 3 100) (map (fun _ => 1) (seq 0 7)).
Proof.
  split; [|split].
  - split; [reflexivity|]. split; [repeat constructor; lra|unfold rsum; cbn; lra].
  - split; [reflexivity|]. split; [repeat constructor; lra|]. exists 1. split; [now left|lra].
  - set (x := map (fun _ => 1) (seq 0 7)). assert (HB : box_dom 7 (0, 1) x) by (split; [reflexivity|repeat constructor; cbn; lra]). split; auto. apply c3_cons. intros i _.
    destruct (split_box 7 3 x ltac:(lia) ltac:(lia) HB) as (D1 & D2 & _). destruct (obj_func_spec 3 100 (x_dir 3 x) (g2 (x_dist 3 x)) ltac:(lia) D2 (g2_ge0 _)) as (_ & _ & O3).
    assert (EG : g2 (x_dist 3 x) = 5/4) by (unfold g2, rsum; cbn; lra). unfold dtlz4. set (f := obj_func _ _ _ _) in *. rewrite EG in O3. clearbody f. unfold phi.
    assert (HU : (nth i f 0)^2 <= sumsq f).
    { clear. revert i. induction f as [|a f IH]; intros i; [destruct i; cbn; unfold sumsq, rsum; cbn; lra|]. unfold sumsq, rsum in *. cbn [map fold_right]. pose proof (sumsq_ge0 f) as P. unfold sumsq, rsum in P. pose proof (sq_ge0 a). destruct i as [|i]; cbn [nth]; [lra|]. specialize (IH i). lra. }
    rewrite O3 in *. lra.
Qed.
