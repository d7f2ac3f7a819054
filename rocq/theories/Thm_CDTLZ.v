(** * C111: the reported fronts of the constrained DTLZ problems *)
From Coq Require Import Reals List Lra Lia Psatz.
From Verif Require Import ListAux M_NSGA3R M_Bench M_DTLZ M_CDTLZ S_Bench Thm_Bench Thm_ZDT Thm_ZDT2 Thm_DTLZ.
Import ListNotations.
Local Open Scope R_scope.

(** the admissible points of a constrained problem: inside the box [0, 1]^n with every inequality constraint at most 0 *)
Definition feasible_dom (n : nat) (G : list R -> list R) (x : list R) : Prop := box_dom n (0, 1) x /\ Forall (fun g => g <= 0) (G x).

Lemma unbeaten_sub (dom dom' : list R -> Prop) F p : (forall x, dom' x -> dom x) -> unbeaten dom F p -> unbeaten dom' F p.
Proof. intros H HU x Hx. apply HU. auto. Qed.
Lemma feas_box n G x : feasible_dom n G x -> box_dom n (0, 1) x.
Proof. now intros [H _]. Qed.
Lemma simplex_point n_var n_obj p : (1 <= n_obj)%nat -> (n_obj <= n_var + 1)%nat -> length p = n_obj -> nonneg p -> rsum p = 1/2 ->
  exists xs, length xs = (n_obj - 1)%nat /\ in_box (0, 1) xs /\ let x := xs ++ repeat (1/2) (n_var + 1 - n_obj) in
  box_dom n_var (0, 1) x /\ x_dir n_obj x = xs /\ x_dist n_obj x = repeat (1/2) (n_var + 1 - n_obj) /\ dtlz1 n_var n_obj x = p.
Proof.
  intros H1 H2 L N HS. destruct (simplex_reach (n_obj - 1) p ltac:(lia) N) as (xs & X1 & X2 & X3). destruct (join_box n_var n_obj xs (1/2) H1 H2 X1 X2 ltac:(lra)) as (J1 & J2 & J3). exists xs. split; auto. split; auto. cbv zeta.
  split; auto. split; auto. split; auto. unfold dtlz1. rewrite J2, J3, g1_half. rewrite HS in X3. replace (S (n_obj - 1)) with n_obj in X3 by lia. now rewrite Rplus_0_r, Rmult_1_r.
Qed.
Lemma sphere_point n_var n_obj w : (1 <= n_obj)%nat -> (n_obj <= n_var + 1)%nat -> on_sphere n_obj w ->
  exists xs, length xs = (n_obj - 1)%nat /\ in_box (0, 1) xs /\ let x := xs ++ repeat (1/2) (n_var + 1 - n_obj) in
  box_dom n_var (0, 1) x /\ x_dir n_obj x = xs /\ x_dist n_obj x = repeat (1/2) (n_var + 1 - n_obj) /\ dtlz3 n_var n_obj x = w /\ dtlz2 n_obj x = w.
Proof.
  intros H1 H2 Hw. destruct (sphere_obj n_obj 1 w H1 ltac:(lia) Hw) as (xs & X1 & X2 & X3). destruct (join_box n_var n_obj xs (1/2) H1 H2 X1 X2 ltac:(lra)) as (J1 & J2 & J3). exists xs. split; auto. split; auto. cbv zeta.
  split; auto. split; auto. split; auto. split; [unfold dtlz3|unfold dtlz2]; rewrite J2, J3; [now rewrite g1_half|now rewrite g2_half].
Qed.
Lemma half_point n_obj d : on_simplex n_obj d -> length (map (fun v => 1/2 * v) d) = n_obj /\ nonneg (map (fun v => 1/2 * v) d) /\ rsum (map (fun v => 1/2 * v) d) = 1/2.
Proof.
  intros (L & N & HS). split; [now rewrite map_length|]. split; [|rewrite rsum_scale, HS; ring]. unfold nonneg in *. rewrite Forall_forall in *. intros v Hv. apply in_map_iff in Hv as (w & <- & Hw). apply N in Hw. lra.
Qed.
(** the general shape: a constrained variant of DTLZ1 (DTLZ3) whose constraints hold wherever the last variables are 1/2 *)
Lemma dtlz1_feasible n_var n_obj G dirs : (1 <= n_obj)%nat -> (n_obj <= n_var + 1)%nat -> (forall d, In d dirs -> on_simplex n_obj d) ->
  (forall x, box_dom n_var (0, 1) x -> x_dist n_obj x = repeat (1/2) (n_var + 1 - n_obj) -> rsum (dtlz1 n_var n_obj x) = 1/2 -> nonneg (dtlz1 n_var n_obj x) -> length (dtlz1 n_var n_obj x) = n_obj -> Forall (fun g => g <= 0) (G x)) ->
  front_ok (feasible_dom n_var G) (dtlz1 n_var n_obj) (dtlz1_front dirs) /\
  forall x, box_dom n_var (0, 1) x -> exists d, on_simplex n_obj d /\ attained (feasible_dom n_var G) (dtlz1 n_var n_obj) (map (fun v => 1/2 * v) d) /\ weakly_dom (map (fun v => 1/2 * v) d) (dtlz1 n_var n_obj x).
Proof.
  intros H1 H2 HD HG. destruct (C87_dtlz1 n_var n_obj dirs H1 H2 HD) as [HF HC].
  assert (HA : forall d, on_simplex n_obj d -> attained (feasible_dom n_var G) (dtlz1 n_var n_obj) (map (fun v => 1/2 * v) d)).
  { intros d Hd. destruct (half_point n_obj d Hd) as (P1 & P2 & P3). destruct (simplex_point n_var n_obj _ H1 H2 P1 P2 P3) as (xs & X1 & X2 & X3 & X4 & X5 & X6). eexists. split; [|apply X6]. split; auto. apply HG; rewrite ?X6; auto. }
  split.
  - intros p Hp. pose proof (HF p Hp) as [_ HU]. split; [|eapply unbeaten_sub; [apply feas_box|exact HU]]. apply in_map_iff in Hp as (d & <- & Hd). apply HA, HD, Hd.
  - intros x Hx. destruct (HC x Hx) as (d & D1 & D2). exists d. split; auto.
Qed.
Lemma dtlz3_feasible n_var n_obj G dirs : (1 <= n_obj)%nat -> (n_obj <= n_var + 1)%nat -> (forall d, In d dirs -> direction n_obj d) ->
  (forall x, box_dom n_var (0, 1) x -> x_dist n_obj x = repeat (1/2) (n_var + 1 - n_obj) -> on_sphere n_obj (dtlz3 n_var n_obj x) -> Forall (fun g => g <= 0) (G x)) ->
  front_ok (feasible_dom n_var G) (dtlz3 n_var n_obj) (generic_sphere dirs) /\
  forall x, box_dom n_var (0, 1) x -> exists w, on_sphere n_obj w /\ attained (feasible_dom n_var G) (dtlz3 n_var n_obj) w /\ weakly_dom w (dtlz3 n_var n_obj x).
Proof.
  intros H1 H2 HD HG. destruct (C87_dtlz3 n_var n_obj dirs H1 H2 HD) as [HF HC].
  assert (HA : forall w, on_sphere n_obj w -> attained (feasible_dom n_var G) (dtlz3 n_var n_obj) w).
  { intros w Hw. destruct (sphere_point n_var n_obj w H1 H2 Hw) as (xs & X1 & X2 & X3 & X4 & X5 & X6 & _). eexists. split; [|apply X6]. split; auto. apply HG; rewrite ?X6; auto. }
  split.
  - intros p Hp. pose proof (HF p Hp) as [_ HU]. split; [|eapply unbeaten_sub; [apply feas_box|exact HU]]. apply in_map_iff in Hp as (d & <- & Hd). apply HA, sphere_dir, HD, Hd.
  - intros x Hx. destruct (HC x Hx) as (w & D1 & D2). exists w. split; auto.
Qed.

(** C111: C1DTLZ1. Every reported point is the value of a feasible solution and no feasible solution dominates it; and every
    feasible solution is weakly dominated by a feasible point of the front's surface *)
Lemma last_split (f : list R) : f <> [] -> rsum f = rsum (removelast f) + last f 0.
Proof. intros H. rewrite (app_removelast_last 0 H) at 1. now rewrite rsum_app, rsum1. Qed.
Lemma div_sum c l : rsum (map (fun v => v / c) l) = rsum l / c.
Proof. rewrite (map_ext _ (fun v => / c * v)) by (intros; unfold Rdiv; ring). rewrite rsum_scale. unfold Rdiv. ring. Qed.
Theorem C111_c1dtlz1 : forall n_var n_obj ref_dirs, (1 <= n_obj)%nat -> (n_obj <= n_var + 1)%nat -> (forall d, In d ref_dirs -> on_simplex n_obj d) ->
  front_ok (feasible_dom n_var (c1dtlz1_G n_var n_obj)) (dtlz1 n_var n_obj) (dtlz1_front ref_dirs) /\
  forall x, box_dom n_var (0, 1) x -> exists d, on_simplex n_obj d /\ attained (feasible_dom n_var (c1dtlz1_G n_var n_obj)) (dtlz1 n_var n_obj) (map (fun v => 1/2 * v) d) /\ weakly_dom (map (fun v => 1/2 * v) d) (dtlz1 n_var n_obj x).
Proof.
  intros n_var n_obj dirs H1 H2 HD. apply dtlz1_feasible; auto. intros x _ _ HS HN HL. constructor; [|constructor]. unfold constraint_c1_linear. set (f := dtlz1 n_var n_obj x) in *. assert (Hf : f <> []) by (intros E; rewrite E in HL; cbn in HL; lia).
  rewrite div_sum. pose proof (last_split f Hf) as E. assert (0 <= last f 0). { rewrite (app_removelast_last 0 Hf) in HN. apply nonneg_app in HN as [_ HN]. now inversion HN. } lra.
Qed.
(** C111: C1DTLZ3, with any radius of at least 1; with a smaller radius no reported point is feasible *)
Lemma sum2_sumsq f : sum2 f = sumsq f.
Proof. reflexivity. Qed.
Theorem C111_c1dtlz3 : forall n_var n_obj r ref_dirs, (1 <= n_obj)%nat -> (n_obj <= n_var + 1)%nat -> 1 <= r^2 -> (forall d, In d ref_dirs -> direction n_obj d) ->
  front_ok (feasible_dom n_var (c1dtlz3_G n_var n_obj r)) (dtlz3 n_var n_obj) (generic_sphere ref_dirs) /\
  forall x, box_dom n_var (0, 1) x -> exists w, on_sphere n_obj w /\ attained (feasible_dom n_var (c1dtlz3_G n_var n_obj r)) (dtlz3 n_var n_obj) w /\ weakly_dom w (dtlz3 n_var n_obj x).
Proof.
  intros n_var n_obj r dirs H1 H2 Hr HD. apply dtlz3_feasible; auto. intros x _ _ (_ & _ & HS). constructor; [|constructor]. unfold constraint_c1_spherical. rewrite sum2_sumsq, HS. lra.
Qed.
Theorem C111_c1dtlz3_default : forall n_obj, 1 <= (c1dtlz3_r n_obj)^2.
Proof. intros n. unfold c1dtlz3_r. destruct (Nat.ltb n 5); [lra|]. destruct (_ && _)%bool; lra. Qed.
Theorem C111_c1dtlz3_small_radius : forall n_var n_obj r ref_dirs p, r^2 < 1 -> (forall d, In d ref_dirs -> direction n_obj d) ->
  In p (generic_sphere ref_dirs) -> ~ attained (feasible_dom n_var (c1dtlz3_G n_var n_obj r)) (dtlz3 n_var n_obj) p.
Proof.
  intros n_var n_obj r dirs p Hr HD Hp (x & (_ & HG) & E). apply in_map_iff in Hp as (d & <- & Hd). apply HD, sphere_dir in Hd as (_ & _ & HS). inversion HG as [|? ? Hg _]; subst. unfold constraint_c1_spherical in Hg. rewrite E in Hg. rewrite sum2_sumsq, HS in Hg. lra.
Qed.
(** C111: DC2DTLZ1 and DC2DTLZ3 *)
Lemma dc2_zero n_var n_obj x : x_dist n_obj x = repeat (1/2) (n_var + 1 - n_obj) -> Forall (fun g => g <= 0) (dc2_G n_var n_obj x).
Proof.
  intros E. unfold dc2_G. rewrite E, g1_half. unfold constraints_dc2. replace (0 / 100 * PI * 3) with 0 by field. replace (- 0 / 100) with 0 by field. rewrite cos_0, exp_0. repeat constructor; lra.
Qed.
Theorem C111_dc2 : forall n_var n_obj, (1 <= n_obj)%nat -> (n_obj <= n_var + 1)%nat ->
  (forall ref_dirs, (forall d, In d ref_dirs -> on_simplex n_obj d) ->
    front_ok (feasible_dom n_var (dc2_G n_var n_obj)) (dtlz1 n_var n_obj) (dtlz1_front ref_dirs) /\
    forall x, box_dom n_var (0, 1) x -> exists d, on_simplex n_obj d /\ attained (feasible_dom n_var (dc2_G n_var n_obj)) (dtlz1 n_var n_obj) (map (fun v => 1/2 * v) d) /\ weakly_dom (map (fun v => 1/2 * v) d) (dtlz1 n_var n_obj x)) /\
  (forall ref_dirs, (forall d, In d ref_dirs -> direction n_obj d) ->
    front_ok (feasible_dom n_var (dc2_G n_var n_obj)) (dtlz3 n_var n_obj) (generic_sphere ref_dirs) /\
    forall x, box_dom n_var (0, 1) x -> exists w, on_sphere n_obj w /\ attained (feasible_dom n_var (dc2_G n_var n_obj)) (dtlz3 n_var n_obj) w /\ weakly_dom w (dtlz3 n_var n_obj x)).
Proof. intros n_var n_obj H1 H2. split; intros dirs HD; [apply dtlz1_feasible|apply dtlz3_feasible]; auto; intros; now apply dc2_zero. Qed.

(** C111: C2DTLZ2. The reported points are those points of the sphere that are feasible; and every feasible solution is weakly
    dominated by a point of the sphere that is itself feasible *)
Lemma fold_min_inf (t : nat -> R) l : forall v, exists u, fold_left (fun v i => min_inf (t i) v) l (Some v) = Some u /\ (u <= 0 <-> v <= 0 \/ exists i, In i l /\ t i <= 0).
Proof.
  induction l as [|i l IH]; intros v; cbn [fold_left].
  - exists v. split; auto. split; [auto|intros [H|(i & [] & _)]; auto].
  - destruct (IH (Rmin (t i) v)) as (u & E & H). cbn [min_inf]. exists u. split; auto. rewrite H. unfold Rmin. destruct (Rle_dec (t i) v) as [HL|HL]; split.
    + intros [K|(j & J1 & J2)]; right; [exists i|exists j]; cbn; auto.
    + intros [K|(j & [<-|J1] & J2)]; [left; lra|auto|right; eauto].
    + intros [K|(j & J1 & J2)]; [auto|right; exists j; cbn; auto].
    + intros [K|(j & [<-|J1] & J2)]; [auto|left; lra|right; eauto].
Qed.
(** the constraint holds iff the point is within [r] of a corner e_i or of the middle (1, ..., 1) / sqrt n *)
Lemma c2_spec f r : f <> [] -> (constraint_c2 f r <= 0 <-> (exists i, (i < length f)%nat /\ sumsq f - 2 * nth i f 0 + 1 <= r^2) \/ sumsq f - 2 * (1 / sqrt (INR (length f))) * rsum f + 1 <= r^2).
Proof.
  intros Hf. assert (HL : (0 < length f)%nat) by (destruct f; [congruence|cbn; lia]). unfold constraint_c2. destruct (length f) as [|n] eqn:EL; [lia|]. cbn [seq fold_left min_inf].
  destruct (fold_min_inf (c2_term f r) (seq 1 n) (c2_term f r 0)) as (u & -> & H). set (a := 1 / sqrt (INR (S n))).
  assert (EV : rsum (map (fun v => (v - a)^2) f) = sumsq f - 2 * a * rsum f + 1).
  { assert (EA : a * a * INR (length f) = 1). { rewrite EL. unfold a. assert (HP : 0 < INR (S n)) by (apply lt_0_INR; lia). pose proof (sqrt_lt_R0 _ HP) as HQ. pose proof (sqrt_sqrt (INR (S n)) ltac:(lra)) as E2. set (q := sqrt (INR (S n))) in *. rewrite <- E2. field. lra. }
    enough (E : rsum (map (fun v => (v - a)^2) f) = sumsq f - 2 * a * rsum f + a * a * INR (length f)) by (rewrite E, EA; ring). clear. unfold sumsq, rsum. induction f as [|v f IH]; [cbn; ring|]. cbn [map fold_right]. rewrite IH. cbn [length]. rewrite S_INR. ring. }
  rewrite EV. assert (ET : forall i, c2_term f r i <= 0 <-> sumsq f - 2 * nth i f 0 + 1 <= r^2). { intros i. unfold c2_term. rewrite sum2_sumsq. split; intros; nra. }
  assert (HM : Rmin u (sumsq f - 2 * a * rsum f + 1 - r^2) <= 0 <-> u <= 0 \/ sumsq f - 2 * a * rsum f + 1 <= r^2).
  { unfold Rmin. destruct (Rle_dec _ _); split; intros; try lra; destruct H0; lra. }
  rewrite HM, H. split.
  - intros [[K|(i & I1 & I2)]|K]; [left; exists 0%nat|left; exists i|auto].
    + split; [lia|]. now apply ET.
    + apply in_seq in I1. split; [lia|]. now apply ET.
  - intros [(i & I1 & I2)|K]; [left|auto]. destruct i as [|i]; [left; now apply ET|right]. exists (S i). split; [apply in_seq; lia|now apply ET].
Qed.
Lemma dtlz2_value n_var n_obj x : (1 <= n_obj)%nat -> (n_obj <= n_var + 1)%nat -> box_dom n_var (0, 1) x ->
  length (dtlz2 n_obj x) = n_obj /\ nonneg (dtlz2 n_obj x) /\ exists g, 0 <= g /\ sumsq (dtlz2 n_obj x) = (1 + g)^2.
Proof. intros H1 H2 Hx. destruct (split_box n_var n_obj x H1 H2 Hx) as (D1 & D2 & _). destruct (obj_func_spec n_obj 1 (x_dir n_obj x) (g2 (x_dist n_obj x)) ltac:(lia) D2 (g2_ge0 _)) as (O1 & O2 & O3). split; auto. split; auto. exists (g2 (x_dist n_obj x)). split; [apply g2_ge0|auto]. Qed.
(** every coordinate of a unit vector is at most 1, and so is its product with the unit vector (1, ..., 1) / sqrt n *)
Lemma unit_coord w i : sumsq w = 1 -> nth i w 0 <= 1.
Proof.
  intros H. assert (HB : (nth i w 0)^2 <= sumsq w). { clear H. revert i. induction w as [|a w IH]; intros i; [destruct i; cbn; unfold sumsq, rsum; cbn; lra|]. unfold sumsq, rsum in *. cbn [map fold_right]. pose proof (sumsq_ge0 w) as P. unfold sumsq, rsum in P. pose proof (sq_ge0 a). destruct i as [|i]; cbn [nth]; [lra|]. specialize (IH i). lra. }
  rewrite H in HB. nra.
Qed.
Lemma centre_sum a w : rsum (map (fun v => (v - a)^2) w) = sumsq w - 2 * a * rsum w + a * a * INR (length w).
Proof. unfold sumsq, rsum. induction w as [|v f IH]; [cbn; ring|]. cbn [map fold_right]. rewrite IH. cbn [length]. rewrite S_INR. ring. Qed.
Lemma unit_middle w : w <> [] -> sumsq w = 1 -> 1 / sqrt (INR (length w)) * rsum w <= 1.
Proof.
  intros Hw H. set (a := 1 / sqrt (INR (length w))).
  assert (EA : a * a * INR (length w) = 1). { assert (HP : 0 < INR (length w)) by (apply lt_0_INR; destruct w; [congruence|cbn; lia]). unfold a. pose proof (sqrt_lt_R0 _ HP) as HQ. pose proof (sqrt_sqrt (INR (length w)) ltac:(lra)) as E2. set (q := sqrt (INR (length w))) in *. rewrite <- E2. field. lra. }
  pose proof (centre_sum a w) as E.
  assert (0 <= rsum (map (fun v => (v - a)^2) w)) by (apply rsum_ge0; intros v Hv; apply in_map_iff in Hv as (y & <- & _); apply sq_ge0). rewrite E, H, EA in H0. lra.
Qed.
Theorem C111_c2dtlz2 : forall n_var n_obj r ref_dirs, (1 <= n_obj)%nat -> (n_obj <= n_var + 1)%nat -> (forall d, In d ref_dirs -> direction n_obj d) ->
  front_ok (feasible_dom n_var (c2dtlz2_G n_obj r)) (dtlz2 n_obj) (c2dtlz2_front r ref_dirs) /\
  forall x, feasible_dom n_var (c2dtlz2_G n_obj r) x -> exists w, In w (c2dtlz2_front r [w]) /\ on_sphere n_obj w /\ weakly_dom w (dtlz2 n_obj x).
Proof.
  intros n_var n_obj r dirs H1 H2 HD. split.
  - intros p Hp. apply filter_In in Hp as [Hp Hc]. destruct (Rle_dec (constraint_c2 p r) 0) as [Hle|]; [|discriminate]. destruct (C87_dtlz2 n_var n_obj dirs H1 H2 HD) as [HF _]. destruct (HF p Hp) as [_ HU]. split; [|eapply unbeaten_sub; [apply feas_box|exact HU]].
    apply in_map_iff in Hp as (d & Ed & Hd). apply HD, sphere_dir in Hd. rewrite Ed in Hd. destruct (sphere_point n_var n_obj p H1 H2 Hd) as (xs & X1 & X2 & X3 & X4 & X5 & _ & X6). eexists. split; [|exact X6]. split; auto. unfold c2dtlz2_G. rewrite X6. constructor; auto.
  - intros x [Hx HG]. destruct (dtlz2_value n_var n_obj x H1 H2 Hx) as (L & N & g & Hg & E). inversion HG as [|? ? Hc _]; subst. set (f := dtlz2 n_obj x) in *. assert (Hf : f <> []) by (intros E0; rewrite E0 in L; cbn in L; lia).
    assert (Hi : 0 < / (1 + g)) by (apply Rinv_0_lt_compat; lra). set (w := map (fun v => v * / (1 + g)) f). assert (Lw : length w = length f) by apply map_length.
    assert (HW : on_sphere n_obj w). { split; [now rewrite Lw|]. split; [|unfold w; rewrite sumsq_scale, E; field; lra]. unfold nonneg in *. rewrite Forall_forall in *. intros v Hv. apply in_map_iff in Hv as (u & <- & Hu). apply N in Hu. apply Rmult_le_pos; lra. }
    assert (HN : forall i, nth i f 0 = (1 + g) * nth i w 0) by (intros i; unfold w; rewrite nth_map0 by ring; field; lra).
    assert (HR : rsum f = (1 + g) * rsum w). { unfold w. rewrite <- rsum_scale, map_map. f_equal. rewrite <- (map_id f) at 1. apply map_ext. intros v. field. lra. }
    exists w. split; [|split; auto].
    + apply filter_In. split; [|destruct (Rle_dec (constraint_c2 w r) 0) as [|HB]; auto; exfalso; apply HB].
      * left. rewrite (norm2_1 n_obj w HW). rewrite <- (map_id w) at 2. apply map_ext. intros v. field.
      * apply c2_spec in Hc; auto. apply c2_spec; [intros E0; rewrite E0 in Lw; rewrite <- Lw in L; cbn in L; lia|]. destruct HW as (_ & NW & SW). rewrite SW, Lw. rewrite E in Hc. destruct Hc as [(i & I1 & I2)|Hc].
        -- left. exists i. split; auto. rewrite HN in I2. pose proof (unit_coord w i SW). nra.
        -- right. rewrite HR in Hc. assert (HM : 1 / sqrt (INR (length f)) * rsum w <= 1) by (rewrite <- Lw; apply unit_middle; auto; intros E0; rewrite E0 in Lw; rewrite <- Lw in L; cbn in L; lia). set (a := 1 / sqrt (INR (length f))) in *. set (m := rsum w) in *. nra.
    + split; auto. intros i Hi'. rewrite HN. pose proof (nonneg_nth w i (proj1 (proj2 HW))). nra.
Qed.
(** with the default radius every corner of the front is feasible, so the front is not empty *)
Theorem C111_c2dtlz2_nonempty : forall n_obj i, (i < n_obj)%nat -> let e := map (fun j => if Nat.eqb j i then 1 else 0) (seq 0 n_obj) in In e (c2dtlz2_front (c2dtlz2_r n_obj) [e]).
Proof.
  intros n i Hi e. assert (Hne : nth i e 0 = 1). { unfold e. rewrite (nth_indep _ 0 ((fun j => if Nat.eqb j i then 1 else 0) 0%nat)) by (rewrite map_length, seq_length; auto). rewrite (map_nth (fun j => if Nat.eqb j i then 1 else 0)), seq_nth by auto. cbn. now rewrite Nat.eqb_refl. }
  assert (HS : sumsq e = 1).
  { unfold e, sumsq. rewrite map_map. rewrite (map_ext _ (fun j => if Nat.eqb j i then 1 else 0)) by (intros j; destruct (Nat.eqb j i); ring). clear e Hne. enough (G : forall a, rsum (map (fun j => if Nat.eqb j i then 1 else 0) (seq a n)) = if (Nat.leb a i && Nat.ltb i (a + n))%bool then 1 else 0). { rewrite G. cbn [Nat.add]. apply Nat.ltb_lt in Hi. rewrite Hi. reflexivity. }
    clear Hi. induction n as [|n IH]; intros a; cbn [seq map]; unfold rsum in *; cbn [fold_right]; [destruct (Nat.leb_spec a i), (Nat.ltb_spec i (a + 0)); cbn; try lra; lia|]. rewrite IH. destruct (Nat.eqb_spec a i), (Nat.leb_spec (S a) i), (Nat.ltb_spec i (S a + n)), (Nat.leb_spec a i), (Nat.ltb_spec i (a + S n)); cbn; try lra; lia. }
  assert (Le : length e = n) by (unfold e; now rewrite map_length, seq_length).
  apply filter_In. split.
  - left. assert (EN : norm2 e = 1) by (unfold norm2; fold (sumsq e); rewrite HS; apply sqrt_1). rewrite EN. rewrite <- (map_id e) at 2. apply map_ext. intros v. field.
  - destruct (Rle_dec _ _) as [|HB]; auto. exfalso. apply HB. apply c2_spec; [intros E0; rewrite E0 in Le; cbn in Le; lia|]. left. exists i. rewrite Le. split; auto. rewrite HS, Hne. pose proof (sq_ge0 (c2dtlz2_r n)). lra.
Qed.
