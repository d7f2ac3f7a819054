From Coq Require Import Reals List Lra Lia Psatz.
From Verif Require Import ListAux M_NSGA3R M_Bench M_ZDT M_DTLZ S_Bench Thm_Bench Thm_ZDT Thm_ZDT2.
Import ListNotations.
Local Open Scope R_scope.

Definition sumsq (l : list R) : R := rsum (map (fun a => a^2) l).
Lemma rsum_app a b : rsum (a ++ b) = rsum a + rsum b.
Proof. induction a as [|x a IH]; unfold rsum in *; cbn [app fold_right]; [ring|rewrite IH; ring]. Qed.
Lemma rsum1 a : rsum [a] = a.
Proof. unfold rsum. cbn. ring. Qed.
Lemma sumsq_app a b : sumsq (a ++ b) = sumsq a + sumsq b.
Proof. unfold sumsq. now rewrite map_app, rsum_app. Qed.
Lemma sumsq_ge0 a : 0 <= sumsq a.
Proof. apply rsum_ge0. intros v Hv. apply in_map_iff in Hv as (y & <- & _). apply sq_ge0. Qed.
(** ** Pareto dominance implies a smaller sum *)
Lemma nth_rsum p : forall q, length p = length q -> (forall i, (i < length q)%nat -> nth i p 0 <= nth i q 0) -> rsum p <= rsum q.
Proof.
  induction p as [|a p IH]; intros [|b q] HL H; try discriminate; [lra|]. unfold rsum in *. cbn [fold_right]. pose proof (H 0%nat ltac:(cbn; lia)) as H0. cbn in H0. assert (fold_right Rplus 0 p <= fold_right Rplus 0 q); [|lra].
  apply IH; [now injection HL|]. intros i Hi. apply (H (S i)). cbn. lia.
Qed.
Lemma dom_sum p q : pareto_dom p q -> rsum p < rsum q.
Proof.
  revert q. induction p as [|a p IH]; intros [|b q] (HL & H & j & Hj & Hs); try discriminate; [cbn in Hj; lia|]. unfold rsum. cbn [fold_right]. pose proof (H 0%nat ltac:(cbn; lia)) as H0. cbn in H0. injection HL as HL. destruct j as [|j].
  - cbn in Hs. assert (rsum p <= rsum q) by (apply nth_rsum; auto; intros i Hi; apply (H (S i)); cbn; lia). unfold rsum in *. lra.
  - assert (rsum p < rsum q); [|unfold rsum in *; lra]. apply IH. split; auto. split; [intros i Hi; apply (H (S i)); cbn; lia|]. exists j. cbn in Hj. split; [lia|]. apply Hs.
Qed.
Definition nonneg (l : list R) : Prop := Forall (fun v => 0 <= v) l.
Lemma nonneg_nth l i : nonneg l -> 0 <= nth i l 0.
Proof. intros H. unfold nonneg in H. rewrite Forall_forall in H. destruct (Nat.lt_ge_cases i (length l)) as [Hi|Hi]; [apply H; now apply nth_In|rewrite nth_overflow by auto; lra]. Qed.
Lemma nth_map0 f l i : f 0 = 0 -> nth i (map f l) 0 = f (nth i l 0).
Proof. intros H. rewrite <- H at 1. apply map_nth. Qed.
Lemma dom_sumsq p q : nonneg p -> pareto_dom p q -> sumsq p < sumsq q.
Proof.
  intros HN (HL & H & j & Hj & Hs). apply dom_sum. split; [now rewrite !map_length|]. rewrite map_length. assert (E0 : 0^2 = 0) by ring. split.
  - intros i Hi. rewrite !nth_map0 by auto. pose proof (nonneg_nth p i HN). specialize (H i Hi). nra.
  - exists j. split; auto. rewrite !nth_map0 by auto. pose proof (nonneg_nth p j HN). nra.
Qed.
Lemma unbeaten_sum (dom : list R -> Prop) F p : (forall x, dom x -> rsum p <= rsum (F x)) -> unbeaten dom F p.
Proof. intros H x Hx HD. apply dom_sum in HD. specialize (H x Hx). lra. Qed.
Lemma unbeaten_sumsq (dom : list R -> Prop) F p : (forall x, dom x -> nonneg (F x) /\ sumsq p <= sumsq (F x)) -> unbeaten dom F p.
Proof. intros H x Hx HD. destruct (H x Hx) as [HN HS]. apply dom_sumsq in HD; auto. lra. Qed.

(** ** the rows of objective values *)
Lemma rprod_cons a l : rprod (a :: l) = a * rprod l.
Proof. reflexivity. Qed.
Lemma obj_rows_nil r : obj_rows 1 r [] [] = [r].
Proof. unfold obj_rows. cbn. f_equal. ring. Qed.
Lemma obj_rows_cons r a c b s : obj_rows (S (S (length c))) r (a :: c) (b :: s) = obj_rows (S (length c)) (r * a) c s ++ [r * b].
Proof.
  unfold obj_rows. rewrite (seq_S (S (length c)) 0), map_app. f_equal.
  - apply map_ext_in. intros i Hi. apply in_seq in Hi. cbn [length]. replace (S (length c) - i)%nat with (S (length c - i)) by lia. cbn [firstn nth]. cbv zeta. rewrite rprod_cons. destruct i; ring.
  - cbn [map Nat.add]. cbv zeta. cbn [length]. rewrite Nat.sub_diag, firstn_O. unfold rprod. cbn [fold_right nth]. f_equal. ring.
Qed.
Lemma obj_rows_length n r c s : length (obj_rows n r c s) = n.
Proof. unfold obj_rows. now rewrite map_length, seq_length. Qed.
Lemma obj_rows_sum c : forall r, rsum (obj_rows (S (length c)) r c (map (fun v => 1 - v) c)) = r.
Proof. induction c as [|a c IH]; intros r; cbn [map length]; [rewrite obj_rows_nil; apply rsum1|]. rewrite obj_rows_cons, rsum_app, rsum1, IH. ring. Qed.
Lemma obj_rows_sumsq th : forall r, sumsq (obj_rows (S (length th)) r (map cos th) (map sin th)) = r^2.
Proof.
  induction th as [|t th IH]; intros r; cbn [map length]; [rewrite obj_rows_nil; unfold sumsq; cbn [map]; apply rsum1|]. rewrite <- (map_length cos th) at 1. rewrite obj_rows_cons, map_length, sumsq_app, IH. unfold sumsq. cbn [map]. rewrite rsum1. pose proof (sin2_cos2 t) as HS. unfold Rsqr in HS. nra.
Qed.
Lemma rprod_nonneg l : nonneg l -> 0 <= rprod l.
Proof. induction 1 as [|a l Ha Hl IH]; unfold rprod in *; cbn; [lra|]. now apply Rmult_le_pos. Qed.
Lemma nonneg_firstn k l : nonneg l -> nonneg (firstn k l).
Proof. unfold nonneg. rewrite !Forall_forall. intros H v Hv. apply H. rewrite <- (firstn_skipn k l). apply in_or_app. auto. Qed.
Lemma obj_rows_nonneg n r c s : 0 <= r -> nonneg c -> nonneg s -> nonneg (obj_rows n r c s).
Proof.
  intros Hr Hc Hs. apply Forall_forall. intros v Hv. apply in_map_iff in Hv as (i & <- & _). cbv zeta. assert (0 <= r * rprod (firstn (length c - i) c)) by (apply Rmult_le_pos; auto; apply rprod_nonneg, nonneg_firstn, Hc).
  destruct i; auto. apply Rmult_le_pos; auto. now apply nonneg_nth.
Qed.
(** every point of the simplex and of the sphere is reached *)
Lemma snoc_length {A} k (p : list A) : length p = S k -> exists q e, p = q ++ [e] /\ length q = k.
Proof. intros H. destruct (exists_last (l := p)) as (q & e & E); [intros ->; discriminate|]. exists q, e. split; auto. subst p. rewrite app_length in H. cbn in H. lia. Qed.
Lemma nonneg_app a b : nonneg (a ++ b) <-> nonneg a /\ nonneg b.
Proof. apply Forall_app. Qed.
Lemma nonneg_rsum l : nonneg l -> 0 <= rsum l.
Proof. intros H. apply rsum_ge0. unfold nonneg in H. now rewrite Forall_forall in H. Qed.
Lemma simplex_reach k : forall p, length p = S k -> nonneg p -> exists xs, length xs = k /\ in_box (0, 1) xs /\ obj_rows (S k) (rsum p) xs (map (fun v => 1 - v) xs) = p.
Proof.
  induction k as [|k IH]; intros p HL HN.
  - destruct p as [|a [|? ?]]; try discriminate. exists []. split; auto. split; [constructor|]. cbn [map]. now rewrite obj_rows_nil, rsum1.
  - destruct (snoc_length (S k) p HL) as (q & e & -> & Hq). apply nonneg_app in HN as [Nq Ne]. inversion Ne as [|? ? He _]; subst. destruct (IH q Hq Nq) as (xs & X1 & X2 & X3). rewrite rsum_app, rsum1. pose proof (nonneg_rsum q Nq) as Hs.
    set (r := rsum q + e). destruct (Req_dec r 0) as [E0|E0].
    + exists (0 :: xs). split; [cbn; lia|]. split; [constructor; auto; cbn; lra|]. cbn [map]. rewrite <- X1, obj_rows_cons, X1. rewrite E0. replace (0 * 0) with (rsum q) by (unfold r in E0; lra). rewrite X3. f_equal. f_equal. unfold r in E0; lra.
    + exists (rsum q / r :: xs). assert (Hr : 0 < r) by (unfold r in *; lra). split; [cbn; lia|]. split.
      * constructor; auto. cbn. split; [apply Rmult_le_pos; [lra|left; now apply Rinv_0_lt_compat]|]. apply Rmult_le_reg_r with r; auto. unfold Rdiv. rewrite Rmult_assoc, Rinv_l by lra. unfold r. lra.
      * cbn [map]. rewrite <- X1, obj_rows_cons, X1. replace (r * (rsum q / r)) with (rsum q) by (field; lra). rewrite X3. f_equal. f_equal. unfold r. field. unfold r in E0. lra.
Qed.
Lemma angle_exists u v : 0 <= u -> 0 <= v -> u^2 + v^2 = 1 -> exists t, 0 <= t <= PI / 2 /\ cos t = u /\ sin t = v.
Proof.
  intros Hu Hv H. assert (u <= 1) by nra. exists (acos u). pose proof (acos_bound u) as HB. assert (HC : cos (acos u) = u) by (apply cos_acos; lra). split; [|split; auto].
  - split; [lra|]. apply Rnot_lt_le. intros HL. assert (HI : cos (acos u) < cos (PI / 2)) by (pose proof PI_RGT_0; apply cos_decreasing_1; lra). rewrite cos_PI2, HC in HI. lra.
  - rewrite sin_acos by lra. replace (1 - Rsqr u) with (v * v) by (unfold Rsqr; lra). now apply sqrt_square.
Qed.
Lemma sphere_reach k : forall p, length p = S k -> nonneg p -> exists th, length th = k /\ Forall (fun t => 0 <= t <= PI / 2) th /\ obj_rows (S k) (norm2 p) (map cos th) (map sin th) = p.
Proof.
  assert (HP : 0 < PI / 2) by (pose proof PI_RGT_0; lra).
  induction k as [|k IH]; intros p HL HN.
  - destruct p as [|a [|? ?]]; try discriminate. exists []. split; auto. split; [constructor|]. cbn [map]. rewrite obj_rows_nil. unfold norm2. cbn [map]. rewrite rsum1. f_equal. inversion HN; subst. replace (a^2) with (a * a) by ring. now apply sqrt_square.
  - destruct (snoc_length (S k) p HL) as (q & e & -> & Hq). apply nonneg_app in HN as [Nq Ne]. inversion Ne as [|? ? He _]; subst. destruct (IH q Hq Nq) as (th & X1 & X2 & X3). unfold norm2 in *. fold (sumsq (q ++ [e])) (sumsq q) in *. rewrite sumsq_app. replace (sumsq [e]) with (e^2) by (unfold sumsq; cbn [map]; now rewrite rsum1).
    pose proof (sumsq_ge0 q) as Hs. set (r := sqrt (sumsq q + e^2)). set (n := sqrt (sumsq q)) in *. assert (Hn : n * n = sumsq q) by (apply sqrt_sqrt; auto). assert (Hr : r * r = sumsq q + e^2) by (apply sqrt_sqrt; nra). assert (0 <= n) by apply sqrt_pos. assert (0 <= r) by apply sqrt_pos.
    assert (HG : forall t, r * cos t = n -> r * sin t = e -> obj_rows (S (S k)) r (map cos (t :: th)) (map sin (t :: th)) = q ++ [e]).
    { intros t T1 T2. cbn [map]. rewrite <- X1, <- (map_length cos th), obj_rows_cons, map_length, X1. now rewrite T1, T2, X3. }
    destruct (Req_dec r 0) as [E0|E0].
    + exists (0 :: th). split; [cbn; lia|]. split; [constructor; auto; lra|]. apply HG; rewrite E0 in *; nra.
    + destruct (angle_exists (n / r) (e / r)) as (t & T0 & T1 & T2).
      * apply Rmult_le_pos; auto. left. apply Rinv_0_lt_compat. lra.
      * apply Rmult_le_pos; auto. left. apply Rinv_0_lt_compat. lra.
      * replace ((n / r)^2 + (e / r)^2) with ((n * n + e^2) / (r * r)) by (field; auto). rewrite Hn, <- Hr. field. auto.
      * exists (t :: th). split; [cbn; lia|]. split; [constructor; auto|]. apply HG; [rewrite T1|rewrite T2]; field; auto.
Qed.
(** ** the distance functions *)
Lemma g2_ge0 l : 0 <= g2 l.
Proof. apply rsum_ge0. intros v Hv. apply in_map_iff in Hv as (y & <- & _). apply sq_ge0. Qed.
Lemma g2_half k : g2 (repeat (1/2) k) = 0.
Proof. unfold g2. induction k as [|k IH]; [reflexivity|]. unfold rsum in *. cbn [repeat map fold_right]. rewrite IH. lra. Qed.
Lemma g1_ge0 l : 0 <= g1 (length l) l.
Proof.
  unfold g1. assert (0 <= INR (length l) + rsum (map (fun v => (v - 1 / 2) ^ 2 - cos (20 * PI * (v - 1 / 2))) l)); [|lra]. induction l as [|a l IH]; [cbn; lra|]. cbn [length map]. rewrite S_INR. unfold rsum in *. cbn [fold_right].
  pose proof (COS_bound (20 * PI * (a - 1/2))). pose proof (sq_ge0 (a - 1/2)). lra.
Qed.
Lemma g1_half k : g1 k (repeat (1/2) k) = 0.
Proof.
  unfold g1. enough (E : INR k + rsum (map (fun v => (v - 1 / 2) ^ 2 - cos (20 * PI * (v - 1 / 2))) (repeat (1/2) k)) = 0) by (rewrite E; ring). induction k as [|k IH]; [cbn; ring|]. rewrite S_INR. unfold rsum in *. cbn [repeat map fold_right]. replace (1/2 - 1/2) with 0 by ring. rewrite Rmult_0_r, cos_0. lra.
Qed.
(** rows of the box split into directions and distances *)
Lemma split_box n_var n_obj x : (1 <= n_obj)%nat -> (n_obj <= n_var + 1)%nat -> box_dom n_var (0, 1) x ->
  length (x_dir n_obj x) = (n_obj - 1)%nat /\ in_box (0, 1) (x_dir n_obj x) /\ length (x_dist n_obj x) = (n_var + 1 - n_obj)%nat /\ in_box (0, 1) (x_dist n_obj x).
Proof. intros H1 H2 [HL HB]. unfold x_dir, x_dist. rewrite firstn_length, skipn_length, HL. repeat split; try lia; [now apply in_box_firstn|now apply in_box_skipn]. Qed.
Lemma join_box n_var n_obj xs v : (1 <= n_obj)%nat -> (n_obj <= n_var + 1)%nat -> length xs = (n_obj - 1)%nat -> in_box (0, 1) xs -> 0 <= v <= 1 ->
  let x := xs ++ repeat v (n_var + 1 - n_obj) in box_dom n_var (0, 1) x /\ x_dir n_obj x = xs /\ x_dist n_obj x = repeat v (n_var + 1 - n_obj).
Proof.
  intros H1 H2 HL HB Hv. cbv zeta. split; [split|].
  - rewrite app_length, repeat_length. lia.
  - apply Forall_app. split; auto. apply Forall_forall. intros w Hw. apply repeat_spec in Hw. now subst.
  - unfold x_dir, x_dist. rewrite <- HL, firstn_app, skipn_app, Nat.sub_diag, firstn_O, app_nil_r, firstn_all, skipn_all. auto.
Qed.
(** C87: DTLZ1 *)
Definition on_simplex (m : nat) (w : list R) : Prop := length w = m /\ nonneg w /\ rsum w = 1.
Lemma rsum_scale c l : rsum (map (fun v => c * v) l) = c * rsum l.
Proof. induction l as [|a l IH]; unfold rsum in *; cbn [map fold_right]; [ring|rewrite IH; ring]. Qed.
Lemma dtlz1_sum n_var n_obj x : (1 <= n_obj)%nat -> (n_obj <= n_var + 1)%nat -> box_dom n_var (0, 1) x ->
  exists r, 1/2 <= r /\ rsum (dtlz1 n_var n_obj x) = r /\ nonneg (dtlz1 n_var n_obj x) /\ length (dtlz1 n_var n_obj x) = n_obj.
Proof.
  intros H1 H2 HB. destruct (split_box n_var n_obj x H1 H2 HB) as (D1 & D2 & D3 & D4). unfold dtlz1. rewrite <- D3. pose proof (g1_ge0 (x_dist n_obj x)) as HG. set (g := g1 _ _) in *. exists (1/2 * (1 + g)). split; [lra|]. split; [|split].
  - replace n_obj with (S (length (x_dir n_obj x))) at 1 by lia. apply obj_rows_sum.
  - unfold in_box in D2. rewrite Forall_forall in D2. apply obj_rows_nonneg; [lra| |]; apply Forall_forall; intros v Hv; [apply D2 in Hv; cbn in Hv; lra|apply in_map_iff in Hv as (w & <- & Hw); apply D2 in Hw; cbn in Hw; lra].
  - apply obj_rows_length.
Qed.
Theorem C87_dtlz1 : forall n_var n_obj ref_dirs, (1 <= n_obj)%nat -> (n_obj <= n_var + 1)%nat -> (forall d, In d ref_dirs -> on_simplex n_obj d) ->
  front_ok (box_dom n_var (0, 1)) (dtlz1 n_var n_obj) (dtlz1_front ref_dirs) /\
  forall x, box_dom n_var (0, 1) x -> exists d, on_simplex n_obj d /\ weakly_dom (map (fun v => 1/2 * v) d) (dtlz1 n_var n_obj x).
Proof.
  intros n_var n_obj dirs H1 H2 HD. split.
  - intros p Hp. apply in_map_iff in Hp as (d & <- & Hd). apply HD in Hd as (L & N & S1). assert (HS : rsum (map (fun v => 1/2 * v) d) = 1/2) by (rewrite rsum_scale, S1; ring). split.
    + destruct (simplex_reach (n_obj - 1) (map (fun v => 1/2 * v) d)) as (xs & X1 & X2 & X3).
      * rewrite map_length. lia.
      * unfold nonneg in *. rewrite Forall_forall in *. intros v Hv. apply in_map_iff in Hv as (w & <- & Hw). apply N in Hw. lra.
      * destruct (join_box n_var n_obj xs (1/2) H1 H2 X1 X2 ltac:(lra)) as (J1 & J2 & J3). exists (xs ++ repeat (1/2) (n_var + 1 - n_obj)). split; auto. unfold dtlz1. rewrite J2, J3, g1_half. rewrite HS in X3. replace (S (n_obj - 1)) with n_obj in X3 by lia. now rewrite Rplus_0_r, Rmult_1_r.
    + apply unbeaten_sum. intros x Hx. destruct (dtlz1_sum n_var n_obj x H1 H2 Hx) as (r & R1 & R2 & _). lra.
  - intros x Hx. destruct (dtlz1_sum n_var n_obj x H1 H2 Hx) as (r & R1 & R2 & R3 & R4). set (f := dtlz1 n_var n_obj x) in *. exists (map (fun v => / r * v) f). assert (Hr : 0 < / r) by (apply Rinv_0_lt_compat; lra). split; [split; [now rewrite map_length|split]|].
    + unfold nonneg in *. rewrite Forall_forall in *. intros v Hv. apply in_map_iff in Hv as (w & <- & Hw). apply R3 in Hw. apply Rmult_le_pos; lra.
    + rewrite rsum_scale, R2. field. lra.
    + split; [now rewrite !map_length|]. intros i Hi. rewrite map_map, nth_map0 by ring. pose proof (nonneg_nth f i R3) as Hn. assert (/ r <= 2) by (replace 2 with (/ (1/2)) by field; apply Rinv_le_contravar; lra). nra.
Qed.
(** C87: DTLZ2, 3, 4 *)
Lemma angle_box alpha v : 0 <= v <= 1 -> 0 <= angle alpha v <= PI / 2.
Proof. intros Hv. unfold angle. assert (0 <= v^alpha <= 1) by (split; [now apply pow_le|rewrite <- (pow1 alpha); now apply pow_incr]). pose proof PI_RGT_0. nra. Qed.
Lemma angles_nonneg alpha l : in_box (0, 1) l -> nonneg (map (fun v => cos (angle alpha v)) l) /\ nonneg (map (fun v => sin (angle alpha v)) l).
Proof.
  intros H. unfold in_box, nonneg in *. rewrite !Forall_forall in *. pose proof PI_RGT_0. split; intros v Hv; apply in_map_iff in Hv as (w & <- & Hw); apply H in Hw; cbn in Hw; pose proof (angle_box alpha w Hw); [apply cos_ge_0; lra|apply sin_ge_0; lra].
Qed.
Lemma obj_func_spec n_obj alpha xs g : S (length xs) = n_obj -> in_box (0, 1) xs -> 0 <= g -> length (obj_func n_obj alpha xs g) = n_obj /\ nonneg (obj_func n_obj alpha xs g) /\ sumsq (obj_func n_obj alpha xs g) = (1 + g)^2.
Proof.
  intros HL HB Hg. destruct (angles_nonneg alpha xs HB) as [N1 N2]. unfold obj_func. split; [apply obj_rows_length|]. split; [apply obj_rows_nonneg; auto; lra|].
  rewrite <- (map_map (angle alpha) cos), <- (map_map (angle alpha) sin). rewrite <- HL, <- (map_length (angle alpha) xs). apply obj_rows_sumsq.
Qed.
Lemma root_exists alpha t : (1 <= alpha)%nat -> 0 <= t <= 1 -> exists v, 0 <= v <= 1 /\ v^alpha = t.
Proof.
  intros Ha Ht. destruct (IVT_cor (fun v => v^alpha - t) 0 1) as (v & Hv & E).
  - apply continuity_minus; [apply derivable_continuous, derivable_pow|apply continuity_const; intros ? ?; reflexivity].
  - lra.
  - rewrite pow_ne_zero by lia. rewrite pow1. nra.
  - exists v. split; lra.
Qed.
Definition on_sphere (m : nat) (w : list R) : Prop := length w = m /\ nonneg w /\ sumsq w = 1.
(** a direction: no negative entry, not the zero vector *)
Definition direction (m : nat) (d : list R) : Prop := length d = m /\ nonneg d /\ exists v, In v d /\ v <> 0.
Lemma sumsq_pos d : (exists v, In v d /\ v <> 0) -> 0 < sumsq d.
Proof.
  intros (v & Hv & Hn). pose proof (sumsq_ge0 d) as [H|H]; auto. exfalso. apply Hn. assert (H2 : v^2 = 0); [|nra]. apply (rsum_0 (map (fun a => a^2) d)); auto; [|apply in_map_iff; eauto]. intros w Hw. apply in_map_iff in Hw as (y & <- & _). apply sq_ge0.
Qed.
Lemma sumsq_scale c l : sumsq (map (fun v => v * c) l) = c^2 * sumsq l.
Proof. unfold sumsq. rewrite map_map. rewrite (map_ext _ (fun v => c^2 * v^2)) by (intros; ring). rewrite <- rsum_scale, map_map. reflexivity. Qed.
Lemma sphere_dir m d : direction m d -> on_sphere m (map (fun v => v / norm2 d) d).
Proof.
  intros (L & N & HV). pose proof (sumsq_pos d HV) as HP. unfold norm2. fold (sumsq d). assert (HQ : 0 < sqrt (sumsq d)) by now apply sqrt_lt_R0. split; [now rewrite map_length|]. split.
  - unfold nonneg in *. rewrite Forall_forall in *. intros v Hv'. apply in_map_iff in Hv' as (w & <- & Hw). apply N in Hw. apply Rmult_le_pos; auto. left. now apply Rinv_0_lt_compat.
  - unfold Rdiv. rewrite sumsq_scale. replace (sumsq d) with (sqrt (sumsq d) * sqrt (sumsq d)) at 2 by (apply sqrt_sqrt; lra). field. lra.
Qed.
Lemma norm2_1 m w : on_sphere m w -> norm2 w = 1.
Proof. intros (_ & _ & E). unfold norm2. fold (sumsq w). rewrite E. apply sqrt_1. Qed.
Lemma sphere_obj n_obj alpha w : (1 <= n_obj)%nat -> (1 <= alpha)%nat -> on_sphere n_obj w -> exists xs, length xs = (n_obj - 1)%nat /\ in_box (0, 1) xs /\ obj_func n_obj alpha xs 0 = w.
Proof.
  intros H1 Ha HW. destruct (sphere_reach (n_obj - 1) w) as (th & T1 & T2 & T3); [destruct HW; lia|apply HW|]. rewrite (norm2_1 _ _ HW) in T3. pose proof PI_RGT_0 as HP.
  assert (HX : exists xs, in_box (0, 1) xs /\ map (angle alpha) xs = th).
  { clear T1 T3. induction T2 as [|t th Ht _ (xs & X1 & X2)]; [exists []; split; [constructor|auto]|]. destruct (root_exists alpha (t * 2 / PI)) as (v & V1 & V2); auto.
    - assert (E : t * 2 / PI * (PI / 2) = t) by (field; lra). split; [apply Rmult_le_pos; [lra|left; now apply Rinv_0_lt_compat]|]. apply Rmult_le_reg_r with (PI / 2); lra.
    - exists (v :: xs). split; [constructor; auto|]. cbn [map]. rewrite X2. f_equal. unfold angle. rewrite V2. field. lra. }
  destruct HX as (xs & X1 & X2). exists xs. split; [rewrite <- T1, <- X2; now rewrite map_length|]. split; auto. unfold obj_func. rewrite <- (map_map (angle alpha) cos), <- (map_map (angle alpha) sin), X2, Rplus_0_r. rewrite <- T3. f_equal. lia.
Qed.
(** a problem whose objective vectors are [obj_func] of a direction part and a distance g >= 0 that can be made 0 *)
Lemma sphere_front n_var n_obj alpha F G half dirs : (1 <= n_obj)%nat -> (n_obj <= n_var + 1)%nat -> (1 <= alpha)%nat -> 0 <= half <= 1 ->
  (forall x, box_dom n_var (0, 1) x -> F x = obj_func n_obj alpha (x_dir n_obj x) (G (x_dist n_obj x)) /\ 0 <= G (x_dist n_obj x)) -> G (repeat half (n_var + 1 - n_obj)) = 0 ->
  (forall d, In d dirs -> direction n_obj d) ->
  front_ok (box_dom n_var (0, 1)) F (generic_sphere dirs) /\ forall x, box_dom n_var (0, 1) x -> exists w, on_sphere n_obj w /\ weakly_dom w (F x).
Proof.
  intros H1 H2 Ha Hh HF HG HD.
  assert (HS : forall x, box_dom n_var (0, 1) x -> length (F x) = n_obj /\ nonneg (F x) /\ exists g, 0 <= g /\ sumsq (F x) = (1 + g)^2).
  { intros x Hx. destruct (HF x Hx) as [E Hg]. destruct (split_box n_var n_obj x H1 H2 Hx) as (D1 & D2 & _). destruct (obj_func_spec n_obj alpha (x_dir n_obj x) (G (x_dist n_obj x)) ltac:(lia) D2 Hg) as (O1 & O2 & O3). rewrite E. split; auto. split; auto. eexists; eauto. }
  split.
  - intros p Hp. apply in_map_iff in Hp as (d & <- & Hd). apply HD in Hd. apply sphere_dir in Hd. set (w := map _ d) in *. split.
    + destruct (sphere_obj n_obj alpha w H1 Ha Hd) as (xs & X1 & X2 & X3). destruct (join_box n_var n_obj xs half H1 H2 X1 X2 Hh) as (J1 & J2 & J3). exists (xs ++ repeat half (n_var + 1 - n_obj)). split; auto. destruct (HF _ J1) as [E _]. now rewrite E, J2, J3, HG.
    + apply unbeaten_sumsq. intros x Hx. destruct (HS x Hx) as (L & N & g & Hg & E). split; auto. destruct Hd as (_ & _ & ->). rewrite E. nra.
  - intros x Hx. destruct (HS x Hx) as (L & N & g & Hg & E). exists (map (fun v => v * / (1 + g)) (F x)). assert (Hi : 0 < / (1 + g)) by (apply Rinv_0_lt_compat; lra). assert (Hi1 : / (1 + g) <= 1) by (rewrite <- Rinv_1; apply Rinv_le_contravar; lra). split; [split; [now rewrite map_length|split]|].
    + unfold nonneg in *. rewrite Forall_forall in *. intros v Hv. apply in_map_iff in Hv as (w & <- & Hw). apply N in Hw. apply Rmult_le_pos; lra.
    + rewrite sumsq_scale, E. field. lra.
    + split; [now rewrite !map_length|]. intros i Hi'. rewrite nth_map0 by ring. pose proof (nonneg_nth (F x) i N). nra.
Qed.
Theorem C87_dtlz2 : forall n_var n_obj ref_dirs, (1 <= n_obj)%nat -> (n_obj <= n_var + 1)%nat -> (forall d, In d ref_dirs -> direction n_obj d) ->
  front_ok (box_dom n_var (0, 1)) (dtlz2 n_obj) (generic_sphere ref_dirs) /\
  forall x, box_dom n_var (0, 1) x -> exists w, on_sphere n_obj w /\ weakly_dom w (dtlz2 n_obj x).
Proof. intros n_var n_obj dirs H1 H2 HD. apply (sphere_front n_var n_obj 1 _ g2 (1/2)); auto; [lra|intros; split; [reflexivity|apply g2_ge0]|apply g2_half]. Qed.
Theorem C87_dtlz3 : forall n_var n_obj ref_dirs, (1 <= n_obj)%nat -> (n_obj <= n_var + 1)%nat -> (forall d, In d ref_dirs -> direction n_obj d) ->
  front_ok (box_dom n_var (0, 1)) (dtlz3 n_var n_obj) (generic_sphere ref_dirs) /\
  forall x, box_dom n_var (0, 1) x -> exists w, on_sphere n_obj w /\ weakly_dom w (dtlz3 n_var n_obj x).
Proof.
  intros n_var n_obj dirs H1 H2 HD. apply (sphere_front n_var n_obj 1 _ (g1 (n_var + 1 - n_obj)) (1/2)); auto; [lra| |apply g1_half].
  intros x Hx. split; [reflexivity|]. destruct (split_box n_var n_obj x H1 H2 Hx) as (_ & _ & <- & _). apply g1_ge0.
Qed.
Theorem C87_dtlz4 : forall n_var n_obj alpha ref_dirs, (1 <= n_obj)%nat -> (n_obj <= n_var + 1)%nat -> (1 <= alpha)%nat -> (forall d, In d ref_dirs -> direction n_obj d) ->
  front_ok (box_dom n_var (0, 1)) (dtlz4 n_obj alpha) (generic_sphere ref_dirs) /\
  forall x, box_dom n_var (0, 1) x -> exists w, on_sphere n_obj w /\ weakly_dom w (dtlz4 n_obj alpha x).
Proof. intros n_var n_obj alpha dirs H1 H2 Ha HD. apply (sphere_front n_var n_obj alpha _ g2 (1/2)); auto; [lra|intros; split; [reflexivity|apply g2_ge0]|apply g2_half]. Qed.
