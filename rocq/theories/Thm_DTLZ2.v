From Coq Require Import Reals List Lra Lia Psatz.
From Verif Require Import ListAux M_NSGA3R M_Bench M_ZDT M_DTLZ S_Bench Thm_Bench Thm_Bench2 Thm_ZDT Thm_ZDT2 Thm_DTLZ.
Import ListNotations.
Local Open Scope R_scope.

(** ** DTLZ5 and DTLZ6 *)
Lemma theta_box g l : 0 <= g -> in_box (0, 1) l -> in_box (0, 1) (theta_ g l) /\ length (theta_ g l) = length l.
Proof.
  intros Hg H. destruct H as [|a l Ha Hl]; [split; [constructor|auto]|]. cbn [theta_ length]. rewrite map_length. split; auto. constructor; auto. unfold in_box in *. rewrite Forall_forall in *. intros v Hv. apply in_map_iff in Hv as (w & <- & Hw). apply Hl in Hw. cbn in *.
  assert (HI : 0 < / (2 * (1 + g))) by (apply Rinv_0_lt_compat; lra). replace (1 / (2 * (1 + g)) * (1 + 2 * g * w)) with ((1 + 2 * g * w) * / (2 * (1 + g))) by (field; lra). split; [apply Rmult_le_pos; nra|].
  apply Rmult_le_reg_r with (2 * (1 + g)); [lra|]. rewrite Rmult_assoc, Rinv_l by lra. nra.
Qed.
Lemma root10_ge0 v : 0 <= root10 v.
Proof. unfold root10. destruct (Req_EM_T v 0); [lra|]. unfold Rpower. left. apply exp_pos. Qed.
Lemma g6_ge0 l : 0 <= g6 l.
Proof. apply rsum_ge0. intros v Hv. apply in_map_iff in Hv as (y & <- & _). apply root10_ge0. Qed.
Lemma g6_0 k : g6 (repeat 0 k) = 0.
Proof. unfold g6. induction k as [|k IH]; [reflexivity|]. unfold rsum in *. cbn [repeat map fold_right]. rewrite IH. unfold root10. destruct (Req_EM_T 0 0); lra. Qed.
Lemma curve_rows n_obj t : (2 <= n_obj)%nat -> curve_point n_obj t = obj_rows n_obj 1 (map cos (t :: repeat (PI / 4) (n_obj - 2))) (map sin (t :: repeat (PI / 4) (n_obj - 2))).
Proof.
  intros H. unfold curve_point, obj_rows. apply map_ext. intros i. cbv zeta. rewrite map_length. cbn [length]. rewrite repeat_length. replace (S (n_obj - 2)) with (n_obj - 1)%nat by lia. destruct i; ring.
Qed.
Lemma curve_spec n_obj t : (2 <= n_obj)%nat -> sumsq (curve_point n_obj t) = 1.
Proof.
  intros H. rewrite curve_rows by auto. set (th := t :: _). assert (E : n_obj = S (length th)) by (unfold th; cbn; rewrite repeat_length; lia). rewrite E at 1. rewrite obj_rows_sumsq. ring.
Qed.
Lemma map_repeat_ {A B} (f : A -> B) v k : map f (repeat v k) = repeat (f v) k.
Proof. induction k as [|k IH]; cbn; congruence. Qed.
Lemma degenerate_front n_var n_obj F G half n_points : (2 <= n_obj)%nat -> (n_obj <= n_var + 1)%nat -> 0 <= half <= 1 ->
  (forall x, F x = obj_func n_obj 1 (theta_ (G (x_dist n_obj x)) (x_dir n_obj x)) (G (x_dist n_obj x))) -> (forall l, 0 <= G l) -> G (repeat half (n_var + 1 - n_obj)) = 0 ->
  front_ok (box_dom n_var (0, 1)) F (dtlz5_front n_obj n_points).
Proof.
  intros H1 H2 Hh HF HG HG0 p Hp. pose proof PI_RGT_0 as HPI. apply in_map_iff in Hp as (t & <- & Ht). apply linspace_in in Ht; [|lra]. split.
  - set (xs := t * 2 / PI :: repeat 0 (n_obj - 2)). destruct (join_box n_var n_obj xs half ltac:(lia) H2) as (J1 & J2 & J3); auto.
    + unfold xs. cbn. rewrite repeat_length. lia.
    + unfold xs. constructor.
      * cbn. assert (E : t * 2 / PI * (PI / 2) = t) by (field; lra). split; [apply Rmult_le_pos; [lra|left; now apply Rinv_0_lt_compat]|]. apply Rmult_le_reg_r with (PI / 2); lra.
      * apply Forall_forall. intros v Hv. apply repeat_spec in Hv. subst v. cbn. lra.
    + exists (xs ++ repeat half (n_var + 1 - n_obj)). split; auto. rewrite HF, J2, J3, HG0, curve_rows by auto. unfold obj_func. rewrite <- (map_map (angle 1) cos), <- (map_map (angle 1) sin).
      assert (E : map (angle 1) (theta_ 0 xs) = t :: repeat (PI / 4) (n_obj - 2)). { unfold xs. cbn [theta_ map]. f_equal; [unfold angle; field; lra|]. rewrite map_map, map_repeat_. f_equal. unfold angle. field. }
      rewrite E, Rplus_0_r. reflexivity.
  - apply unbeaten_sumsq. intros x Hx. rewrite HF. destruct (split_box n_var n_obj x ltac:(lia) H2 Hx) as (D1 & D2 & _). destruct (theta_box (G (x_dist n_obj x)) (x_dir n_obj x) (HG _) D2) as [T1 T2].
    destruct (obj_func_spec n_obj 1 (theta_ (G (x_dist n_obj x)) (x_dir n_obj x)) (G (x_dist n_obj x)) ltac:(lia) T1 (HG _)) as (O1 & O2 & O3). split; auto. rewrite O3, curve_spec by auto. pose proof (HG (x_dist n_obj x)). nra.
Qed.
Theorem C87_dtlz5 : forall n_var n_obj n_points, (2 <= n_obj)%nat -> (n_obj <= n_var + 1)%nat -> front_ok (box_dom n_var (0, 1)) (dtlz5 n_obj) (dtlz5_front n_obj n_points).
Proof. intros n_var n_obj np H1 H2. apply (degenerate_front n_var n_obj _ g2 (1/2)); auto; [lra|apply g2_ge0|apply g2_half]. Qed.
Theorem C87_dtlz6 : forall n_var n_obj n_points, (2 <= n_obj)%nat -> (n_obj <= n_var + 1)%nat -> front_ok (box_dom n_var (0, 1)) (dtlz6 n_obj) (dtlz5_front n_obj n_points).
Proof. intros n_var n_obj np H1 H2. apply (degenerate_front n_var n_obj _ g6 0); auto; [lra|apply g6_ge0|apply g6_0]. Qed.

(** ** DTLZ7 *)
Lemma sin_term_bound v : 0 <= v <= 1 -> 0 <= v * (1 + sin (3 * PI * v)) <= 2.
Proof. intros Hv. pose proof (SIN_bound (3 * PI * v)). nra. Qed.
Lemma dtlz7_last_ge n_obj d : (1 <= n_obj)%nat -> length d = (n_obj - 1)%nat -> in_box (0, 1) d -> 0 <= 2 * INR n_obj - rsum (map (fun v => v * (1 + sin (3 * PI * v))) d).
Proof.
  intros H1 HL HB. assert (H : rsum (map (fun v => v * (1 + sin (3 * PI * v))) d) <= 2 * INR (length d)).
  { clear HL. induction HB as [|a d Ha Hd IH]; [cbn; lra|]. cbn [map length]. rewrite S_INR. unfold rsum in *. cbn [fold_right]. cbn in Ha. pose proof (sin_term_bound a Ha). lra. }
  rewrite HL, minus_INR in H by lia. cbn [INR] in H. lra.
Qed.
(** every point computed from draws is attained, and none is filtered out ... *)
Theorem C87_dtlz7 : forall n_var n_obj draws, (1 <= n_obj)%nat -> (n_obj <= n_var)%nat -> (forall d, In d draws -> length d = (n_obj - 1)%nat /\ in_box (0, 1) d) ->
  length (dtlz7_front n_obj draws) = length draws /\ forall p, In p (dtlz7_front n_obj draws) -> attained (box_dom n_var (0, 1)) (dtlz7 n_var n_obj) p.
Proof.
  intros n_var n_obj draws H1 H2 HD. unfold dtlz7_front. split.
  - rewrite map_length. f_equal. induction draws as [|d draws IH]; [reflexivity|]. cbn [filter]. destruct (HD d (or_introl eq_refl)) as [L B]. pose proof (dtlz7_last_ge n_obj d H1 L B). destruct (Rle_dec _ _); [|tauto]. f_equal. apply IH. intros; apply HD; now right.
  - intros p Hp. apply in_map_iff in Hp as (d & <- & Hd). apply filter_In in Hd as [Hd _]. apply HD in Hd as [L B]. destruct (join_box n_var n_obj d 0 H1 ltac:(lia) L B ltac:(lra)) as (J1 & J2 & J3). exists (d ++ repeat 0 (n_var + 1 - n_obj)). split; auto.
    unfold dtlz7. rewrite J2. f_equal. f_equal. assert (E : skipn (length (d ++ repeat 0 (n_var + 1 - n_obj)) - (n_var + 1 - n_obj)) (d ++ repeat 0 (n_var + 1 - n_obj)) = repeat 0 (n_var + 1 - n_obj)).
    { rewrite app_length, repeat_length. replace (length d + (n_var + 1 - n_obj) - (n_var + 1 - n_obj))%nat with (length d) by lia. rewrite skipn_app, Nat.sub_diag, skipn_all. reflexivity. }
    rewrite E, rsum_repeat, !Rmult_0_r, Rplus_0_r. rewrite (map_ext _ (fun v => / (1 + 1) * (v * (1 + sin (3 * PI * v))))) by (intros; field). rewrite <- (map_map (fun v => v * (1 + sin (3 * PI * v))) (fun v => / (1 + 1) * v)), rsum_scale. field.
Qed.
(** ... but a draw can put a point next to one that dominates it: for every number of objectives from 2 on *)
Theorem C87_dtlz7_refuted : forall n_obj, (2 <= n_obj)%nat -> exists draws p q, (forall d, In d draws -> length d = (n_obj - 1)%nat /\ Forall (fun v => 0 <= v < 1) d) /\ In p (dtlz7_front n_obj draws) /\ In q (dtlz7_front n_obj draws) /\ pareto_dom p q.
Proof.
  intros n_obj Hn. set (z := repeat 0 (n_obj - 2)). set (d0 := 0 :: z). set (d1 := 1/2 :: z). set (pt := fun d => d ++ [2 * INR n_obj - rsum (map (fun v => v * (1 + sin (3 * PI * v))) d)]).
  assert (Z : Forall (fun v => 0 <= v < 1) z) by (apply Forall_forall; intros v Hv; apply repeat_spec in Hv; subst; lra).
  assert (HD : forall d, In d [d0; d1] -> length d = (n_obj - 1)%nat /\ Forall (fun v => 0 <= v < 1) d). { intros d [<-|[<-|[]]]; (split; [unfold d0, d1, z; cbn; rewrite repeat_length; lia|constructor; auto; lra]). }
  assert (HI : forall d, In d [d0; d1] -> In (pt d) (dtlz7_front n_obj [d0; d1])).
  { intros d Hd. apply in_map_iff. exists d. split; auto. apply filter_In. split; auto. destruct (HD d Hd) as [L B]. assert (B' : in_box (0, 1) d) by (unfold in_box; rewrite Forall_forall in *; intros v Hv; apply B in Hv; cbn; lra). pose proof (dtlz7_last_ge n_obj d ltac:(lia) L B'). destruct (Rle_dec _ _); tauto. }
  exists [d0; d1], (pt d0), (pt d1). split; auto. split; [apply HI; now left|]. split; [apply HI; right; now left|].
  assert (E : rsum (map (fun v => v * (1 + sin (3 * PI * v))) d0) = rsum (map (fun v => v * (1 + sin (3 * PI * v))) d1)).
  { unfold d0, d1, rsum. cbn [map fold_right]. replace (3 * PI * (1/2)) with (3 * (PI / 2)) by field. rewrite sin_3PI2. ring. }
  unfold pt. rewrite E. set (last := 2 * INR n_obj - _). unfold d0, d1. cbn [app]. split; [reflexivity|]. split.
  - intros [|i] Hi; cbn; [lra|]. lra.
  - exists 0%nat. cbn. split; [lia|lra].
Qed.

(** ** the wrappers *)
Lemma scale_row_length s f : length (scale_row s f) = length f.
Proof. unfold scale_row. now rewrite length_map2, map_length, seq_length, Nat.min_id. Qed.
Lemma scale_row_nth s f i : (i < length f)%nat -> nth i (scale_row s f) 0 = nth i f 0 * s^i.
Proof. intros H. unfold scale_row. rewrite nth_map2 with (da := 0) (db := 0); auto; [|rewrite map_length, seq_length; auto]. f_equal. rewrite nth_indep with (d' := s^0) by (rewrite map_length, seq_length; auto). rewrite (map_nth (fun i => s^i)), seq_nth; auto. Qed.
Lemma scale_dom s p q : 0 < s -> pareto_dom (scale_row s p) (scale_row s q) -> pareto_dom p q.
Proof.
  intros Hs (HL & H & j & Hj & HS). rewrite !scale_row_length in *. split; auto. split.
  - intros i Hi. specialize (H i Hi). rewrite !scale_row_nth in H by congruence. apply Rmult_le_reg_r with (s^i); auto. now apply pow_lt.
  - exists j. split; auto. rewrite !scale_row_nth in HS by congruence. apply Rmult_lt_reg_r with (s^j); auto. now apply pow_lt.
Qed.
Lemma front_ok_map (dom : list R -> Prop) F pf (h : list R -> list R) : (forall x p, dom x -> In p pf -> pareto_dom (h (F x)) (h p) -> pareto_dom (F x) p) -> front_ok dom F pf -> front_ok dom (fun x => h (F x)) (map h pf).
Proof.
  intros Hh H p Hp. apply in_map_iff in Hp as (q & <- & Hq). destruct (H q Hq) as [(x & Hx & E) HU]. split.
  - exists x. split; auto. now rewrite E.
  - intros y Hy HD. apply (HU y Hy). apply Hh; auto.
Qed.
(** C87: scaling by a positive factor keeps a correct front correct *)
Theorem C87_scaled : forall (dom : list R -> Prop) F pf s, 0 < s -> front_ok dom F pf -> front_ok dom (scaled s F) (scaled_front s pf).
Proof. intros dom F pf s Hs H. apply (front_ok_map dom F pf (scale_row s)); auto. intros. eapply scale_dom; eauto. Qed.
Lemma convex_row_length f : length (convex_row f) = length f.
Proof. unfold convex_row. now rewrite map_length, seq_length. Qed.
Lemma convex_row_nth f i : (i < length f)%nat -> nth i (convex_row f) 0 = if Nat.eqb (S i) (length f) then (nth i f 0)^2 else (nth i f 0)^4.
Proof.
  intros H. unfold convex_row. set (g := fun i : nat => _). rewrite nth_indep with (d' := g 0%nat) by (rewrite map_length, seq_length; auto). rewrite (map_nth g), seq_nth by auto. reflexivity.
Qed.
Lemma pow_le_inv n a b : 0 <= b -> (1 <= n)%nat -> a^n <= b^n -> a <= b.
Proof. intros Hb Hn H. apply Rnot_lt_le. intros HC. assert (b^n < a^n); [|lra]. destruct n as [|n]; [lia|]. clear H Hn. revert a b Hb HC. induction n as [|n IH]; intros a b Hb HC; [cbn; lra|]. specialize (IH a b Hb HC). cbn [pow] in *. assert (0 <= b * b^n) by (apply Rmult_le_pos; auto; now apply pow_le). assert (0 < a) by lra. nra. Qed.
Lemma pow_lt_inv n a b : 0 <= a -> 0 <= b -> a^n < b^n -> a < b.
Proof. intros Ha Hb H. apply Rnot_le_lt. intros HC. assert (b^n <= a^n) by (apply pow_incr; lra). lra. Qed.
(** C87: so does the convex transformation, if no objective value is negative *)
Theorem C87_convex : forall (dom : list R -> Prop) F pf, (forall x, dom x -> Forall (fun v => 0 <= v) (F x)) -> front_ok dom F pf -> front_ok dom (convex F) (convex_front pf).
Proof.
  intros dom F pf HN H. apply (front_ok_map dom F pf convex_row); auto. intros x p Hx Hp (HL & HD & j & Hj & HS). rewrite !convex_row_length in *.
  assert (Np : nonneg p) by (destruct (H p Hp) as [(y & Hy & <-) _]; apply HN; auto). assert (Nx : nonneg (F x)) by (apply HN; auto). split; auto. split.
  - intros i Hi. specialize (HD i Hi). rewrite !convex_row_nth in HD by congruence. rewrite HL in HD. destruct (Nat.eqb (S i) (length p)); eapply pow_le_inv; try exact HD; auto; try lia; now apply nonneg_nth.
  - exists j. split; auto. rewrite !convex_row_nth in HS by congruence. rewrite HL in HS. destruct (Nat.eqb (S j) (length p)); eapply pow_lt_inv; try exact HS; now apply nonneg_nth.
Qed.
(** in particular ScaledDTLZ1, ConvexDTLZ2 and ConvexDTLZ4 *)
Theorem C87_scaled_convex_dtlz : forall n_var n_obj, (1 <= n_obj)%nat -> (n_obj <= n_var + 1)%nat ->
  (forall s dirs, 0 < s -> (forall d, In d dirs -> on_simplex n_obj d) -> front_ok (box_dom n_var (0, 1)) (scaled s (dtlz1 n_var n_obj)) (scaled_front s (dtlz1_front dirs))) /\
  (forall dirs, (forall d, In d dirs -> direction n_obj d) -> front_ok (box_dom n_var (0, 1)) (convex (dtlz2 n_obj)) (convex_front (generic_sphere dirs))) /\
  (forall alpha dirs, (1 <= alpha)%nat -> (forall d, In d dirs -> direction n_obj d) -> front_ok (box_dom n_var (0, 1)) (convex (dtlz4 n_obj alpha)) (convex_front (generic_sphere dirs))).
Proof.
  intros n_var n_obj H1 H2. split; [|split].
  - intros s dirs Hs HD. apply C87_scaled; auto. now apply C87_dtlz1.
  - intros dirs HD. apply C87_convex; [|now apply C87_dtlz2]. intros x Hx. destruct (split_box n_var n_obj x H1 H2 Hx) as (D1 & D2 & _). apply (obj_func_spec n_obj 1 (x_dir n_obj x)); auto; [lia|apply g2_ge0].
  - intros alpha dirs Ha HD. apply C87_convex; [|now apply C87_dtlz4]. intros x Hx. destruct (split_box n_var n_obj x H1 H2 Hx) as (D1 & D2 & _). apply (obj_func_spec n_obj alpha (x_dir n_obj x)); auto; [lia|apply g2_ge0].
Qed.
(** C87: the inverted problem: the objective values of a row add up to (n_obj - 1) (1 + g) / 2, and none is negative *)
Theorem C87_inverted : forall n_var n_obj x, (1 <= n_obj)%nat -> (n_obj <= n_var + 1)%nat -> box_dom n_var (0, 1) x ->
  exists g, 0 <= g /\ rsum (inverted_dtlz1 n_var n_obj x) = (INR n_obj - 1) * (1 + g) / 2 /\ Forall (fun v => 0 <= v) (inverted_dtlz1 n_var n_obj x).
Proof.
  intros n_var n_obj x H1 H2 Hx. destruct (split_box n_var n_obj x H1 H2 Hx) as (D1 & D2 & D3 & D4). unfold inverted_dtlz1. exists (g1 (n_var + 1 - n_obj) (x_dist n_obj x)). pose proof (g1_ge0 (x_dist n_obj x)) as HG. rewrite D3 in HG.
  destruct (dtlz1_sum n_var n_obj x H1 H2 Hx) as (r & R1 & R2 & R3 & R4). assert (Er : r = 1/2 * (1 + g1 (n_var + 1 - n_obj) (x_dist n_obj x))). { rewrite <- R2. unfold dtlz1. replace n_obj with (S (length (x_dir n_obj x))) at 1 by lia. apply obj_rows_sum. }
  set (g := g1 _ _) in *. split; auto. set (f := dtlz1 n_var n_obj x) in *. split.
  - assert (E : forall l, rsum (map (fun v => 1/2 * (1 + g) - v) l) = INR (length l) * (1/2 * (1 + g)) - rsum l). { induction l as [|a l IH]; [cbn; ring|]. cbn [map length]. rewrite S_INR. unfold rsum in *. cbn [fold_right]. rewrite IH. ring. }
    rewrite E, R4, R2, Er. field.
  - apply Forall_forall. intros v Hv. apply in_map_iff in Hv as (w & <- & Hw). assert (Hle : w <= rsum f). { clear - Hw R3. induction R3 as [|a l Ha Hl IH]; [destruct Hw|]. unfold rsum in *. cbn [fold_right]. pose proof (nonneg_rsum l Hl) as HS. unfold rsum in HS. destruct Hw as [->|Hw]; [lra|]. specialize (IH Hw). lra. }
    rewrite R2, Er in Hle. lra.
Qed.
(** non-trivial instances *)
Example C87_meets : on_simplex 3 [1/2; 1/4; 1/4] /\ direction 3 [1; 0; 2] /\ (3 <= 7 + 1)%nat /\ dtlz1 4 3 [1; 1; 1/2; 1/2] = [1/2; 0; 0].
Proof.
  split; [split; auto; split; [repeat constructor; lra|unfold rsum; cbn; lra]|]. split; [split; auto; split; [repeat constructor; lra|exists 1; split; [now left|lra]]|]. split; [lia|].
  unfold dtlz1, x_dist, x_dir. cbn [Nat.sub Nat.add firstn skipn map]. change [1/2; 1/2] with (repeat (1/2) 2). rewrite g1_half. unfold obj_rows. cbn [length seq map firstn Nat.sub nth]. unfold rprod. cbn [fold_right]. f_equal; [lra|]. f_equal; [lra|]. f_equal. lra.
Qed.
