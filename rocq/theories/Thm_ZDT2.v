From Coq Require Import Reals List Lra Lia Psatz.
From Verif Require Import ListAux M_NSGA3R M_ZDT S_Bench Thm_Bench Thm_Bench2 Thm_ZDT.
Import ListNotations.
Local Open Scope R_scope.

(** Taylor polynomials of exp(-z) around 0 *)
Fixpoint tay (n : nat) (z : R) : R := match n with O => 1 | S m => tay m z + (- z)^(S m) / INR (fact (S m)) end.
Lemma tay_0 n : tay n 0 = 1.
Proof. induction n as [|n IH]; cbn [tay]; auto. rewrite IH, Ropp_0, pow_ne_zero by lia. unfold Rdiv. ring. Qed.
Lemma tay_deriv n z : derivable_pt_lim (tay (S n)) z (- tay n z).
Proof.
  induction n as [|n IH].
  - cbn [tay]. apply (derivable_pt_lim_ext (fun z => 1 - z)); [intros; cbn; field|]. replace (- (1)) with (0 - 1) by ring. apply derivable_pt_lim_minus; [apply derivable_pt_lim_const|apply derivable_pt_lim_id].
  - change (tay (S (S n))) with (fun z => tay (S n) z + (- z)^(S (S n)) / INR (fact (S (S n)))). replace (- tay (S n) z) with (- tay n z + - ((- z)^(S n) / INR (fact (S n)))) by (cbn [tay]; ring).
    apply derivable_pt_lim_plus; auto. assert (HF : INR (fact (S (S n))) = INR (S (S n)) * INR (fact (S n))) by (change (fact (S (S n))) with (S (S n) * fact (S n))%nat; apply mult_INR).
    assert (H1 : 0 < INR (fact (S n))) by (apply lt_0_INR; apply lt_O_fact). assert (H2 : 0 < INR (S (S n))) by (apply lt_0_INR; lia).
    apply (derivable_pt_lim_ext (fun z => / INR (fact (S (S n))) * (- z)^(S (S n)))); [intros; unfold Rdiv; ring|].
    replace (- ((- z)^(S n) / INR (fact (S n)))) with (/ INR (fact (S (S n))) * (INR (S (S n)) * (- z)^(pred (S (S n))) * -1)) by (cbn [pred]; rewrite HF; field; lra).
    apply derivable_pt_lim_scal with (f := fun z => (- z)^(S (S n))). apply (derivable_pt_lim_comp (fun z => - z) (fun y => y^(S (S n)))); [|apply derivable_pt_lim_pow].
    replace (-1) with (- (1)) by ring. apply derivable_pt_lim_opp. apply derivable_pt_lim_id.
Qed.
Lemma exp_opp_deriv z : derivable_pt_lim (fun z => exp (- z)) z (- exp (- z)).
Proof. replace (- exp (- z)) with (exp (- z) * - (1)) by ring. apply (derivable_pt_lim_comp (fun z => - z) exp); [apply derivable_pt_lim_opp; apply derivable_pt_lim_id|apply derivable_pt_lim_exp]. Qed.
(** a function with derivative >= 0 on [0, z] does not decrease *)
Lemma incr_from0 f f' z : 0 <= z -> (forall c, derivable_pt_lim f c (f' c)) -> (forall c, 0 <= c -> 0 <= f' c) -> f 0 <= f z.
Proof.
  intros Hz HD HP. destruct (Req_dec z 0) as [->|Hn]; [lra|]. destruct (MVT_cor2 f f' 0 z ltac:(lra)) as (c & E & Hc); [intros; apply HD|]. pose proof (HP c ltac:(lra)). nra.
Qed.
Lemma exp_tay k z : 0 <= z -> exp (- z) <= tay (2 * k) z /\ tay (2 * k + 1) z <= exp (- z).
Proof.
  assert (Hup : forall n, (forall z, 0 <= z -> exp (- z) <= tay n z) -> forall z, 0 <= z -> tay (S n) z <= exp (- z)).
  { intros n H y Hy. assert (HD : exp (- 0) - tay (S n) 0 <= exp (- y) - tay (S n) y); [|rewrite Ropp_0, exp_0, tay_0 in HD; lra].
    apply (incr_from0 (fun z => exp (- z) - tay (S n) z) (fun z => - exp (- z) - - tay n z)); auto; [intros c; apply derivable_pt_lim_minus; [apply exp_opp_deriv|apply tay_deriv]|intros c Hc; specialize (H c Hc); lra]. }
  assert (Hdn : forall n, (forall z, 0 <= z -> tay n z <= exp (- z)) -> forall z, 0 <= z -> exp (- z) <= tay (S n) z).
  { intros n H y Hy. assert (HD : tay (S n) 0 - exp (- 0) <= tay (S n) y - exp (- y)); [|rewrite Ropp_0, exp_0, tay_0 in HD; lra].
    apply (incr_from0 (fun z => tay (S n) z - exp (- z)) (fun z => - tay n z - - exp (- z))); auto; [intros c; apply derivable_pt_lim_minus; [apply tay_deriv|apply exp_opp_deriv]|intros c Hc; specialize (H c Hc); lra]. }
  assert (HA : forall k z, 0 <= z -> exp (- z) <= tay (2 * k) z).
  { clear k z. induction k as [|k IH]; intros z Hz; [cbn; rewrite <- exp_0; apply exp_le; lra|]. replace (2 * S k)%nat with (S (S (2 * k))) by lia. apply Hdn; auto. }
  intros Hz. split; auto. replace (2 * k + 1)%nat with (S (2 * k)) by lia. apply Hup; auto.
Qed.
(** the least value of the first objective is below the first reported point *)
Definition zdt6_arg : R := 1/12 - (35353/1000000) / (6 * PI).
Lemma zdt6_arg_box : 0 <= zdt6_arg <= 1.
Proof.
  unfold zdt6_arg. pose proof PI_lb as P. assert (0 <= (35353/1000000) / (6 * PI) <= 1/12); [|lra]. split; [apply Rmult_le_pos; [lra|left; apply Rinv_0_lt_compat; lra]|].
  apply Rmult_le_reg_r with (6 * PI); [lra|]. unfold Rdiv. rewrite Rmult_assoc, Rinv_l by lra. lra.
Qed.
Lemma pow_le_pos n a b : 0 <= a <= b -> a^n <= b^n.
Proof. intros H. now apply pow_incr. Qed.
Lemma tay9 z : tay 9 z = 1 - z + z^2/2 - z^3/6 + z^4/24 - z^5/120 + z^6/720 - z^7/5040 + z^8/40320 - z^9/362880.
Proof.
  assert (HS : forall n, INR (fact (S n)) = (INR n + 1) * INR (fact n)) by (intros n; change (fact (S n)) with (S n * fact n)%nat; rewrite mult_INR, S_INR; ring).
  cbn [tay]. rewrite !HS. cbn [fact]. rewrite !S_INR. cbn [INR]. field.
Qed.
Lemma zdt6_low : zdt6_f1 zdt6_arg <= 2807753191/10000000000.
Proof.
  unfold zdt6_f1. pose proof PI_ub as PU. pose proof PI_lb as PL. set (b := 35353/1000000). assert (Hb : b = 35353/1000000) by reflexivity.
  assert (ES : sin (6 * PI * zdt6_arg) = cos b). { unfold zdt6_arg. fold b. rewrite <- (Rtrigo1.sin_shift b). f_equal. field. lra. }
  rewrite ES. pose proof (cos_lb6 b ltac:(lra)) as HC. set (c0 := 1 - b^2/2 + b^4/24 - b^6/720) in HC.
  assert (Hc0 : 999375147779/1000000000000 <= c0) by (unfold c0; rewrite Hb; lra).
  assert (H6 : (999375147779/1000000000000)^6 <= (cos b)^6) by (apply pow_le_pos; lra).
  assert (HZ : exp (- (1/3 - 2 * b / (3 * (31415926537/10000000000)))) <= exp (-4 * zdt6_arg)).
  { apply exp_le. unfold zdt6_arg. fold b. replace (-4 * (1/12 - b / (6 * PI))) with (- (1/3 - 2 * b / (3 * PI))) by (field; lra). apply Ropp_le_contravar. apply Rplus_le_compat_l. apply Ropp_le_contravar.
    apply Rmult_le_compat_l; [lra|]. apply Rinv_le_contravar; lra. }
  assert (Hz : 1/3 - 2 * b / (3 * (31415926537/10000000000)) <= (325831193730/1000000000000)) by (rewrite Hb; lra).
  assert (HZ2 : exp (- (325831193730/1000000000000)) <= exp (-4 * zdt6_arg)) by (eapply Rle_trans; [|exact HZ]; apply exp_le; lra).
  destruct (exp_tay 4 (325831193730/1000000000000) ltac:(lra)) as [_ HT]. change (2 * 4 + 1)%nat with 9%nat in HT. rewrite tay9 in HT.
  assert (HX : 721927042954/1000000000000 <= exp (-4 * zdt6_arg)) by (eapply Rle_trans; [|exact HZ2]; eapply Rle_trans; [|exact HT]; lra).
  assert (HV : 7192246809/10000000000 <= exp (-4 * zdt6_arg) * cos b ^ 6).
  { apply Rle_trans with (721927042954/1000000000000 * (999375147779/1000000000000)^6); [lra|]. apply Rmult_le_compat; try lra. }
  lra.
Qed.
Lemma zdt6_cont : continuity zdt6_f1.
Proof.
  unfold zdt6_f1. apply derivable_continuous. reg.
Qed.
Lemma zdt6_reach t : 2807753191/10000000000 <= t <= 1 -> exists x, 0 <= x <= 1 /\ zdt6_f1 x = t.
Proof.
  intros Ht. pose proof zdt6_low as HL. pose proof zdt6_arg_box as HB.
  destruct (IVT_cor (fun x => zdt6_f1 x - t) 0 zdt6_arg) as (x & Hx & E).
  - apply continuity_minus; [apply zdt6_cont|apply continuity_const; intros ? ?; reflexivity].
  - lra.
  - assert (E0 : zdt6_f1 0 = 1) by (unfold zdt6_f1; rewrite !Rmult_0_r, sin_0, pow_ne_zero by lia; ring). rewrite E0. nra.
  - exists x. split; lra.
Qed.
Lemma zdt6_range t : 0 <= t -> 0 <= zdt6_f1 t <= 1.
Proof.
  intros Ht. unfold zdt6_f1. set (s := sin _). assert (Hs : s * s <= 1) by (pose proof (SIN_bound (6 * PI * t)) as HSB; fold s in HSB; nra). assert (Hs0 : 0 <= s * s) by nra.
  replace (s^6) with ((s * s)^3) by ring. assert (H3 : 0 <= (s * s)^3 <= 1) by (split; [now apply pow_le|rewrite <- (pow1 3); now apply pow_incr]).
  assert (HE : 0 < exp (-4 * t) <= 1) by (split; [apply exp_pos|rewrite <- exp_0; apply exp_le; lra]). nra.
Qed.
Lemma zdt6_spec n x : (2 <= n)%nat -> box_dom n (0, 1) x -> exists f1 f2, zdt6 n x = [f1; f2] /\ 0 <= f1 <= 1 /\ 1 - f1^2 <= f2.
Proof.
  intros Hn [HL HB]. unfold zdt6. eexists _, _. split; [reflexivity|]. pose proof (hd_box x n ltac:(lia) HL HB). pose proof (zdt6_range (hd0 x) ltac:(lra)). split; auto. apply square_curve; auto. pose proof (sqrt_pos (sqrt (rsum (tl x) / (INR n - 1)))). lra.
Qed.
(** C86: ZDT6: the first reported abscissa lies less than 3e-10 above the least value of the first objective, hence is attained *)
Theorem C86_zdt6 : forall n n_points, (2 <= n)%nat ->
  front_ok (box_dom n (0, 1)) (zdt6 n) (zdt6_front n_points) /\
  forall x, box_dom n (0, 1) x -> exists t, 0 <= t <= 1 /\ attained (box_dom n (0, 1)) (zdt6 n) [t; 1 - t^2] /\ weakly_dom [t; 1 - t^2] (zdt6 n x).
Proof.
  intros n np Hn. pose proof (n1_pos n Hn) as HN.
  assert (HA : forall y, 0 <= y <= 1 -> attained (box_dom n (0, 1)) (zdt6 n) [zdt6_f1 y; 1 - (zdt6_f1 y)^2]).
  { intros y Hy. destruct (point0_dom n y ltac:(lia) Hy) as (D1 & D2 & D3). exists (point0 n y). split; auto. unfold zdt6. rewrite D2, D3. replace (0 / (INR n - 1)) with 0 by (field; lra). rewrite !sqrt_0. f_equal. f_equal. field. }
  split.
  - intros p Hp. apply in_map_iff in Hp as (t & <- & Ht). apply linspace_in in Ht; [|lra]. split.
    + destruct (zdt6_reach t Ht) as (y & Hy & <-). auto.
    + apply (unbeaten_curve _ _ (fun t => 1 - t^2)); [intros; now apply zdt6_spec|intros; now apply square_decr|lra].
  - intros x Hx. pose proof (zdt6_spec n x Hn Hx) as (f1 & f2 & E & H1 & H2). exists f1. split; auto. destruct Hx as [HL HB]. split.
    + replace f1 with (zdt6_f1 (hd0 x)) by (unfold zdt6 in E; now injection E). apply HA. apply (hd_box x n); auto; lia.
    + rewrite E. split; auto. intros [|[|i]] Hi; cbn [nth]; try lra; cbn in Hi; lia.
Qed.

(** ** ZDT5 *)
Definition zdt5_dom (m n : nat) : list R -> Prop := box_dom (zdt5_n_var m n) (0, 1).
Lemma rsum_repeat v k : rsum (repeat v k) = INR k * v.
Proof. induction k as [|k IH]; [cbn; ring|]. rewrite S_INR. unfold rsum in *. cbn [repeat fold_right]. rewrite IH. ring. Qed.
Lemma rsum_box l : in_box (0, 1) l -> 0 <= rsum l <= INR (length l).
Proof. intros H. induction H as [|v l Hv Hl IH]; [cbn; lra|]. unfold rsum in *. cbn [fold_right length]. rewrite S_INR. cbn in Hv. lra. Qed.
Lemma in_box_firstn b l k : in_box b l -> in_box b (firstn k l).
Proof. unfold in_box. rewrite !Forall_forall. intros H v Hv. apply H. rewrite <- (firstn_skipn k l). apply in_or_app. auto. Qed.
Lemma in_box_skipn b l k : in_box b l -> in_box b (skipn k l).
Proof. unfold in_box. rewrite !Forall_forall. intros H v Hv. apply H. rewrite <- (firstn_skipn k l). apply in_or_app. auto. Qed.
Lemma rsum_ge_n l c : (forall v, In v l -> c <= v) -> INR (length l) * c <= rsum l.
Proof. intros H. induction l as [|v l IH]; [cbn; lra|]. unfold rsum in *. cbn [fold_right length]. rewrite S_INR. pose proof (H v (or_introl eq_refl)). assert (INR (length l) * c <= fold_right Rplus 0 l) by (apply IH; intros; apply H; now right). lra. Qed.
Lemma zdt5_raw m n x : (1 <= m)%nat -> zdt5_dom m n x -> exists f1 f2, zdt5 false m n x = [f1; f2] /\ 1 <= f1 <= 31 /\ (INR m - 1) / f1 <= f2.
Proof.
  intros Hm [HL HB]. unfold zdt5. cbn [zdt5_u tl hd0 nth]. unfold hd0. cbn [nth]. eexists _, _. split; [reflexivity|]. unfold zdt5_n_var in HL.
  assert (Hu : 0 <= rsum (firstn 30 x) <= 30). { pose proof (rsum_box (firstn 30 x) (in_box_firstn _ _ _ HB)) as HS. rewrite firstn_length in HS. rewrite (Nat.min_l 30 (length x)) in HS by (rewrite HL; apply Nat.le_add_r). replace (INR 30) with 30 in HS by (cbn; lra). auto. }
  split; [lra|]. set (us := map _ (seq 0 (m - 1))). assert (HG : INR (length (map (zdt5_v n) us)) * 1 <= rsum (map (zdt5_v n) us)).
  { apply rsum_ge_n. intros v Hv. apply in_map_iff in Hv as (u & <- & Hu'). unfold us in Hu'. apply in_map_iff in Hu' as (i & <- & Hi). apply in_seq in Hi.
    set (s := rsum _). assert (Hs : 0 <= s <= INR n). { assert (HS : 0 <= s <= INR (length (firstn n (skipn (30 + i * n) x)))) by (apply rsum_box, in_box_firstn, in_box_skipn, HB). rewrite firstn_length in HS.
      assert (INR (Nat.min n (length (skipn (30 + i * n) x))) <= INR n) by (apply le_INR; lia). lra. }
    unfold zdt5_v. destruct (Rlt_dec s (INR n)); destruct (Req_EM_T s (INR n)); lra. }
  rewrite map_length in HG. unfold us in HG at 1. rewrite map_length, seq_length, minus_INR in HG by lia. cbn [INR] in HG. rewrite Rmult_1_r in HG.
  unfold Rdiv. rewrite Rmult_1_l. apply Rmult_le_compat_r; [left; apply Rinv_0_lt_compat; lra|auto].
Qed.
Definition zdt5_point (m n : nat) (t : R) : list R := repeat t 30 ++ repeat 1 (n * (m - 1)).
Lemma firstn_repeat {A} (v : A) k n : (k <= n)%nat -> firstn k (repeat v n) = repeat v k.
Proof. revert n. induction k as [|k IH]; intros [|n] H; cbn; auto; [lia|]. f_equal. apply IH. lia. Qed.
Lemma skipn_repeat {A} (v : A) k n : skipn k (repeat v n) = repeat v (n - k).
Proof. revert n. induction k as [|k IH]; intros [|n]; cbn; auto. Qed.
Lemma map_const_seq (v : R) k : forall a, map (fun _ : nat => v) (seq a k) = repeat v k.
Proof. induction k as [|k IH]; intros a; [reflexivity|]. cbn [repeat seq map]. f_equal. apply IH. Qed.
Lemma zdt5_at m n t : (1 <= m)%nat -> 0 <= t <= 1 -> zdt5_dom m n (zdt5_point m n t) /\ zdt5 false m n (zdt5_point m n t) = [1 + t * 30; (INR m - 1) / (1 + t * 30)].
Proof.
  intros Hm Ht. unfold zdt5_point. split.
  - split; [rewrite app_length, !repeat_length; unfold zdt5_n_var; lia|]. apply Forall_app. split; apply Forall_forall; intros v Hv; apply repeat_spec in Hv; subst v; cbn; lra.
  - unfold zdt5, zdt5_u. unfold hd0. cbn [nth tl]. set (tlr := repeat 1 _). assert (E0 : rsum (firstn 30 (repeat t 30 ++ tlr)) = 30 * t).
    { rewrite firstn_app, repeat_length, Nat.sub_diag, firstn_O, app_nil_r, firstn_repeat, rsum_repeat by lia. replace (INR 30) with 30 by (cbn; lra). ring. }
    rewrite E0. assert (E1 : rsum (map (zdt5_v n) (map (fun i => rsum (firstn n (skipn (30 + i * n) (repeat t 30 ++ tlr)))) (seq 0 (m - 1)))) = INR m - 1).
    { rewrite map_map. rewrite (map_ext_in _ (fun _ => 1)).
      - replace (map (fun _ => 1) (seq 0 (m - 1))) with (repeat 1 (m - 1)); [rewrite rsum_repeat, minus_INR by lia; cbn [INR]; ring|]. symmetry. apply map_const_seq.
      - intros i Hi. apply in_seq in Hi. rewrite skipn_app, repeat_length. rewrite skipn_all2 by (rewrite repeat_length; lia). cbn [app]. replace (30 + i * n - 30)%nat with (i * n)%nat by lia. unfold tlr. rewrite skipn_repeat, firstn_repeat by nia. rewrite rsum_repeat.
        unfold zdt5_v. destruct (Rlt_dec _ _); destruct (Req_EM_T _ _); lra. }
    rewrite E1. f_equal; [ring|]. f_equal. replace (1 + 30 * t) with (1 + t * 30) by ring. unfold Rdiv. ring.
Qed.
Lemma hyper_decr a s t : 0 < a -> 0 < s -> s < t -> a / t < a / s.
Proof. intros Ha Hs Ht. apply Rmult_lt_compat_l; auto. apply Rinv_lt_contravar; auto. nra. Qed.
Lemma zdt5_unbeaten m n t : (2 <= m)%nat -> 1 <= t <= 31 -> unbeaten (zdt5_dom m n) (zdt5 false m n) [t; (INR m - 1) / t].
Proof.
  intros Hm Ht x Hx HD. destruct (zdt5_raw m n x ltac:(lia) Hx) as (f1 & f2 & E & H1 & H2). rewrite E in HD. apply dom2 in HD as (D1 & D2 & D3). pose proof (n1_pos m Hm) as HM. destruct (Rle_lt_or_eq_dec _ _ D1) as [D|D].
  - pose proof (hyper_decr (INR m - 1) f1 t HM ltac:(lra) D). lra.
  - subst f1. destruct D3; lra.
Qed.
Lemma normal_le a b c d : c < d -> normal a c d <= normal b c d <-> a <= b.
Proof.
  intros H. unfold normal. assert (0 < / (d - c)) by (apply Rinv_0_lt_compat; lra). split; intros HH.
  - apply (Rmult_le_reg_r (/ (d - c))) in HH; auto. lra.
  - apply Rmult_le_compat_r; lra.
Qed.
Lemma normal_lt a b c d : c < d -> normal a c d < normal b c d <-> a < b.
Proof. intros H. pose proof (normal_le b a c d H) as HI. split; intros HH; apply Rnot_le_lt; intros HC; apply HI in HC; lra. Qed.
Lemma zdt5_norm_eq m n x : exists f1 f2, zdt5 false m n x = [f1; f2] /\ zdt5 true m n x = [normal f1 1 31; normal f2 ((INR m - 1) * 1 / 31) (INR m - 1)].
Proof. eexists _, _. split; reflexivity. Qed.
Lemma lmin_is l v : In v l -> (forall w, In w l -> v <= w) -> lmin l = v.
Proof.
  intros Hv Hm. unfold lmin. assert (HG : forall k d, (d = v \/ In v k) -> v <= d -> (forall w, In w k -> v <= w) -> fold_right Rmin d k = v).
  { induction k as [|a k IH]; intros d H1 H2 H3; cbn; [destruct H1 as [|[]]; auto|]. assert (Ha : v <= a) by (apply H3; now left). assert (HF : v <= fold_right Rmin d k).
    { clear H1 IH. induction k as [|b k IHk]; cbn; auto. apply Rmin_glb; [apply H3; right; now left|apply IHk]. intros w Hw. apply H3. destruct Hw; [left|right; right]; auto. }
    destruct H1 as [H1|[H1|H1]]; [rewrite IH by (auto; intros; apply H3; now right)|subst a|rewrite IH by (auto; intros; apply H3; now right)]; [apply Rmin_right; auto|apply Rmin_left; auto|apply Rmin_right; auto]. }
  apply HG; auto. destruct l as [|a l]; [destruct Hv|apply Hm; now left].
Qed.
Lemma lmax_is l v : In v l -> (forall w, In w l -> w <= v) -> lmax l = v.
Proof.
  intros Hv Hm. unfold lmax. assert (HG : forall k d, (d = v \/ In v k) -> d <= v -> (forall w, In w k -> w <= v) -> fold_right Rmax d k = v).
  { induction k as [|a k IH]; intros d H1 H2 H3; cbn; [destruct H1 as [|[]]; auto|]. assert (Ha : a <= v) by (apply H3; now left). assert (HF : fold_right Rmax d k <= v).
    { clear H1 IH. induction k as [|b k IHk]; cbn; auto. apply Rmax_lub; [apply H3; right; now left|apply IHk]. intros w Hw. apply H3. destruct Hw; [left|right; right]; auto. }
    destruct H1 as [H1|[H1|H1]]; [rewrite IH by (auto; intros; apply H3; now right)|subst a|rewrite IH by (auto; intros; apply H3; now right)]; [apply Rmax_right; auto|apply Rmax_left; auto|apply Rmax_right; auto]. }
  apply HG; auto. destruct l as [|a l]; [destruct Hv|apply Hm; now left].
Qed.
Lemma linspace_ends a b n : (2 <= n)%nat -> In a (linspace a b n) /\ In b (linspace a b n).
Proof.
  intros Hn. destruct n as [|[|n]]; try lia. cbn [linspace]. set (k := S (S n)). split; apply in_map_iff.
  - exists 0%nat. split; [cbn; ring|]. apply in_seq. lia.
  - exists (k - 1)%nat. split; [|apply in_seq; unfold k; lia]. assert (INR (k - 1) <> 0) by (apply not_0_INR; unfold k; lia). field. auto.
Qed.
(** C86: ZDT5, for variables between 0 and 1 as the class declares them *)
Theorem C86_zdt5 : forall norm m n n_points, (2 <= m)%nat -> (2 <= n_points)%nat ->
  front_ok (zdt5_dom m n) (zdt5 norm m n) (zdt5_front norm m n_points).
Proof.
  intros norm m n np Hm Hp p HI. pose proof (n1_pos m Hm) as HM. unfold zdt5_front in HI. set (xs := map _ (linspace 0 1 np)) in HI. set (ys := map (fun x => (INR m - 1) / x) xs) in HI.
  assert (Hxs : forall v, In v xs -> 1 <= v <= 31 /\ exists t, 0 <= t <= 1 /\ v = 1 + t * 30). { intros v Hv. apply in_map_iff in Hv as (t & <- & Ht). apply linspace_in in Ht; [|lra]. split; [lra|exists t; auto]. }
  destruct (linspace_ends 0 1 np Hp) as [L0 L1]. assert (X0 : In 1 xs) by (apply in_map_iff; exists 0; split; [ring|auto]). assert (X1 : In 31 xs) by (apply in_map_iff; exists 1; split; [ring|auto]).
  assert (Hanti : forall v w, 1 <= v -> v <= w -> (INR m - 1) / w <= (INR m - 1) / v) by (intros v w H1 H2; apply Rmult_le_compat_l; [lra|apply Rinv_le_contravar; lra]).
  destruct norm.
  - assert (E1 : lmin xs = 1) by (apply lmin_is; auto; intros w Hw; apply Hxs in Hw; lra). assert (E2 : lmax xs = 31) by (apply lmax_is; auto; intros w Hw; apply Hxs in Hw; lra).
    assert (E3 : lmin ys = (INR m - 1) * 1 / 31). { rewrite Rmult_1_r. apply lmin_is; [apply in_map_iff; exists 31; auto|]. intros w Hw. apply in_map_iff in Hw as (v & <- & Hv). apply Hxs in Hv. apply Hanti; lra. }
    assert (E4 : lmax ys = INR m - 1). { apply lmax_is; [apply in_map_iff; exists 1; split; auto; field|]. intros w Hw. apply in_map_iff in Hw as (v & <- & Hv). apply Hxs in Hv. apply Rle_trans with ((INR m - 1) / 1); [apply Hanti; lra|right; field]. }
    rewrite E1, E2, E3, E4 in HI. apply in_map_iff in HI as (v & <- & Hv). destruct (Hxs v Hv) as (Hv' & t & Ht & Ev). split.
    + destruct (zdt5_at m n t ltac:(lia) Ht) as [D1 D2]. exists (zdt5_point m n t). split; auto. destruct (zdt5_norm_eq m n (zdt5_point m n t)) as (f1 & f2 & F1 & F2). rewrite F2. rewrite D2, <- Ev in F1. now injection F1 as <- <-.
    + intros x Hx HD. apply (zdt5_unbeaten m n v Hm Hv' x Hx). destruct (zdt5_norm_eq m n x) as (f1 & f2 & F1 & F2). rewrite F2 in HD. rewrite F1. apply dom2 in HD. apply dom2. rewrite !normal_le, !normal_lt in HD by lra. auto.
  - apply in_map_iff in HI as (v & <- & Hv). destruct (Hxs v Hv) as (Hv' & t & Ht & Ev). split; [|now apply zdt5_unbeaten]. destruct (zdt5_at m n t ltac:(lia) Ht) as [D1 D2]. exists (zdt5_point m n t). split; auto. now rewrite D2, <- Ev.
Qed.
(** but for the bit strings ZDT5 is defined on, the reported front contains points that no bit string attains *)
Definition bits (m n : nat) (x : list R) : Prop := length x = zdt5_n_var m n /\ Forall (fun v => v = 0 \/ v = 1) x.
Theorem C86_zdt5_bits_refuted : forall m n, (1 <= m)%nat -> exists p, In p (zdt5_front false m 100) /\ ~ attained (bits m n) (zdt5 false m n) p.
Proof.
  intros m n Hm. exists [1 + 1/99 * 30; (INR m - 1) / (1 + 1/99 * 30)]. split.
  - unfold zdt5_front. apply in_map_iff. exists (1 + 1/99 * 30). split; auto. apply in_map_iff. exists (1/99). split; auto. cbn [linspace]. apply in_map_iff. exists 1%nat. split; [|apply in_seq; lia]. replace (INR (100 - 1)) with 99 by (cbn; lra). cbn [INR]. field.
  - intros (x & [HL HB] & E). unfold zdt5, zdt5_u, hd0 in E. cbn [nth tl] in E. apply (f_equal (hd 0)) in E. cbn [hd] in E.
    assert (HI : exists k : nat, rsum (firstn 30 x) = INR k).
    { assert (HB' : Forall (fun v => v = 0 \/ v = 1) (firstn 30 x)) by (rewrite Forall_forall in *; intros v Hv; apply HB; rewrite <- (firstn_skipn 30 x); apply in_or_app; auto). clear - HB'. induction HB' as [|v l Hv Hl (k & IH)]; [exists 0%nat; reflexivity|].
      unfold rsum in *. cbn [fold_right]. destruct Hv as [->| ->]; [exists k|exists (S k)]; rewrite IH; [ring|rewrite S_INR; ring]. }
    destruct HI as (k & Hk). rewrite Hk in E. assert (EE : INR k * 33 = 10) by lra. replace 33 with (INR 33) in EE by (cbn; lra). replace 10 with (INR 10) in EE by (cbn; lra). rewrite <- mult_INR in EE. apply INR_eq in EE. lia.
Qed.
(** non-trivial instances *)
Example C86_meets : box_dom 3 (0, 1) [1/4; 0; 0] /\ zdt1 3 [1/4; 0; 0] = [1/4; 1/2] /\ In [0; 1] (zdt1_front 5) /\ pareto_dom (zdt1 3 [1/4; 0; 0]) (zdt1 3 [1/4; 1; 1]).
Proof.
  assert (S4 : sqrt (1/4) = 1/2) by (replace (1/4) with ((1/2) * (1/2)) by field; apply sqrt_square; lra).
  assert (E1 : zdt1 3 [1/4; 0; 0] = [1/4; 1/2]). { unfold zdt1, hd0, rsum. cbn [nth tl fold_right]. f_equal. f_equal. replace (1 + 9 / (INR 3 - 1) * (0 + (0 + 0))) with 1 by (cbn; field). replace (1 / 4 / 1) with (1/4) by field. rewrite S4. field. }
  split; [split; auto; unfold in_box; repeat constructor; cbn; lra|]. split; auto. split.
  - unfold zdt1_front. cbn [linspace]. apply in_map_iff. exists 0. split; [rewrite sqrt_0; f_equal; f_equal; ring|]. apply in_map_iff. exists 0%nat. split; [cbn; ring|apply in_seq; lia].
  - rewrite E1. unfold zdt1, hd0, rsum. cbn [nth tl fold_right]. apply dom2. replace (1 + 9 / (INR 3 - 1) * (1 + (1 + 0))) with 10 by (cbn; field). assert (Hs : sqrt (1 / 4 / 10) <= sqrt (1/4)) by (apply sqrt_le_1; lra). rewrite S4 in Hs. lra.
Qed.
