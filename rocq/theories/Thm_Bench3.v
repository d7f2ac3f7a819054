From Coq Require Import Reals List Lra Lia Psatz.
From Verif Require Import ListAux M_NSGA3R M_Bench M_ZDT M_DTLZ M_Bench2 S_Bench Thm_Bench Thm_Bench2 Thm_ZDT Thm_ZDT2 Thm_ZDT3 Thm_DTLZ.
Import ListNotations.
Local Open Scope R_scope.

(** no entry of G is positive *)
Definition satisfied (g : list R) : Prop := Forall (fun v => v <= 0) g.
(** ** BNH *)
Lemma bnh_unbeaten t : 0 <= t <= 5 -> unbeaten bnh_dom bnh (bnh [t; if Rle_dec 3 t then 3 else t]).
Proof.
  intros Ht x (HL & Hx & Hy) HD. unfold bnh in HD. unfold at_ in *. cbn [nth] in HD. set (a := nth 0 x 0) in *. set (b := nth 1 x 0) in *. set (s := if Rle_dec 3 t then 3 else t) in *. apply dom2 in HD as (D1 & D2 & D3).
  assert (HK : (5 - t) * (4 * a^2 + 4 * b^2) + 4 * t * ((a - 5)^2 + (b - 5)^2) - ((5 - t) * (4 * t^2 + 4 * s^2) + 4 * t * ((t - 5)^2 + (s - 5)^2)) = 20 * (a - t)^2 + 20 * (b - s)^2 + 40 * (b - s) * (s - t)) by ring.
  assert (Hlin : 0 <= (b - s) * (s - t)) by (unfold s; destruct (Rle_dec 3 t); nra).
  assert (HLe : (5 - t) * (4 * a^2 + 4 * b^2) + 4 * t * ((a - 5)^2 + (b - 5)^2) <= (5 - t) * (4 * t^2 + 4 * s^2) + 4 * t * ((t - 5)^2 + (s - 5)^2)) by (apply Rplus_le_compat; apply Rmult_le_compat_l; lra).
  pose proof (sq_ge0 (a - t)). pose proof (sq_ge0 (b - s)). assert (E1 : (a - t)^2 = 0) by lra. assert (E2 : (b - s)^2 = 0) by lra. assert (a = t) by nra. assert (b = s) by nra. rewrite H1, H2 in *. lra.
Qed.
Theorem C88_bnh : forall n_points,
  (forall x, In x (bnh_set n_points) -> bnh_dom x /\ satisfied (bnh_g x)) /\ bnh_front n_points = map bnh (bnh_set n_points) /\ front_ok bnh_dom bnh (bnh_front n_points).
Proof.
  intros n. assert (HS : forall x, In x (bnh_set n) -> exists t, 0 <= t <= 5 /\ x = [t; if Rle_dec 3 t then 3 else t]).
  { intros x Hx. apply in_map_iff in Hx as (t & <- & Ht). apply linspace_in in Ht; [|lra]. exists t. auto. }
  assert (HD : forall x, In x (bnh_set n) -> bnh_dom x). { intros x Hx. destruct (HS x Hx) as (t & Ht & ->). split; auto. unfold at_. cbn [nth]. destruct (Rle_dec 3 t); lra. }
  split; [|split; auto].
  - intros x Hx. split; auto. destruct (HS x Hx) as (t & Ht & ->). unfold bnh_g, at_. cbn [nth]. constructor; [|constructor; [|constructor]]; destruct (Rle_dec 3 t); nra.
  - intros p Hp. apply in_map_iff in Hp as (x & <- & Hx). split; [exists x; auto|]. destruct (HS x Hx) as (t & Ht & ->). now apply bnh_unbeaten.
Qed.
(** ** SRN *)
Lemma srn_unbeaten t : unbeaten (fun _ => True) srn (srn [-5/2; t]).
Proof.
  intros x _ HD. unfold srn, at_ in HD. cbn [nth] in HD. set (a := nth 0 x 0) in *. set (b := nth 1 x 0) in *. apply dom2 in HD as (D1 & D2 & D3). pose proof (sq_ge0 (a + 5/2)). nra.
Qed.
Theorem C88_srn : forall n_points,
  (forall x, In x (srn_set n_points) -> box_dom 2 (-20, 20) x /\ at_ 0 (srn_g x) <= 2/100000 /\ at_ 1 (srn_g x) <= 0) /\
  front_ok (box_dom 2 (-20, 20)) srn (srn_front n_points) /\ forall p, In p (srn_front n_points) -> unbeaten (fun _ => True) srn p.
Proof.
  intros n. assert (HS : forall x, In x (srn_set n) -> exists t, 5/2 <= t <= 147902/10000 /\ x = [-5/2; t]).
  { intros x Hx. apply in_map_iff in Hx as (t & <- & Ht). apply linspace_in in Ht; [|lra]. exists t. auto. }
  assert (HB : forall x, In x (srn_set n) -> box_dom 2 (-20, 20) x). { intros x Hx. destruct (HS x Hx) as (t & Ht & ->). split; auto. repeat constructor; cbn; lra. }
  assert (HU : forall p, In p (srn_front n) -> unbeaten (fun _ => True) srn p). { intros p Hp. apply in_map_iff in Hp as (x & <- & Hx). destruct (HS x Hx) as (t & Ht & ->). apply srn_unbeaten. }
  split; [|split; auto].
  - intros x Hx. split; auto. destruct (HS x Hx) as (t & Ht & ->). unfold srn_g, at_. cbn [nth]. split; [|lra]. assert (t^2 <= (147902/10000)^2) by (apply pow_incr; lra). lra.
  - intros p Hp. split; [apply in_map_iff in Hp as (x & <- & Hx); exists x; auto|]. intros x _ HD. exact (HU p Hp x Logic.I HD).
Qed.
(** the last reported solution of SRN violates the first constraint (by less than 2e-5) *)
Theorem C88_srn_refuted : forall n_points, (2 <= n_points)%nat -> exists x, In x (srn_set n_points) /\ 0 < at_ 0 (srn_g x).
Proof.
  intros n Hn. exists [-5/2; 147902/10000]. split; [|unfold srn_g, at_; cbn [nth]; lra]. apply in_map_iff. exists (147902/10000). split; auto. now apply linspace_last.
Qed.
(** ** SYM-PART *)
Lemma ceil_spec v k : IZR k - 1 < v <= IZR k -> ceil v = IZR k.
Proof.
  intros H. unfold ceil. destruct (base_Int_part (- v)) as [B1 B2]. rewrite <- opp_IZR. f_equal.
  assert (H1 : (k - 1 < - Int_part (- v))%Z) by (apply lt_IZR; rewrite minus_IZR, opp_IZR; lra). assert (H2 : (- Int_part (- v) < k + 1)%Z) by (apply lt_IZR; rewrite plus_IZR, opp_IZR; lra). lia.
Qed.
Lemma sgn_pos v : 0 < v -> sgn v = 1.
Proof. intros. unfold sgn. destruct (Rlt_dec v 0); [lra|]. destruct (Rlt_dec 0 v); lra. Qed.
Lemma sgn_neg v : v < 0 -> sgn v = -1.
Proof. intros. unfold sgn. destruct (Rlt_dec v 0); lra. Qed.
Lemma tile_1 : tile 1 = 1.
Proof. unfold tile. rewrite sgn_pos, Rabs_pos_eq, Rmin_left by lra. ring. Qed.
Lemma tile_m1 : tile (-1) = -1.
Proof. unfold tile. rewrite sgn_neg by lra. rewrite Rabs_left, Rmin_left by lra. ring. Qed.
Lemma tile_0 : tile 0 = 0.
Proof. unfold tile, sgn. destruct (Rlt_dec 0 0); [lra|]. ring. Qed.
Lemma unit_ratio u v : 0 < v -> 0 < u <= v -> 0 < u / v <= 1.
Proof. intros Hv Hu. split; [apply Rdiv_lt_0_compat; lra|]. apply Rmult_le_reg_r with v; auto. unfold Rdiv. rewrite Rmult_assoc, Rinv_l by lra. lra. Qed.
Lemma neg_ratio u v : 0 < v -> - v < u <= 0 -> -1 < u / v <= 0.
Proof.
  intros Hv Hu. assert (E : u / v * v = u) by (field; lra). split; [apply Rmult_lt_reg_r with v; lra|apply Rmult_le_reg_r with v; lra].
Qed.
Lemma tile1 a c row s : 0 <= a -> 4 * a < c -> In row [-1; 0; 1] -> - a <= s <= a -> tile (sgn (row * c + s) * ceil ((Rabs (row * c + s) - a - c / 2) / (2 * a + c))) = row.
Proof.
  intros Ha Hc Hr Hs. destruct Hr as [<-|[<-|[<-|[]]]].
  - assert (Hn : -1 * c + s < 0) by lra. rewrite sgn_neg, Rabs_left by lra. rewrite (ceil_spec _ 1); [replace (-1 * 1) with (-1) by ring; apply tile_m1|]. pose proof (unit_ratio (- (-1 * c + s) - a - c / 2) (2 * a + c) ltac:(lra) ltac:(lra)). lra.
  - rewrite (ceil_spec _ 0); [rewrite Rmult_0_r; apply tile_0|]. assert (HA : Rabs (0 * c + s) <= a) by (apply Rabs_le; lra). pose proof (Rabs_pos (0 * c + s)). pose proof (neg_ratio (Rabs (0 * c + s) - a - c / 2) (2 * a + c) ltac:(lra) ltac:(lra)). lra.
  - assert (Hn : 0 < 1 * c + s) by lra. rewrite sgn_pos, Rabs_pos_eq by lra. rewrite (ceil_spec _ 1); [rewrite Rmult_1_l; apply tile_1|]. pose proof (unit_ratio (1 * c + s - a - c / 2) (2 * a + c) ltac:(lra) ltac:(lra)). lra.
Qed.
Lemma tile2 b col : 0 < b -> In col [1; 0; -1] -> tile (sgn (col * b) * ceil ((Rabs (col * b) - b / 2) / b)) = col.
Proof.
  intros Hb Hr. destruct Hr as [<-|[<-|[<-|[]]]].
  - rewrite sgn_pos, Rabs_pos_eq by lra. rewrite (ceil_spec _ 1); [rewrite Rmult_1_l; apply tile_1|]. pose proof (unit_ratio (1 * b - b / 2) b ltac:(lra) ltac:(lra)). lra.
  - rewrite Rmult_0_l, Rabs_R0. rewrite (ceil_spec _ 0); [rewrite Rmult_0_r; apply tile_0|]. pose proof (neg_ratio (0 - b / 2) b ltac:(lra) ltac:(lra)). lra.
  - rewrite sgn_neg, Rabs_left by lra. rewrite (ceil_spec _ 1); [replace (-1 * 1) with (-1) by ring; apply tile_m1|]. pose proof (unit_ratio (- (-1 * b) - b / 2) b ltac:(lra) ltac:(lra)). lra.
Qed.
Lemma unrotate_rotate w u v : unrotate w (rotate2 w [u; v]) = (u, v).
Proof.
  unfold unrotate, rotate2, at_. destruct (Req_EM_T w 0); cbn [nth]; [reflexivity|]. pose proof (sin2_cos2 w) as HS. unfold Rsqr in HS.
  assert (E1 : cos w * (cos w * u + - sin w * v) + sin w * (sin w * u + cos w * v) = u) by (replace u with ((sin w * sin w + cos w * cos w) * u) at 3 by (rewrite HS; ring); ring).
  assert (E2 : - sin w * (cos w * u + - sin w * v) + cos w * (sin w * u + cos w * v) = v) by (replace v with ((sin w * sin w + cos w * cos w) * v) at 3 by (rewrite HS; ring); ring).
  now rewrite E1, E2.
Qed.
Lemma hyp_ge u v : 0 <= v -> u <= sqrt (u^2 + v) /\ - u <= sqrt (u^2 + v).
Proof.
  intros Hv. assert (HS : Rabs u <= sqrt (u^2 + v)). { apply Rsqr_incr_0_var; [|apply sqrt_pos]. rewrite Rsqr_sqrt by (pose proof (sq_ge0 u); lra). rewrite <- Rsqr_abs. unfold Rsqr. nra. }
  pose proof (Rle_abs u). pose proof (Rle_abs (- u)) as HR. rewrite Rabs_Ropp in HR. split; lra.
Qed.
(** sqrt f1 + sqrt f2 >= 2 a for every solution *)
Lemma sympart_low a b c w x : exists f1 f2, sympart a b c w x = [f1; f2] /\ 0 <= f1 /\ 0 <= f2 /\ 2 * a <= sqrt f1 + sqrt f2.
Proof.
  unfold sympart. cbv zeta. set (p1 := fst (unrotate w x) - _). set (p2 := snd (unrotate w x) - _). eexists _, _. split; [reflexivity|]. pose proof (sq_ge0 p2) as H2. pose proof (sq_ge0 (p1 + a)). pose proof (sq_ge0 (p1 - a)). split; [lra|]. split; [lra|].
  destruct (hyp_ge (p1 + a) (p2^2) H2) as (A1 & A2). destruct (hyp_ge (p1 - a) (p2^2) H2) as (B1 & B2). lra.
Qed.
Lemma sympart_at a b c w row col s : 0 <= a -> 0 < b -> 4 * a < c -> In row [-1; 0; 1] -> In col [1; 0; -1] -> - a <= s <= a -> sympart a b c w (rotate2 w [row * c + s; col * b]) = [(s + a)^2; (s - a)^2].
Proof.
  intros Ha Hb Hc Hr Hcol Hs. unfold sympart. rewrite unrotate_rotate. cbn [fst snd]. rewrite tile1, tile2 by auto. f_equal; [|f_equal]; ring.
Qed.
Lemma sqrt_sq_abs v : 0 <= v -> sqrt (v^2) = v.
Proof. intros. replace (v^2) with (v * v) by ring. now apply sqrt_square. Qed.
Theorem C88_sympart : forall a b c w n_points, 0 <= a -> 0 < b -> 4 * a < c ->
  (forall x, In x (sympart_set a b c w n_points) -> box_dom 2 (sympart_box b c) x) /\
  front_ok (box_dom 2 (sympart_box b c)) (sympart a b c w) (map (sympart a b c w) (sympart_set a b c w n_points)).
Proof.
  intros a b c w n Ha Hb Hc.
  assert (HS : forall x, In x (sympart_set a b c w n) -> exists row col s, In row [-1; 0; 1] /\ In col [1; 0; -1] /\ - a <= s <= a /\ x = rotate2 w [row * c + s; col * b]).
  { intros x Hx. apply in_map_iff in Hx as (y & <- & Hy). apply in_flat_map in Hy as (row & Hrow & Hy). apply in_flat_map in Hy as (col & Hcol & Hy). apply in_map_iff in Hy as (t & <- & Ht). apply linspace_in in Ht; [|lra]. exists row, col, (t - row * c). split; auto. split; auto. split; [lra|]. do 2 f_equal. ring. }
  assert (HB : forall x, In x (sympart_set a b c w n) -> box_dom 2 (sympart_box b c) x).
  { intros x Hx. destruct (HS x Hx) as (row & col & s & Hr & Hcl & Hs & ->). set (u := row * c + s). set (v := col * b).
    pose proof (Rmax_l b c) as M1. pose proof (Rmax_r b c) as M2. set (r := Rmax b c) in *. assert (Hrow : -1 <= row <= 1) by (destruct Hr as [<-|[<-|[<-|[]]]]; lra). assert (Hco : -1 <= col <= 1) by (destruct Hcl as [<-|[<-|[<-|[]]]]; lra).
    assert (Hu : -2 * r <= u <= 2 * r) by (unfold u; nra). assert (Hv : - r <= v <= r) by (unfold v; nra). assert (0 < r) by lra.
    unfold rotate2, at_, sympart_box. fold r. cbn [nth]. destruct (Req_EM_T w 0); (split; [reflexivity|]).
    - constructor; [cbn; lra|constructor; [cbn; lra|constructor]].
    - pose proof (COS_bound w). pose proof (SIN_bound w). constructor; [cbn; nra|constructor; [cbn; nra|constructor]]. }
  split; auto. intros p Hp. apply in_map_iff in Hp as (x & <- & Hx). split; [exists x; auto|]. intros y _ HD. destruct (HS x Hx) as (row & col & s & Hr & Hcl & Hs & ->). rewrite sympart_at in HD by auto.
  destruct (sympart_low a b c w y) as (f1 & f2 & E & H1 & H2 & H3). rewrite E in HD. apply dom2 in HD as (D1 & D2 & D3).
  assert (S1 : sqrt f1 <= s + a) by (rewrite <- (sqrt_sq_abs (s + a)) by lra; apply sqrt_le_1; auto; apply sq_ge0). assert (E2 : sqrt ((s - a)^2) = a - s) by (replace ((s - a)^2) with ((a - s)^2) by ring; apply sqrt_sq_abs; lra). assert (S2 : sqrt f2 <= a - s) by (rewrite <- E2; apply sqrt_le_1; auto; apply sq_ge0).
  destruct D3 as [D|D].
  - apply sqrt_lt_1 in D; auto; [|apply sq_ge0]. rewrite sqrt_sq_abs in D by lra. lra.
  - apply sqrt_lt_1 in D; auto; [|apply sq_ge0]. rewrite E2 in D. lra.
Qed.
(** when the tiles are too close to each other (h_dist <= 4 length) the reported set contains dominated solutions *)
Theorem C88_sympart_refuted : exists a b c w x y, 0 < a /\ 0 < b /\ 0 < c /\ In x (sympart_set a b c w 18) /\ In y (sympart_set a b c w 18) /\ pareto_dom (sympart a b c w y) (sympart a b c w x).
Proof.
  exists 1, 10, 4, 0, [3; 0], [1; 0]. split; [lra|]. split; [lra|]. split; [lra|].
  assert (HR : forall l, rotate2 0 l = l) by (intros; unfold rotate2; destruct (Req_EM_T 0 0); [auto|lra]).
  split; [|split].
  - apply in_map_iff. exists [3; 0]. split; auto. apply in_flat_map. exists 1. split; [right; right; now left|]. apply in_flat_map. exists 0. split; [right; now left|]. apply in_map_iff. exists 3. split; [f_equal; f_equal; ring|]. replace 3 with (1 * 4 - 1) at 1 by ring. apply linspace_first. cbn. lia.
  - apply in_map_iff. exists [1; 0]. split; auto. apply in_flat_map. exists 0. split; [right; now left|]. apply in_flat_map. exists 0. split; [right; now left|]. apply in_map_iff. exists 1. split; [f_equal; f_equal; ring|]. replace 1 with (0 * 4 + 1) at 1 by ring. apply linspace_last. cbn. lia.
  - unfold sympart, unrotate, at_. destruct (Req_EM_T 0 0) as [_|]; [|lra]. cbn [nth fst snd].
    assert (C1 : ceil ((Rabs 3 - 1 - 4 / 2) / (2 * 1 + 4)) = IZR 0) by (rewrite Rabs_pos_eq by lra; apply ceil_spec; lra). assert (C2 : ceil ((Rabs 1 - 1 - 4 / 2) / (2 * 1 + 4)) = IZR 0) by (rewrite Rabs_pos_eq by lra; apply ceil_spec; lra). assert (C3 : ceil ((Rabs 0 - 10 / 2) / 10) = IZR 0) by (rewrite Rabs_R0; apply ceil_spec; lra).
    rewrite C1, C2, C3, !Rmult_0_r, tile_0. apply dom2. lra.
Qed.
(** ** Omni-test *)
Lemma omni_norm x : exists f1 f2, omni x = [f1; f2] /\ f1^2 + f2^2 <= (INR (length x))^2.
Proof.
  unfold omni. eexists _, _. split; [reflexivity|]. induction x as [|v x IH]; [cbn; lra|]. cbn [map length]. rewrite S_INR. unfold rsum in *. cbn [fold_right]. set (s := fold_right Rplus 0 (map (fun v => sin (PI * v)) x)) in *. set (t := fold_right Rplus 0 (map (fun v => cos (PI * v)) x)) in *.
  pose proof (sin2_cos2 (PI * v)) as HS. unfold Rsqr in HS. set (a := sin (PI * v)) in *. set (b := cos (PI * v)) in *. set (n := INR (length x)) in *. assert (Hn : 0 <= n) by apply pos_INR.
  assert (HC : (a * s + b * t)^2 <= n^2). { assert (E : (a * s + b * t)^2 + (a * t - b * s)^2 = (a * a + b * b) * (s^2 + t^2)) by ring. rewrite HS in E. pose proof (sq_ge0 (a * t - b * s)). lra. }
  assert (HC2 : a * s + b * t <= n). { destruct (Rle_lt_dec (a * s + b * t) n) as [|HH]; auto. nra. } nra.
Qed.
Lemma combos_spec n c : In c (combos n) -> length c = n /\ Forall (fun m => (m < 3)%nat) c.
Proof.
  revert c. induction n as [|n IH]; intros c H; cbn [combos] in H; [destruct H as [<-|[]]; split; [auto|constructor]|]. apply in_flat_map in H as (d & Hd & H). apply IH in Hd as [L F]. apply in_map_iff in H as (i & <- & Hi). split; [cbn; lia|]. constructor; auto. destruct Hi as [<-|[<-|[<-|[]]]]; lia.
Qed.
Lemma linspace_nth a b n i : (i < n)%nat -> nth i (linspace a b n) 0 = a + INR i * ((b - a) / INR (n - 1)).
Proof.
  intros H. destruct n as [|[|n]]; [lia| |].
  - assert (i = 0%nat) by lia. subst i. cbn. ring.
  - cbn [linspace]. set (f := fun i : nat => _). rewrite nth_indep with (d' := f 0%nat) by (rewrite map_length, seq_length; auto). rewrite map_nth, seq_nth by auto. reflexivity.
Qed.
Lemma sin_shift_odd m u : sin (PI * (2 * INR m + 1 + u)) = - sin (PI * u).
Proof. replace (PI * (2 * INR m + 1 + u)) with (PI * u + PI + 2 * INR m * PI) by ring. rewrite sin_period, neg_sin. reflexivity. Qed.
Lemma cos_shift_odd m u : cos (PI * (2 * INR m + 1 + u)) = - cos (PI * u).
Proof. replace (PI * (2 * INR m + 1 + u)) with (PI * u + PI + 2 * INR m * PI) by ring. rewrite cos_period, neg_cos. reflexivity. Qed.
Lemma omni_set_spec n np x : In x (omni_set n np) -> exists c u, length c = n /\ Forall (fun m => (m < 3)%nat) c /\ 0 <= u <= 1/2 /\ x = map (fun m => 2 * INR m + 1 + u) c.
Proof.
  intros H. unfold omni_set in H. set (h := (np / 3 ^ n)%nat) in H. apply in_flat_map in H as (c & Hc & H). apply in_map_iff in H as (j & <- & Hj). apply in_seq in Hj. apply combos_spec in Hc as [L F]. exists c, (INR j * ((1/2) / INR (h - 1))). split; auto. split; auto. split.
  - destruct (Nat.eq_dec (h - 1) 0) as [E|E]; [assert (j = 0%nat) by lia; subst j; cbn [INR]; rewrite Rmult_0_l; lra|]. assert (HN : 0 < INR (h - 1)) by (apply lt_0_INR; lia). assert (Hj' : 0 <= INR j <= INR (h - 1)) by (split; [apply pos_INR|apply le_INR; lia]).
    replace (INR j * (1/2 / INR (h - 1))) with (INR j / INR (h - 1) * (1/2)) by (field; lra). assert (0 <= INR j / INR (h - 1) <= 1); [|lra]. split; [apply Rmult_le_pos; [lra|left; now apply Rinv_0_lt_compat]|]. apply Rmult_le_reg_r with (INR (h - 1)); auto. unfold Rdiv. rewrite Rmult_assoc, Rinv_l by lra. lra.
  - apply map_ext_in. intros m Hm. rewrite Forall_forall in F. apply F in Hm. rewrite (nth_indep _ [] ((fun m => linspace (2 * INR m + 1) (2 * INR m + 3/2) h) 0%nat)) by (rewrite map_length, seq_length; auto). rewrite (map_nth (fun m => linspace (2 * INR m + 1) (2 * INR m + 3/2) h)), seq_nth by auto. cbn [Nat.add].
    rewrite linspace_nth by lia. replace (2 * INR m + 3 / 2 - (2 * INR m + 1)) with (1/2) by field. reflexivity.
Qed.
Theorem C88_omnitest : forall n n_points,
  (forall x, In x (omni_set n n_points) -> box_dom n (0, 6) x) /\ front_ok (box_dom n (0, 6)) omni (map omni (omni_set n n_points)).
Proof.
  intros n np. assert (HB : forall x, In x (omni_set n np) -> box_dom n (0, 6) x).
  { intros x Hx. destruct (omni_set_spec n np x Hx) as (c & u & L & F & Hu & ->). split; [now rewrite map_length|]. apply Forall_forall. intros v Hv. apply in_map_iff in Hv as (m & <- & Hm). rewrite Forall_forall in F. apply F in Hm. cbn. assert (Hm3 : 0 <= INR m <= 2). { split; [apply pos_INR|]. replace 2 with (INR 2) by (cbn; ring). apply le_INR. lia. } lra. }
  split; auto. intros p Hp. apply in_map_iff in Hp as (x & <- & Hx). split; [exists x; auto|]. intros y [HLy _] HD. destruct (omni_set_spec n np x Hx) as (c & u & L & F & Hu & ->). destruct (omni_norm y) as (f1 & f2 & E & HN). rewrite E, HLy in *.
  assert (EO : omni (map (fun m => 2 * INR m + 1 + u) c) = [- (INR n * sin (PI * u)); - (INR n * cos (PI * u))]).
  { unfold omni. rewrite !map_map. rewrite (map_ext _ (fun _ => - sin (PI * u))) by (intros; apply sin_shift_odd). rewrite (map_ext (fun m => cos _) (fun _ => - cos (PI * u))) by (intros; apply cos_shift_odd).
    assert (R : forall v, rsum (map (fun _ : nat => v) c) = INR n * v). { intros v. rewrite <- L. clear. induction c as [|a c IH]; [cbn; ring|]. cbn [map length]. rewrite S_INR. unfold rsum in *. cbn [fold_right]. rewrite IH. ring. }
    rewrite !R. f_equal; [|f_equal]; ring. }
  rewrite EO in HD. apply dom2 in HD as (D1 & D2 & D3). pose proof PI_RGT_0 as HP. assert (S0 : 0 <= sin (PI * u)) by (apply sin_ge_0; nra). assert (C0 : 0 <= cos (PI * u)) by (apply cos_ge_0; nra). pose proof (sin2_cos2 (PI * u)) as HS. unfold Rsqr in HS.
  assert (Hn : 0 <= INR n) by apply pos_INR. set (a := INR n * sin (PI * u)) in *. set (b := INR n * cos (PI * u)) in *. assert (HA : a^2 + b^2 = (INR n)^2) by (unfold a, b; replace ((INR n)^2) with ((INR n)^2 * (sin (PI * u) * sin (PI * u) + cos (PI * u) * cos (PI * u))) by (rewrite HS; ring); ring).
  assert (Ha : 0 <= a) by (unfold a; apply Rmult_le_pos; auto). assert (Hb : 0 <= b) by (unfold b; apply Rmult_le_pos; auto). destruct D3; nra.
Qed.
(** ** two engineering problems whose reported optima are not consistent *)
(** CantileveredBeam: the reported point violates the first constraint *)
Theorem C88_beam_refuted : let '(b1, h1, b2, H) := beam_set in 0 < beam_g1 b1 h1 b2 H < 3/1000000 /\ beam_g2 b1 h1 b2 H <= 0 /\ Rabs (beam_f b1 h1 b2 H - beam_front) < 1/1000.
Proof.
  unfold beam_set, beam_g1, beam_g2, beam_f, beam_front. set (J := beam_I _ _ _ _). assert (HJ : J = 25199937738/1000000000 + (J - 25199937738/1000000000)) by ring. assert (HJ2 : 2519993/100000 < J < 2519994/100000) by (unfold J, beam_I; lra).
  assert (E1 : 1000 * 36 * 7 / (2 * J) * J = 126000) by (field; lra). assert (E2 : 1000 * 36^3 / (3 * 10000000 * J) * J = 46656 / 30000) by (field; lra). set (q1 := 1000 * 36 * 7 / (2 * J)) in *. set (q2 := 1000 * 36^3 / (3 * 10000000 * J)) in *.
  split; [|split].
  - split; [assert (5000 < q1); [nra|lra]|assert (q1 < 5000 + 14/1000); [nra|lra]].
  - assert (q2 < 1/10); [nra|lra].
  - apply Rabs_def1; lra.
Qed.
(** PressureVessel: the reported point has a value above 6059, violates a constraint, and is not optimal: a feasible point within the bounds has a value below 5886; the reported value is 5885.3 *)
Theorem C88_vessel_refuted : let '(x1, x2, r, L) := vessel_set in
  6059 < vessel_f x1 x2 r L /\ vessel_front = 58853/10 /\ 0 < at_ 0 (vessel_g x1 x2 r L) /\
  exists y1 y2 s M, 1 <= y1 <= 99 /\ 1 <= y2 <= 99 /\ 10 <= s <= 200 /\ 10 <= M <= 200 /\ satisfied (vessel_g y1 y2 s M) /\ vessel_f y1 y2 s M < 5886.
Proof.
  unfold vessel_set. split; [unfold vessel_f; lra|]. split; [reflexivity|]. split; [unfold vessel_g, at_; cbn [nth]; lra|].
  exists (12450816/1000000), (61544448/10000000), (4032/100), 200. split; [lra|]. split; [lra|]. split; [lra|]. split; [lra|]. split; [|unfold vessel_f; lra]. unfold vessel_g. cbv zeta. pose proof PI_lb. repeat constructor; lra.
Qed.
