From Coq Require Import Reals List Lra Lia Psatz.
From Verif Require Import ListAux M_NSGA3R M_Bench M_ZDT M_DTLZ M_Bench2 S_Bench Thm_Bench Thm_Bench2 Thm_ZDT Thm_ZDT2 Thm_DTLZ Thm_Bench3.
Import ListNotations.
Local Open Scope R_scope.

(** ** the distance functions of the MW problems *)
Definition dist_sum (term : R * R -> R) (n_obj : nat) (x : list R) : R := rsum (map term (numbered_from (n_obj - 1) (x_dist n_obj x))).
Lemma dist_ge0 term n_obj x : (forall iv, 0 <= term iv) -> 0 <= dist_sum term n_obj x.
Proof. intros H. apply rsum_ge0. intros v Hv. apply in_map_iff in Hv as (iv & <- & _). apply H. Qed.
Lemma zero_dist term len : forall k, (forall i, (k <= i < k + len)%nat -> exists y, 0 <= y <= 1 /\ term (INR i, y) = 0) -> exists ys, length ys = len /\ in_box (0, 1) ys /\ rsum (map term (numbered_from k ys)) = 0.
Proof.
  induction len as [|len IH]; intros k H; [exists []; split; auto; split; [constructor|reflexivity]|]. destruct (H k ltac:(lia)) as (y & Hy & E). destruct (IH (S k)) as (ys & L & B & ES); [intros i Hi; apply H; lia|].
  exists (y :: ys). split; [cbn; lia|]. split; [constructor; auto|]. unfold numbered_from in *. cbn [length seq map combine]. unfold rsum in *. cbn [fold_right]. rewrite E, ES. ring.
Qed.
Lemma join_box2 n_var n_obj xs ys : (1 <= n_obj)%nat -> (n_obj <= n_var + 1)%nat -> length xs = (n_obj - 1)%nat -> in_box (0, 1) xs -> length ys = (n_var + 1 - n_obj)%nat -> in_box (0, 1) ys ->
  box_dom n_var (0, 1) (xs ++ ys) /\ x_dir n_obj (xs ++ ys) = xs /\ x_dist n_obj (xs ++ ys) = ys.
Proof.
  intros H1 H2 HL HB HL2 HB2. split; [split|].
  - rewrite app_length. lia.
  - apply Forall_app. split; auto.
  - unfold x_dir, x_dist. rewrite <- HL, firstn_app, skipn_app, Nat.sub_diag, firstn_O, app_nil_r, firstn_all, skipn_all. auto.
Qed.
Definition term1 (n_var n_obj : nat) (iv : R * R) : R := let z := snd iv ^ (n_var - n_obj) in 1 - exp (-10 * (z - 1/2 - fst iv / (2 * INR n_var)) * (z - 1/2 - fst iv / (2 * INR n_var))).
Definition term2 (n_var : nat) (iv : R * R) : R := let z := 1 - exp (-10 * (snd iv - fst iv / INR n_var) * (snd iv - fst iv / INR n_var)) in 1/10 / INR n_var * z * z + 3/2 - 3/2 * cos (2 * PI * z).
Lemma term1_ge0 n_var n_obj iv : 0 <= term1 n_var n_obj iv.
Proof. unfold term1. cbv zeta. set (u := _ - _ - _). assert (exp (-10 * u * u) <= 1) by (rewrite <- exp_0; apply exp_le; nra). lra. Qed.
Lemma term2_ge0 n_var iv : (1 <= n_var)%nat -> 0 <= term2 n_var iv.
Proof.
  intros Hn. unfold term2. cbv zeta. set (z := 1 - _). assert (HN : 0 < INR n_var) by (apply lt_0_INR; lia). assert (0 <= 1/10 / INR n_var) by (apply Rmult_le_pos; [lra|left; now apply Rinv_0_lt_compat]). pose proof (COS_bound (2 * PI * z)). assert (0 <= z * z) by apply Rle_0_sqr. assert (0 <= 1/10 / INR n_var * z * z) by (rewrite Rmult_assoc; apply Rmult_le_pos; auto). lra.
Qed.
Lemma frac_box i d : (1 <= d)%nat -> (i <= d)%nat -> 0 <= INR i / INR d <= 1.
Proof. intros Hd Hi. assert (HN : 0 < INR d) by (apply lt_0_INR; lia). apply le_INR in Hi. split; [apply Rmult_le_pos; [apply pos_INR|left; now apply Rinv_0_lt_compat]|]. apply Rmult_le_reg_r with (INR d); auto. unfold Rdiv. rewrite Rmult_assoc, Rinv_l by lra. lra. Qed.
Lemma term1_zero n_var n_obj i : (n_obj < n_var)%nat -> (i < n_var)%nat -> exists y, 0 <= y <= 1 /\ term1 n_var n_obj (INR i, y) = 0.
Proof.
  intros H1 H2. pose proof (frac_box i n_var ltac:(lia) ltac:(lia)) as HF. assert (HN : 0 < INR n_var) by (apply lt_0_INR; lia). destruct (root_exists (n_var - n_obj) (1/2 + INR i / INR n_var / 2)) as (y & Hy & E); [lia|lra|]. exists y. split; auto. unfold term1. cbn [fst snd]. rewrite E.
  replace (1/2 + INR i / INR n_var / 2 - 1/2 - INR i / (2 * INR n_var)) with 0 by (field; lra). rewrite !Rmult_0_r, exp_0. ring.
Qed.
Lemma term2_zero n_var i : (1 <= n_var)%nat -> (i < n_var)%nat -> exists y, 0 <= y <= 1 /\ term2 n_var (INR i, y) = 0.
Proof.
  intros H1 H2. exists (INR i / INR n_var). split; [apply frac_box; lia|]. unfold term2. cbn [fst snd]. rewrite Rminus_eq_0, !Rmult_0_r, exp_0, Rminus_eq_0, !Rmult_0_r, cos_0. lra.
Qed.
Lemma mw_g1_spec n_var n_obj x : mw_g1 n_var n_obj x = 1 + dist_sum (term1 n_var n_obj) n_obj x.
Proof. reflexivity. Qed.
Lemma mw_g2_spec n_var n_obj x : mw_g2 n_var n_obj x = 1 + dist_sum (term2 n_var) n_obj x.
Proof. reflexivity. Qed.
(** given directions xs there is a solution of distance 1 *)
Lemma mw_reach1 n_var n_obj xs : (1 <= n_obj)%nat -> (n_obj < n_var)%nat -> length xs = (n_obj - 1)%nat -> in_box (0, 1) xs -> exists x, box_dom n_var (0, 1) x /\ x_dir n_obj x = xs /\ mw_g1 n_var n_obj x = 1.
Proof.
  intros H1 H2 HL HB. destruct (zero_dist (term1 n_var n_obj) (n_var + 1 - n_obj) (n_obj - 1)) as (ys & L & B & E); [intros i Hi; apply term1_zero; lia|]. destruct (join_box2 n_var n_obj xs ys) as (J1 & J2 & J3); auto; [lia|]. exists (xs ++ ys). split; auto. split; auto. rewrite mw_g1_spec. unfold dist_sum. rewrite J3, E. ring.
Qed.
Lemma mw_reach2 n_var n_obj xs : (1 <= n_obj)%nat -> (n_obj <= n_var)%nat -> length xs = (n_obj - 1)%nat -> in_box (0, 1) xs -> exists x, box_dom n_var (0, 1) x /\ x_dir n_obj x = xs /\ mw_g2 n_var n_obj x = 1.
Proof.
  intros H1 H2 HL HB. destruct (zero_dist (term2 n_var) (n_var + 1 - n_obj) (n_obj - 1)) as (ys & L & B & E); [intros i Hi; apply term2_zero; lia|]. destruct (join_box2 n_var n_obj xs ys) as (J1 & J2 & J3); auto; [lia|]. exists (xs ++ ys). split; auto. split; auto. rewrite mw_g2_spec. unfold dist_sum. rewrite J3, E. ring.
Qed.
Lemma at_dir x : (1 <= length x)%nat -> at_ 0 x = at_ 0 (x_dir 2 x).
Proof. destruct x; cbn; [lia|reflexivity]. Qed.
(** the solutions within the bounds that satisfy a constraint on the objective values *)
Definition feasible (n_var : nat) (F : list R -> list R) (G : list R -> R) (x : list R) : Prop := box_dom n_var (0, 1) x /\ G (F x) <= 0.
(** C88: MW1 and MW2, for every list of first objective values in [0, 1] (in particular the default one) *)
Theorem C88_mw1 : forall n_var f0s, (3 <= n_var)%nat -> (forall t, In t f0s -> 0 <= t <= 1) -> front_ok (feasible n_var (mw1 n_var) mw1_g) (mw1 n_var) (mw1_front f0s).
Proof.
  intros n_var f0s Hn Hf p Hp. apply filter_In in Hp as [Hp HC]. apply in_map_iff in Hp as (t & <- & Ht). apply Hf in Ht. destruct (Rle_dec _ _) as [HR|]; [|discriminate]. unfold at_ in HR. cbn [nth] in HR. split.
  - destruct (mw_reach1 n_var 2 [t]) as (x & X1 & X2 & X3); try lia; auto; [constructor; [cbn; lra|constructor]|]. assert (EX : mw1 n_var x = [t; 1 - 85/100 * t]). { unfold mw1. rewrite X3. rewrite at_dir by (destruct X1; lia). rewrite X2. unfold at_. cbn [nth]. f_equal. f_equal. field. }
    exists x. split; auto. split; auto. rewrite EX. unfold mw1_g, LA1, at_. cbn [nth]. lra.
  - intros x [[HL HB] _] HD. unfold mw1 in HD. pose proof (dist_ge0 (term1 n_var 2) 2 x (term1_ge0 n_var 2)) as HG. rewrite mw_g1_spec in HD. set (g := 1 + _) in HD. assert (Hg : 1 <= g) by (unfold g; lra). apply dom2 in HD as (D1 & D2 & D3). replace (g * (1 - 85/100 * at_ 0 x / g)) with (g - 85/100 * at_ 0 x) in * by (field; lra). lra.
Qed.
Theorem C88_mw2 : forall n_var f0s, (2 <= n_var)%nat -> (forall t, In t f0s -> 0 <= t <= 1) -> front_ok (feasible n_var (mw2 n_var) mw2_g) (mw2 n_var) (mw2_front f0s).
Proof.
  intros n_var f0s Hn Hf p Hp. apply in_map_iff in Hp as (t & <- & Ht). apply Hf in Ht. split.
  - destruct (mw_reach2 n_var 2 [t]) as (x & X1 & X2 & X3); try lia; auto; [constructor; [cbn; lra|constructor]|]. assert (EX : mw2 n_var x = [t; 1 - t]). { unfold mw2. rewrite X3. rewrite at_dir by (destruct X1; lia). rewrite X2. unfold at_. cbn [nth]. f_equal. f_equal. field. }
    exists x. split; auto. split; auto. rewrite EX. unfold mw2_g, LA1, at_. cbn [nth]. set (s := sin _). replace (s^8) with ((s^4)^2) by ring. pose proof (sq_ge0 (s^4)). lra.
  - intros x [[HL HB] _] HD. unfold mw2 in HD. pose proof (dist_ge0 (term2 n_var) 2 x (fun iv => term2_ge0 n_var iv ltac:(lia))) as HG. rewrite mw_g2_spec in HD. set (g := 1 + _) in HD. assert (Hg : 1 <= g) by (unfold g; lra). apply dom2 in HD as (D1 & D2 & D3). replace (g * (1 - at_ 0 x / g)) with (g - at_ 0 x) in * by (field; lra). lra.
Qed.
Lemma obj_rows_sum' s : forall r, rsum (obj_rows (S (length s)) r (map (fun v => 1 - v) s) s) = r.
Proof.
  induction s as [|a s IH]; intros r; cbn [map length]; [rewrite obj_rows_nil; apply rsum1|]. rewrite <- (map_length (fun v => 1 - v) s) at 1. rewrite obj_rows_cons, map_length, rsum_app, rsum1, IH. ring.
Qed.
(** C88: MW4: no reference direction on the unit simplex is filtered out *)
Theorem C88_mw4 : forall n_var n_obj dirs, (1 <= n_obj)%nat -> (n_obj < n_var)%nat -> (forall d, In d dirs -> on_simplex n_obj d) ->
  mw4_front dirs = dirs /\ front_ok (feasible n_var (mw4 n_var n_obj) mw4_g) (mw4 n_var n_obj) (mw4_front dirs).
Proof.
  intros n_var n_obj dirs H1 H2 HD. assert (HE : forall u, 0 <= u^8) by (intros u; replace (u^8) with ((u^4)^2) by ring; apply sq_ge0). assert (E : mw4_front dirs = dirs).
  { unfold mw4_front. induction dirs as [|d dirs IH]; [reflexivity|]. cbn [filter]. destruct (HD d (or_introl eq_refl)) as (_ & _ & S1). set (l := last d 0 - _). pose proof (HE (sin (5/2 * PI * l))). destruct (Rle_dec _ _) as [_|HN]; [|exfalso; apply HN; lra]. f_equal. apply IH. intros; apply HD; now right. }
  split; auto. rewrite E. intros d Hd. apply HD in Hd as (L & N & S1). split.
  - destruct (simplex_reach (n_obj - 1) d) as (xs & X1 & X2 & X3); [lia|auto|]. set (ys := map (fun v => 1 - v) xs). assert (HY : in_box (0, 1) ys). { unfold in_box in *. rewrite Forall_forall in *. intros v Hv. apply in_map_iff in Hv as (w & <- & Hw). apply X2 in Hw. cbn in *. lra. }
    destruct (mw_reach1 n_var n_obj ys) as (x & Y1 & Y2 & Y3); auto; [unfold ys; now rewrite map_length|]. assert (EX : mw4 n_var n_obj x = d).
    { unfold mw4. rewrite Y2, Y3. replace (map (fun v => 1 - v) ys) with xs by (unfold ys; rewrite map_map; rewrite <- (map_id xs) at 1; apply map_ext; intros; ring). rewrite S1 in X3. rewrite <- X3. f_equal; [lia]. }
    exists x. split; auto. split; auto. rewrite EX. unfold mw4_g, LA1. rewrite S1. pose proof (HE (sin (5/2 * PI * (last d 0 - rsum (removelast d))))). lra.
  - apply unbeaten_sum. intros x [Hx _]. rewrite S1. unfold mw4. destruct (split_box n_var n_obj x H1 ltac:(lia) Hx) as (D1 & _). pose proof (dist_ge0 (term1 n_var n_obj) n_obj x (term1_ge0 n_var n_obj)) as HG. rewrite mw_g1_spec. set (xs := x_dir n_obj x) in *. replace n_obj with (S (length xs)) at 1 by lia. rewrite obj_rows_sum'. lra.
Qed.
(** C88: MW8: the directions that survive the filter give a correct front *)
Theorem C88_mw8 : forall n_var n_obj dirs, (1 <= n_obj)%nat -> (n_obj <= n_var)%nat -> (forall d, In d dirs -> direction n_obj d) -> front_ok (feasible n_var (mw8 n_var n_obj) mw8_g) (mw8 n_var n_obj) (mw8_front dirs).
Proof.
  intros n_var n_obj dirs H1 H2 HD p Hp. apply filter_In in Hp as [Hp HC]. apply in_map_iff in Hp as (d & <- & Hd). apply HD in Hd. apply sphere_dir in Hd. unfold norm2 in Hd. fold (sqsum d) in Hd. set (w := map _ d) in *. destruct (Rle_dec _ _) as [HR|]; [|discriminate].
  assert (ES : sqsum w = 1) by apply Hd. assert (EM : forall x, mw8 n_var n_obj x = obj_func n_obj 1 (x_dir n_obj x) (mw_g2 n_var n_obj x - 1)).
  { intros x. unfold mw8, obj_func. replace (1 + (mw_g2 n_var n_obj x - 1)) with (mw_g2 n_var n_obj x) by ring. f_equal; apply map_ext; intros v; f_equal; unfold angle; cbn [pow]; field. }
  split.
  - destruct (sphere_obj n_obj 1 w H1 ltac:(lia) Hd) as (xs & X1 & X2 & X3). destruct (mw_reach2 n_var n_obj xs H1 H2 X1 X2) as (x & Y1 & Y2 & Y3). assert (EX : mw8 n_var n_obj x = w) by (rewrite EM, Y2, Y3; replace (1 - 1) with 0 by ring; auto).
    exists x. split; auto. split; auto. rewrite EX. unfold mw8_g. rewrite ES, sqrt_1. replace (last w 0 / 1) with (last w 0) by field. rewrite ES in HR. lra.
  - apply unbeaten_sumsq. intros x [Hx _]. rewrite EM. destruct (split_box n_var n_obj x H1 ltac:(lia) Hx) as (D1 & D2 & _). pose proof (dist_ge0 (term2 n_var) n_obj x (fun iv => term2_ge0 n_var iv ltac:(lia))) as HG. rewrite mw_g2_spec. set (s := dist_sum _ _ _) in *.
    destruct (obj_func_spec n_obj 1 (x_dir n_obj x) (1 + s - 1) ltac:(lia) D2 ltac:(lra)) as (O1 & O2 & O3). split; auto. rewrite O3. fold (sqsum w) in *. change (sumsq w) with (sqsum w). rewrite ES. nra.
Qed.
Example C88_meets : 4 * 1 < 10 /\ sympart 1 10 10 0 [10; 10] = [1; 1] /\ In [1; 1] (bnh_set 6) /\ omni_set 2 500 <> [] /\ on_simplex 2 [1/4; 3/4] /\ mw2_front [1/2] = [[1/2; 1 - 1/2]].
Proof.
  split; [lra|]. split; [|split; [|split; [|split]]].
  - pose proof (sympart_at 1 10 10 0 1 1 0) as H. assert (ER : rotate2 0 [1 * 10 + 0; 1 * 10] = [10; 10]) by (unfold rotate2; destruct (Req_EM_T 0 0); [f_equal; [ring|f_equal; ring]|lra]). rewrite ER in H. rewrite H; try lra; [f_equal; [ring|f_equal; ring]|right; right; now left|now left].
  - apply in_map_iff. exists 1. split; [destruct (Rle_dec 3 1); [lra|auto]|]. cbn [linspace]. apply in_map_iff. exists 1%nat. split; [cbn; field|apply in_seq; lia].
  - unfold omni_set. change (500 / 3 ^ 2)%nat with 55%nat. cbn [combos flat_map map app]. intros H. apply app_eq_nil in H as [H _]. cbn in H. discriminate.
  - split; auto. split; [repeat constructor; lra|unfold rsum; cbn; lra].
  - reflexivity.
Qed.
