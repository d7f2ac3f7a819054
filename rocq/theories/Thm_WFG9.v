(** * C116: WFG1's front, the reported sets and fronts, WFG2 *)
From Coq Require Import Reals List Arith ZArith Lra Lia Psatz.
From Verif Require Import ListAux M_NSGA3R M_Bench M_RealOps P_RealOps M_DTLZ M_DF S_Bench Thm_Bench Thm_Bench2 Thm_DTLZ Thm_DF Thm_DF2 M_WFG Thm_WFG Thm_WFG2 Thm_WFG3 Thm_WFG4 Thm_WFG5 Thm_WFG6 Thm_WFG7 Thm_WFG8.
Import ListNotations.
Local Open Scope R_scope.

(** WFG1's shape: objective m (from 0, m < M = length z) is the product of 1 - cos over the first M - m positions times 1 - sin of the next one (for m > 0); the last one is the wave 1 - z0 + sin (10 pi z0) / (10 pi) *)
Definition wfg1_shape (z : list R) : list R :=
  map (fun m => rprod (map (fun v => 1 - cos (v * PI / 2)) (firstn (length z - m) z)) * (if (m =? 0)%nat then 1 else 1 - sin (nth (length z - m) z 0 * PI / 2))) (seq 0 (length z))
  ++ [1 - nth 0 z 0 + sin (10 * PI * nth 0 z 0) / (10 * PI)].
Lemma ca_val v : ca v = 1 - cos (v * PI / 2).
Proof. unfold ca, cu. f_equal. f_equal. lra. Qed.
Lemma cb_val v : cb v = 1 - sin (v * PI / 2).
Proof. unfold cb, su. f_equal. f_equal. lra. Qed.
Lemma wfg1_shape_val p z : valid_params false p -> units z -> length z = (n_obj p - 1)%nat -> shapes W1 (n_obj p) z = wfg1_shape z.
Proof.
  intros HV U L. pose proof (val_M _ _ HV) as [M1 M2]. unfold shapes. rewrite <- L. unfold wfg1_shape. f_equal.
  - apply map_ext_in. intros m Hm. apply in_seq in Hm. unfold shape_convex. change (fun v0 : R => 1 - cos (0.5 * v0 * PI)) with ca. change (fun v0 : R => 1 - sin (0.5 * v0 * PI)) with cb.
    destruct (shape_row ca cb ca_unit cb_unit z m U ltac:(lia) ltac:(lia)) as [E _]. rewrite E. rewrite map_length, Rmult_1_l, firstn_map, (map_ext _ _ ca_val). destruct m as [|m]; cbn [Nat.eqb]; [rewrite Rmult_1_r; reflexivity|]. f_equal.
    rewrite <- cb_val. rewrite (nth_indep _ 0 (cb 0)) by (rewrite map_length; lia). apply map_nth.
  - f_equal. destruct (mixed_val (nth 0 z 0) (units_nth 0 z U)) as [-> _]. apply mx_sin.
Qed.
Theorem C116_wfg1_front p : accepted W1 p ->
  forall q, attained (wfg_box (n_var p)) (evaluate W1 p) q /\ unbeaten (wfg_box (n_var p)) (evaluate W1 p) q <->
            exists z, length z = (n_obj p - 1)%nat /\ Forall (fun v => 0 <= v <= 1) z /\ q = scaled (wfg1_shape z).
Proof.
  intros HA q. pose proof (accepted_valid _ p HA) as HV.
  assert (RE : forall z, units z -> length z = (n_obj p - 1)%nat -> exists K, positions (k_pos p) K /\ evaluate W1 p (positional_to_optimal W1 p K) = scaled (shapes W1 (n_obj p) z)).
  { intros z UZ LZ. destruct (optimal_reach _ p HA W1 z ltac:(discriminate) ltac:(discriminate) UZ LZ) as (K & UK & LK & EK). exists K. assert (HK : positions (k_pos p) K) by (split; auto). split; auto. destruct (evaluate_optimal W1 p K HA HK) as (_ & z' & _ & _ & E & T). specialize (T ltac:(discriminate)). rewrite EK in T. apply app_inj_tail in T as [<- _]. exact E. }
  split.
  - intros [(x & HX & <-) HU]. destruct (evaluate_value W1 p x HA HX) as (z & yM & ZU & ZL & [Y0 Y1] & EX & _). destruct (RE z ZU ZL) as (K & HK & EK). destruct (optimal_front W1 p K HA ltac:(discriminate) HK) as [HB _]. specialize (HU _ HB).
    exists z. split; auto. split; [exact ZU|]. rewrite EK, EX in HU. rewrite EX. rewrite <- (wfg1_shape_val p) by auto.
    destruct (list_eq_dec Req_EM_T (scaled (shapes W1 (n_obj p) z)) (value yM (shapes W1 (n_obj p) z))) as [E|NE]; auto. exfalso. apply HU, weak_strict; auto. unfold scaled, value. split; [now rewrite !len_seq_map2|]. rewrite len_seq_map2. intros i Hi. rewrite !nth_seq_map2 by auto. lra.
  - intros (z & LZ & UZ & ->). rewrite <- (wfg1_shape_val p) by auto. destruct (RE z UZ LZ) as (K & HK & EK). rewrite <- EK. now apply optimal_front; auto; discriminate.
Qed.

(** the front WFG9 reports for reference directions *)
Theorem C116_wfg9_reported_front p dirs : accepted W9 p -> (forall d, In d dirs -> length d = n_obj p /\ Forall (fun v => 0 <= v) d /\ exists v, In v d /\ v <> 0) ->
  front_ok (wfg_box (n_var p)) (evaluate W9 p) (w9_front (n_obj p) dirs) /\ length (w9_front (n_obj p) dirs) = length dirs.
Proof.
  intros HA HD. split; [|unfold w9_front, generic_sphere; now rewrite !map_length]. intros q HQ. unfold w9_front, generic_sphere in HQ. rewrite map_map in HQ. apply in_map_iff in HQ as (d & <- & Hd). destruct (sphere_dir (n_obj p) d (HD d Hd)) as (LS & NS & SS).
  apply (C116_wfg_front W9 p); auto; [cbn; tauto|]. exists (map (fun v => v / norm2 d) d). repeat (split; auto). unfold scaled. rewrite LS. set (s := map _ d) in *; clearbody s. apply (nth_ext _ _ 0 0).
  - unfold S_. rewrite !length_map2, map_length, seq_length. lia.
  - intros i Hi. unfold S_ in *. rewrite length_map2, map_length, seq_length in Hi. rewrite (nth_map2 Rmult _ _ i 0 0 0) by (rewrite ?map_length, ?seq_length; lia). rewrite (nth_map2 _ _ _ i 0 0%nat 0) by (rewrite ?seq_length; lia).
    rewrite (nth_indep (map _ _) 0 (2 * INR (0 + 1))) by (rewrite map_length, seq_length; lia). rewrite (map_nth (fun i => 2 * INR (i + 1))). ring.
Qed.

(** ** pareto_set *)
Lemma bits_length k : length (bits k) = (2 ^ k)%nat.
Proof. induction k as [|k IH]; [reflexivity|]. cbn [bits]. rewrite app_length, !map_length, IH. cbn [Nat.pow]. lia. Qed.
Lemma bits_ok k K : In K (bits k) -> positions k K.
Proof.
  revert K; induction k as [|k IH]; intros K H; cbn [bits] in H; [destruct H as [<-|[]]; split; auto|]. apply in_app_or in H as [H|H]; apply in_map_iff in H as (K' & <- & H'); apply IH in H' as [L F]; split; cbn [length]; auto; constructor; auto; lra.
Qed.
Lemma bits_zero k : In (repeat 0 k) (bits k).
Proof. induction k as [|k IH]; cbn [bits repeat]; [now left|]. apply in_or_app. right. apply in_map_iff. eauto. Qed.
Lemma rand_positions w k d : positions k d -> positions k (rand_optimal_position w d).
Proof. intros [L F]. unfold rand_optimal_position. destruct w; try (split; auto; fail). split; [now rewrite map_length|]. apply units_map; auto. intros v Hv. apply power_unit; auto. lra. Qed.
(** with at least 2 ** k points every reported solution lies inside the bounds and its value is on the front *)
Theorem C116_pareto_set w p n draws : accepted w p -> w <> W2 -> (2 ^ k_pos p <= n)%nat -> Forall (positions (k_pos p)) draws -> (n - 2 ^ k_pos p <= length draws)%nat ->
  exists ps, pareto_set w p n draws = Some ps /\ length ps = n /\ Forall (wfg_box (n_var p)) ps /\ front_ok (wfg_box (n_var p)) (evaluate w p) (map (evaluate w p) ps).
Proof.
  intros HA N Hn HD HL. unfold pareto_set. rewrite map_length, bits_length. destruct (Nat.ltb_spec n (2 ^ k_pos p)); [lia|]. eexists. split; [reflexivity|]. split; [rewrite app_length, !map_length, bits_length, firstn_length; lia|].
  assert (G : forall x, In x (map (positional_to_optimal w p) (bits (k_pos p)) ++ map (fun d => positional_to_optimal w p (rand_optimal_position w d)) (firstn (n - 2 ^ k_pos p) draws)) -> exists K, positions (k_pos p) K /\ x = positional_to_optimal w p K).
  { intros x HX. apply in_app_or in HX as [HX|HX]; apply in_map_iff in HX as (K & <- & HK); [exists K; split; auto; now apply bits_ok|]. exists (rand_optimal_position w K). split; auto. apply rand_positions. rewrite Forall_forall in HD. apply HD. rewrite <- (firstn_skipn (n - 2 ^ k_pos p) draws). apply in_or_app. auto. }
  split; [apply Forall_forall; intros x HX|intros q HQ; apply in_map_iff in HQ as (x & <- & HX)]; destruct (G x HX) as (K & HK & ->); now apply optimal_front.
Qed.
(** with the default k = 2 (n_obj - 1) and 500 points, six or more objectives raise *)
Theorem C116_pareto_set_raises w p draws : (6 <= n_obj p)%nat -> k_pos p = (2 * (n_obj p - 1))%nat -> pareto_set w p 500 draws = None.
Proof.
  intros H E. unfold pareto_set. rewrite map_length, bits_length. assert (P : (2 ^ 10 <= 2 ^ k_pos p)%nat) by (apply Nat.pow_le_mono_r; lia). change (2 ^ 10)%nat with 1024%nat in P. destruct (Nat.ltb_spec 500 (2 ^ k_pos p)); [auto|lia].
Qed.
(** the sampled fronts: every row kept, whatever the draws and the rows chosen, is on the front *)
Theorem C116_front_rounds w p rounds : accepted w p -> w <> W2 ->
  Forall (fun r => Forall (positions (k_pos p)) (fst r)) rounds ->
  (forall pre_ r post_, rounds = pre_ ++ r :: post_ -> Forall (fun i => (i < length (front_rounds w p pre_) + length (fst r))%nat) (snd r)) ->
  front_ok (wfg_box (n_var p)) (evaluate w p) (front_rounds w p rounds).
Proof.
  intros HA N HD HI. assert (G : forall q, In q (front_rounds w p rounds) -> exists K, positions (k_pos p) K /\ q = evaluate w p (positional_to_optimal w p K)).
  { revert HD HI. induction rounds as [|r rounds IH] using rev_ind; intros HD HI q HQ.
    - cbn in HQ. apply in_map_iff in HQ as (K & <- & HK). exists K. split; auto. now apply bits_ok.
    - apply Forall_app in HD as [HD1 HD2]. specialize (IH HD1). assert (HI' : forall pre_ r0 post_, rounds = pre_ ++ r0 :: post_ -> Forall (fun i => (i < length (front_rounds w p pre_) + length (fst r0))%nat) (snd r0)) by (intros a b c E; apply (HI a b (c ++ [r])); rewrite E, <- app_assoc; reflexivity). specialize (IH HI').
      unfold front_rounds in HQ. rewrite fold_left_app in HQ. cbn [fold_left] in HQ. fold (front_rounds w p rounds) in HQ. unfold gather in HQ. apply in_map_iff in HQ as (i & EQ & Hi). specialize (HI rounds r [] eq_refl). rewrite Forall_forall in HI. specialize (HI i Hi).
      assert (IN : In q (front_rounds w p rounds ++ map (fun d => evaluate w p (positional_to_optimal w p (rand_optimal_position w d))) (fst r))) by (rewrite <- EQ; apply nth_In; rewrite app_length, map_length; exact HI).
      apply in_app_or in IN as [IN|IN]; [now apply IH|]. apply in_map_iff in IN as (d & <- & HdI). exists (rand_optimal_position w d). split; auto. apply rand_positions. pose proof (Forall_inv HD2) as F. cbv beta in F. rewrite Forall_forall in F. auto. }
  intros q HQ. destruct (G q HQ) as (K & HK & ->). now apply optimal_front.
Qed.

(** ** WFG2: a reported solution dominated by another reported solution *)
Definition p2 : params := {| n_obj := 2; n_var := 6; k_pos := 4 |}.
Lemma p2_ok w : accepted w p2.
Proof. unfold accepted, valid_params, p2; cbn. repeat split; auto; lia. Qed.
Lemma wfg2_val v : unit_ v -> evaluate W2 p2 (positional_to_optimal W2 p2 (repeat v 4)) = [2 * (1 - cos (v * PI / 2)); 4 * (1 - v * cos (5 * PI * v) ^ 2)].
Proof.
  intros U. assert (HK : positions (k_pos p2) (repeat v 4)) by (split; [reflexivity|now apply units_repeat]). destruct (evaluate_optimal W2 p2 (repeat v 4) (p2_ok W2) HK) as (_ & z & UZ & LZ & E & T). specialize (T ltac:(discriminate)).
  assert (EZ : z = [v]).
  { cbn [p2 n_obj Nat.sub] in LZ. destruct z as [|a [|b z]]; try discriminate. apply (f_equal (fun t => nth 0 t 0)) in T. cbn [app nth] in T. rewrite <- T. rewrite transformed_pre. cbn [pre red optimal_y].
    unfold w1_t1. change (k_pos p2) with (length (repeat v 4)) at 1 2. rewrite firstn_app_exact. unfold w2_t2. change (k_pos p2) with (length (repeat v 4)) at 1. rewrite firstn_app_exact. unfold w2_t3, groups. cbn [p2 n_obj k_pos n_var Nat.sub seq map app nth].
    f_equal. apply (uniform_repeat v 4 U). lia. }
  subst z. rewrite E. cbn [p2 n_obj shapes Nat.sub seq map app nth]. pose proof (Forall_inv UZ) as [U0 U1].
  assert (E1 : shape_convex [v] (0 + 1) = 1 - cos (v * PI / 2)). { destruct (shape_row ca cb ca_unit cb_unit [v] 0 UZ ltac:(cbn; lia) ltac:(cbn; lia)) as [E1 _]. unfold shape_convex. change (fun v0 : R => 1 - cos (0.5 * v0 * PI)) with ca. change (fun v0 : R => 1 - sin (0.5 * v0 * PI)) with cb. rewrite E1. cbn. rewrite ca_val. ring. }
  assert (E2 : shape_disconnected v 1 1 5 = 1 - v * cos (5 * PI * v) ^ 2).
  { unfold shape_disconnected. assert (EP : np_power v 1 = v) by (destruct U0 as [Z1|<-]; [rewrite np_power_pos, Rpower_1 by lra; auto|apply np_power_0]). rewrite EP. pose proof (COS_bound (5 * PI * v)) as [C1 C2]. set (c := cos (5 * PI * v)) in *. clearbody c. assert (0 <= c ^ 2 <= 1) by nra. apply correct_id. set (q := c ^ 2) in *. clearbody q. split; nra. }
  rewrite E1, E2. unfold scaled. cbn [length seq map2]. change (INR (0 + 1)) with 1. replace (INR (1 + 1)) with 2 by (cbn; ring). cbn [map2]. apply f_equal2; [ring|apply f_equal2; [ring|reflexivity]].
Qed.
Theorem C116_wfg2_refuted : exists ps x x', positions 4 (repeat 0.1 4) /\ pareto_set W2 p2 500 (repeat (repeat 0.1 4) 500) = Some ps /\ In x ps /\ In x' ps /\ pareto_dom (evaluate W2 p2 x') (evaluate W2 p2 x).
Proof.
  unfold pareto_set. rewrite map_length, bits_length. change (500 <? 2 ^ k_pos p2)%nat with false. eexists. exists (positional_to_optimal W2 p2 (repeat 0.1 4)), (positional_to_optimal W2 p2 (repeat 0 4)). split; [split; [reflexivity|apply units_repeat; split; lra]|]. split; [reflexivity|]. split; [|split].
  - apply in_or_app. right. cbn [rand_optimal_position]. apply in_map_iff. exists (repeat 0.1 4). split; auto. change (500 - 2 ^ k_pos p2)%nat with 484%nat. replace 500%nat with (484 + 16)%nat by reflexivity. rewrite repeat_app. rewrite <- (repeat_length (repeat 0.1 4) 484) at 1. rewrite firstn_app_exact. now left.
  - apply in_or_app. left. apply in_map_iff. exists (repeat 0 4). split; auto. apply bits_zero.
  - rewrite !wfg2_val by (split; lra). replace (5 * PI * 0.1) with (PI / 2) by lra. rewrite cos_PI2. replace (0 * PI / 2) with 0 by lra. rewrite cos_0. pose proof PI_RGT_0 as HP. assert (C1 : cos (0.1 * PI / 2) < 1) by (rewrite <- cos_0; apply cos_decreasing_1; lra).
    split; [reflexivity|]. split.
    + intros [|[|i]] Hi; cbn [nth length] in *; [lra|nra|lia].
    + exists 0%nat. cbn [nth length]. split; [lia|lra].
Qed.
(** the hypotheses are met *)
Example C116_example : accepted W2 p2 /\ positions 4 (repeat 0.1 4) /\ wfg_box 6 (repeat 1 6).
Proof.
  split; [apply p2_ok|]. split; [split; [reflexivity|apply units_repeat; split; lra]|]. split; [reflexivity|]. intros i Hi. rewrite (nth_indep _ 0 1) by (now rewrite repeat_length). rewrite nth_repeat. pose proof (le_INR 1 (i + 1) ltac:(lia)) as L. change (INR 1) with 1 in L. lra.
Qed.
