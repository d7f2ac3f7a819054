(** * C116: the WFG problems *)
From Coq Require Import Reals List Arith ZArith Lra Lia Psatz.
From Verif Require Import ListAux M_NSGA3R M_Bench M_RealOps P_RealOps M_DTLZ M_DF S_Bench Thm_Bench Thm_Bench2 Thm_DTLZ Thm_DF Thm_DF2 M_WFG Thm_WFG Thm_WFG2 Thm_WFG3 Thm_WFG4 Thm_WFG5 Thm_WFG6 Thm_WFG7.
Import ListNotations.
Local Open Scope R_scope.

(** the points inside the bounds: variable i (from 0) between 0 and 2 (i + 1) *)
Definition wfg_box (n : nat) (x : list R) : Prop := length x = n /\ forall i, (i < n)%nat -> 0 <= nth i x 0 <= 2 * INR (i + 1).
(** the parameters accepted by the constructors *)
Definition accepted (w : wfg) (p : params) : Prop := valid_params (match w with W2 | W3 => true | _ => false end) p.
(** objective m (from 0) scaled by 2 (m + 1) *)
Definition scaled (h : list R) : list R := map2 (fun i v => 2 * INR (i + 1) * v) (seq 0 (length h)) h.
(** the values of position parameters: k numbers between 0 and 1 *)
Definition positions (k : nat) (K : list R) : Prop := length K = k /\ Forall (fun v => 0 <= v <= 1) K.

Lemma xu_pos i : 0 < xu i.
Proof. unfold xu. pose proof (lt_0_INR (i + 1) ltac:(lia)). lra. Qed.
Lemma nth_seq_map2 (f : nat -> R -> R) x i : (i < length x)%nat -> nth i (map2 f (seq 0 (length x)) x) 0 = f i (nth i x 0).
Proof. intros H. rewrite (nth_map2 f _ _ i 0 0%nat 0) by (rewrite ?seq_length; lia). now rewrite seq_nth. Qed.
Lemma len_seq_map2 (f : nat -> R -> R) x : length (map2 f (seq 0 (length x)) x) = length x.
Proof. rewrite length_map2, seq_length. lia. Qed.
Lemma normalized_box n x : wfg_box n x -> units (normalized x) /\ length (normalized x) = n.
Proof.
  intros [L H]. unfold normalized. split; [|now rewrite len_seq_map2]. apply Forall_forall. intros v Hv. apply (In_nth _ _ 0) in Hv as (i & Hi & <-). rewrite len_seq_map2 in Hi. rewrite nth_seq_map2 by auto.
  apply unit_div; [apply xu_pos|]. apply H. lia.
Qed.
Lemma normalized_denormalized y : normalized (denormalized y) = y.
Proof.
  unfold normalized. apply (nth_ext _ _ 0 0); [rewrite len_seq_map2; apply len_seq_map2|]. intros i Hi. rewrite len_seq_map2 in Hi. rewrite nth_seq_map2 by auto. unfold denormalized in *. rewrite len_seq_map2 in Hi. rewrite nth_seq_map2 by auto. field. pose proof (xu_pos i). lra.
Qed.
Lemma denormalized_box y : units y -> wfg_box (length y) (denormalized y).
Proof.
  intros H. unfold denormalized. split; [apply len_seq_map2|]. intros i Hi. rewrite nth_seq_map2 by auto. pose proof (units_nth i y H) as [U1 U2]. pose proof (xu_pos i). unfold xu in *. nra.
Qed.
Lemma accepted_valid w p : accepted w p -> valid_params false p.
Proof. intros (A & B & C & D & E). repeat (split; auto). discriminate. Qed.

(** ** shape vectors *)
Lemma shapes_units w p z : valid_params false p -> units z -> length z = (n_obj p - 1)%nat -> units (shapes w (n_obj p) z) /\ length (shapes w (n_obj p) z) = n_obj p.
Proof.
  intros HV U L. pose proof (val_M _ _ HV) as [M1 M2]. rewrite M2, <- L. assert (LZ : (1 <= length z)%nat) by lia. assert (I1 : forall v, unit_ v -> unit_ (1 - v)) by (intros v [? ?]; split; lra).
  assert (C : units (map (fun i => shape_concave z (i + 1)) (seq 0 (S (length z)))) /\ length (map (fun i => shape_concave z (i + 1)) (seq 0 (S (length z)))) = S (length z)) by (split; [now apply concave_rows|now rewrite map_length, seq_length]).
  destruct w; cbn [shapes]; auto.
  - replace (S (length z) - 1)%nat with (length z) by lia. destruct z as [|v t]; [cbn in LZ; lia|]. split; [now apply convex_mixed_val|]. rewrite app_length, map_length, seq_length. cbn; lia.
  - replace (S (length z) - 1)%nat with (length z) by lia. destruct (shape_rows ca cb ca_unit cb_unit z (length z) U LZ ltac:(lia)) as [_ US]. split; [|rewrite app_length, map_length, seq_length; cbn; lia]. apply Forall_app. split; [exact US|]. constructor; auto.
    pose proof (units_nth 0 z U) as [Z1 Z2]. unfold shape_disconnected. assert (EP : np_power (nth 0 z 0) 1 = nth 0 z 0) by (destruct Z1 as [Z1|<-]; [rewrite np_power_pos, Rpower_1 by lra; auto|apply np_power_0]). rewrite EP.
    pose proof (COS_bound (5 * PI * nth 0 z 0)) as [C1 C2]. set (c := cos _) in *. assert (0 <= c ^ 2 <= 1) by nra. rewrite correct_id; split; nra.
  - split; [now apply linear_simplex|now rewrite map_length, seq_length].
Qed.
Lemma shapes_rigid w p : valid_params false p -> w <> W2 -> rigid (shapes w (n_obj p)) (n_obj p - 1).
Proof.
  intros HV N. pose proof (val_M _ _ HV) as [M1 M2]. set (m := (n_obj p - 1)%nat) in *. rewrite M2. destruct w; try congruence; cbn [shapes]; try (now apply concave_rigid); [|now apply linear_rigid].
  assert (E : forall z, shapes W1 (S m) z = convex_mixed m z) by (intros z; unfold shapes, convex_mixed; replace (S m - 1)%nat with m by lia; reflexivity).
  intros z z' L L' U U' W. rewrite !E in *. now apply (convex_mixed_rigid m).
Qed.

(** ** values *)
Definition value (yM : R) (h : list R) : list R := map2 (fun i v => yM + 2 * INR (i + 1) * v) (seq 0 (length h)) h.
Lemma value_0 h : value 0 h = scaled h.
Proof. unfold value, scaled. apply (nth_ext _ _ 0 0); [now rewrite !len_seq_map2|]. intros i Hi. rewrite len_seq_map2 in Hi. rewrite !nth_seq_map2 by auto. ring. Qed.
Lemma calculate_value y m h : length h = m -> calculate y (S_ m) h = value (last y 0) h.
Proof.
  intros L. unfold calculate, value, S_. rewrite L. assert (G : forall s h, map2 (fun sm hm => last y 0 + sm * hm) (map (fun i => 2 * INR (i + 1)) s) h = map2 (fun i v => last y 0 + 2 * INR (i + 1) * v) s h).
  { clear. induction s as [|i s IH]; intros [|a h]; cbn [map map2]; auto. now rewrite IH. }
  apply G.
Qed.
Lemma evaluate_value w p x : accepted w p -> wfg_box (n_var p) x -> exists z yM, units z /\ length z = (n_obj p - 1)%nat /\ unit_ yM /\ evaluate w p x = value yM (shapes w (n_obj p) z) /\ (w <> W3 -> transformed w p (normalized x) = z ++ [yM]).
Proof.
  intros HA HX. pose proof (accepted_valid w p HA) as HV. destruct (normalized_box _ _ HX) as [U L]. destruct (after_post_reduced _ p HV w _ U L) as (z & E & ZL & ZU & D & ET). exists z, (last (transformed w p (normalized x)) 0). repeat (split; auto).
  - unfold evaluate. rewrite E, removelast_last. rewrite calculate_value, last_last; auto. now apply shapes_units.
  - intros N. etransitivity; [apply ET, N|exact E].
Qed.
Lemma evaluate_optimal w p K : accepted w p -> positions (k_pos p) K -> wfg_box (n_var p) (positional_to_optimal w p K) /\ exists z, units z /\ length z = (n_obj p - 1)%nat /\ evaluate w p (positional_to_optimal w p K) = scaled (shapes w (n_obj p) z) /\ (w <> W3 -> transformed w p (optimal_y w p K) = z ++ [0]).
Proof.
  intros HA [LK UK]. pose proof (accepted_valid w p HA) as HV. destruct (optimal_ok _ p HV w K UK LK) as (U & L & _).
  assert (HB : wfg_box (n_var p) (positional_to_optimal w p K)) by (unfold positional_to_optimal; rewrite <- L; now apply denormalized_box). split; auto.
  assert (DZ : last (transformed w p (optimal_y w p K)) 0 = 0) by (apply (optimal_distance _ p HA); auto; destruct w; auto; right; split; discriminate).
  destruct (after_post_reduced _ p HV w _ U L) as (z & E & ZL & ZU & D & ET). rewrite DZ in E. exists z. repeat (split; auto); [|intros N; rewrite ET by auto; exact E].
  unfold evaluate, positional_to_optimal. rewrite normalized_denormalized, E, removelast_last, calculate_value, last_last, value_0; auto. now apply shapes_units.
Qed.
Lemma value_weak w p z z' yM : valid_params false p -> w <> W2 -> units z -> units z' -> length z = (n_obj p - 1)%nat -> length z' = (n_obj p - 1)%nat -> unit_ yM ->
  weakly_dom (value yM (shapes w (n_obj p) z')) (scaled (shapes w (n_obj p) z)) -> value yM (shapes w (n_obj p) z') = scaled (shapes w (n_obj p) z).
Proof.
  intros HV N U U' L L' [Y0 Y1] [_ W]. destruct (shapes_units w p z HV U L) as [S1 S2]. destruct (shapes_units w p z' HV U' L') as [S1' S2']. pose proof (val_M _ _ HV) as [M1 M2].
  set (h := shapes w (n_obj p) z) in *. set (h' := shapes w (n_obj p) z') in *. assert (W' : forall i, (i < length h)%nat -> yM + 2 * INR (i + 1) * nth i h' 0 <= 2 * INR (i + 1) * nth i h 0).
  { intros i Hi. specialize (W i). unfold value, scaled in W. rewrite len_seq_map2 in W. rewrite !nth_seq_map2 in W by lia. apply W, Hi. }
  assert (EH : h' = h). { apply (shapes_rigid w p HV N z z' L L' U U'). split; [unfold h, h' in *; congruence|]. fold h h'. intros i Hi. specialize (W' i Hi). pose proof (xu_pos i) as X. unfold xu in X. nra. }
  assert (EY : yM = 0). { specialize (W' 0%nat ltac:(lia)). rewrite EH in W'. lra. }
  now rewrite EY, EH, value_0.
Qed.
Lemma optimal_front w p K : accepted w p -> w <> W2 -> positions (k_pos p) K -> wfg_box (n_var p) (positional_to_optimal w p K) /\ on_front (wfg_box (n_var p)) (evaluate w p) (evaluate w p (positional_to_optimal w p K)).
Proof.
  intros HA N HK. destruct (evaluate_optimal w p K HA HK) as (HB & z & ZU & ZL & E & _). split; auto. split; [exists (positional_to_optimal w p K); auto|]. intros x HX HD. rewrite E in HD.
  destruct (evaluate_value w p x HA HX) as (z' & yM & ZU' & ZL' & YU & EX & _). apply dom_weak in HD as [HW HN]. rewrite EX in *. apply HN. now apply value_weak; auto; apply (accepted_valid w).
Qed.

(** ** theorems *)
(** the value of every point inside the bounds: n_obj objectives, objective m between 0 and 2 (m + 1) + 1 *)
Theorem C116_wfg_range w p x : accepted w p -> wfg_box (n_var p) x ->
  length (evaluate w p x) = n_obj p /\ forall m, (m < n_obj p)%nat -> 0 <= nth m (evaluate w p x) 0 <= 2 * INR (m + 1) + 1.
Proof.
  intros HA HX. destruct (evaluate_value w p x HA HX) as (z & yM & ZU & ZL & [Y0 Y1] & -> & _). destruct (shapes_units w p z (accepted_valid w p HA) ZU ZL) as [S1 S2]. unfold value. rewrite len_seq_map2. split; auto. intros m Hm. rewrite nth_seq_map2 by lia.
  pose proof (units_nth m _ S1) as [N0 N1]. pose proof (xu_pos m) as X. unfold xu in X. nra.
Qed.
(** every point that the code reports as Pareto-optimal (all problems but WFG2) lies inside the bounds, and no admissible point dominates it *)
Theorem C116_wfg_reported w p K : accepted w p -> w <> W2 -> positions (k_pos p) K ->
  wfg_box (n_var p) (positional_to_optimal w p K) /\ front_ok (wfg_box (n_var p)) (evaluate w p) [evaluate w p (positional_to_optimal w p K)].
Proof. intros HA N HK. destruct (optimal_front w p K HA N HK) as [HB HF]. split; auto. intros q [<-|[]]. exact HF. Qed.
(** WFG4 to WFG9: the front is the part of the ellipsoid with semi-axes 2, 4, ..., 2 n_obj with no negative coordinate *)
Theorem C116_wfg_front w p : In w [W4; W5; W6; W7; W8; W9] -> accepted w p ->
  forall q, attained (wfg_box (n_var p)) (evaluate w p) q /\ unbeaten (wfg_box (n_var p)) (evaluate w p) q <->
            exists s, length s = n_obj p /\ Forall (fun v => 0 <= v) s /\ rsum (map (fun v => v ^ 2) s) = 1 /\ q = scaled s.
Proof.
  intros HW HA q. pose proof (accepted_valid w p HA) as HV. pose proof (val_M _ _ HV) as [M1 M2].
  assert (N2 : w <> W2) by (intros ->; cbn in HW; intuition discriminate). assert (N3 : w <> W3) by (intros ->; cbn in HW; intuition discriminate).
  assert (ES : forall z, length z = (n_obj p - 1)%nat -> shapes w (n_obj p) z = concave (n_obj p - 1) z) by (intros z Hz; rewrite M2 at 1; cbn in HW; destruct HW as [<-|[<-|[<-|[<-|[<-|[<-|[]]]]]]]; reflexivity).
  assert (RE : forall z, units z -> length z = (n_obj p - 1)%nat -> exists K, positions (k_pos p) K /\ evaluate w p (positional_to_optimal w p K) = scaled (shapes w (n_obj p) z)).
  { intros z UZ LZ. destruct (optimal_reach _ p HA w z N2 N3 UZ LZ) as (K & UK & LK & EK). exists K. assert (HK : positions (k_pos p) K) by (split; auto). split; auto. destruct (evaluate_optimal w p K HA HK) as (_ & z' & _ & _ & E & T). specialize (T N3). rewrite EK in T. apply app_inj_tail in T as [<- _]. exact E. }
  split.
  - intros [(x & HX & <-) HU]. destruct (evaluate_value w p x HA HX) as (z & yM & ZU & ZL & [Y0 Y1] & EX & _). destruct (RE z ZU ZL) as (K & HK & EK). destruct (optimal_front w p K HA N2 HK) as [HB _]. specialize (HU _ HB).
    destruct (shapes_units w p z HV ZU ZL) as [SU SL]. exists (shapes w (n_obj p) z). split; auto. rewrite EK, EX in HU. rewrite EX. split; [eapply Forall_impl; [|exact SU]; cbn; intros a [A1 _]; exact A1|]. split.
    + rewrite ES by auto. rewrite <- ZL. apply concave_sphere; auto. lia.
    + destruct (list_eq_dec Req_EM_T (scaled (shapes w (n_obj p) z)) (value yM (shapes w (n_obj p) z))) as [E|NE]; auto. exfalso. apply HU, weak_strict; auto. unfold scaled, value. split; [now rewrite !len_seq_map2|]. rewrite len_seq_map2. intros i Hi. rewrite !nth_seq_map2 by auto. lra.
  - intros (s & LS & NS & SS & ->). assert (HS : on_sphere (S (n_obj p - 1)) s) by (split; [lia|split; auto]). destruct (concave_reach _ s M1 HS) as (z & LZ & UZ & EZ). destruct (RE z UZ LZ) as (K & HK & EK). rewrite ES, EZ in EK by auto. rewrite <- EK. now apply optimal_front.
Qed.
