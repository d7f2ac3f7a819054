(** * C116: the WFG shapes *)
From Coq Require Import Reals List Arith ZArith Lra Lia Psatz.
From Verif Require Import ListAux M_NSGA3R M_Bench M_RealOps P_RealOps M_DTLZ M_DF S_Bench Thm_Bench Thm_Bench2 Thm_DTLZ Thm_DF Thm_DF2 M_WFG Thm_WFG Thm_WFG2.
Import ListNotations.
Local Open Scope R_scope.

Lemma rprod_unit l : units l -> unit_ (rprod l).
Proof. induction 1 as [|a l [H1 H2] _ [I1 I2]]; unfold rprod in *; cbn [fold_right]; [split; lra|]. split; [nra|]. nra. Qed.
Lemma units_firstn k l : units l -> units (firstn k l).
Proof. intros H. rewrite Forall_forall in *. intros v HV. apply H. rewrite <- (firstn_skipn k l). apply in_or_app. auto. Qed.
Lemma units_skipn k l : units l -> units (skipn k l).
Proof. intros H. rewrite Forall_forall in *. intros v HV. apply H. rewrite <- (firstn_skipn k l). apply in_or_app. auto. Qed.
Lemma units_nth i l : units l -> unit_ (nth i l 0).
Proof. intros H. destruct (lt_dec i (length l)) as [L|L]; [rewrite Forall_forall in H; apply H, nth_In, L|rewrite nth_overflow by lia; split; lra]. Qed.
Lemma units_map f l : (forall v, unit_ v -> unit_ (f v)) -> units l -> units (map f l).
Proof. intros HF H. induction H; cbn [map]; constructor; auto. Qed.
Lemma unit_mult a b : unit_ a -> unit_ b -> unit_ (a * b).
Proof. intros [A1 A2] [B1 B2]. split; nra. Qed.

Definition su (v : R) : R := sin (0.5 * v * PI).
Definition cu (v : R) : R := cos (0.5 * v * PI).
Lemma quarter_b v : unit_ v -> 0 <= 0.5 * v * PI <= PI / 2.
Proof. intros [H1 H2]. pose proof PI_RGT_0. nra. Qed.
Lemma su_unit v : unit_ v -> unit_ (su v).
Proof. intros H. apply quarter_b in H. unfold su. pose proof PI_RGT_0. split; [apply sin_ge_0; lra|apply SIN_bound]. Qed.
Lemma cu_unit v : unit_ v -> unit_ (cu v).
Proof. intros H. apply quarter_b in H. unfold cu. pose proof PI_RGT_0. split; [apply cos_ge_0; lra|apply COS_bound]. Qed.

Lemma firstn_seq n m a : (n <= m)%nat -> firstn n (seq a m) = seq a n.
Proof. revert m a; induction n as [|n IH]; intros [|m] a H; cbn [firstn seq]; auto; [lia|]. f_equal. apply IH. lia. Qed.
(** ** the shape vectors as rows *)
Section Rows.
  Variables f g : R -> R.
  Hypothesis Hf : forall v, unit_ v -> unit_ (f v).
  Hypothesis Hg : forall v, unit_ v -> unit_ (g v).
  Lemma shape_row x i : units x -> (1 <= length x)%nat -> (i <= length x)%nat -> let r := (let p := 1 * rprod (firstn (length (map f x) - i) (map f x)) in match i with O => p | _ => p * nth (length (map f x) - i) (map g x) 0 end) in
    shape f g x (i + 1) = r /\ unit_ r.
  Proof.
    intros HX L HI r. set (M := length x) in *. assert (HM : length (map f x) = M) by (unfold M; now rewrite map_length).
    assert (UF : forall n, unit_ (rprod (firstn n (map f x)))) by (intros; apply rprod_unit, units_firstn, units_map; auto).
    assert (GN : forall j, (j < M)%nat -> nth j (map g x) 0 = g (nth j x 0)) by (intros j J; rewrite (nth_indep _ 0 (g 0)) by (now rewrite map_length); apply map_nth).
    assert (ER : r = (if (i + 1 =? 1)%nat then rprod (map f (firstn M x)) else if ((1 <? i + 1) && (i + 1 <=? M))%nat%bool then rprod (map f (firstn (M - (i + 1) + 1) x)) * g (nth (M - (i + 1) + 1) x 0) else g (nth 0 x 0))).
    { unfold r. rewrite HM. destruct i as [|i].
      - cbn [Nat.add Nat.eqb]. rewrite Nat.sub_0_r, Rmult_1_l, firstn_map. reflexivity.
      - destruct (Nat.eqb_spec (S i + 1) 1); [lia|]. destruct (Nat.ltb_spec 1 (S i + 1)); [|lia]. cbn [andb]. destruct (Nat.leb_spec (S i + 1) M).
        + replace (M - (S i + 1) + 1)%nat with (M - S i)%nat by lia. rewrite GN by lia. rewrite Rmult_1_l, firstn_map. reflexivity.
        + replace (M - S i)%nat with 0%nat by lia. rewrite GN by lia. cbn [firstn]. unfold rprod. cbn [fold_right]. ring. }
    assert (UR : unit_ r).
    { unfold r. rewrite HM, Rmult_1_l. destruct i as [|i]; auto. apply unit_mult; auto. rewrite GN by lia. apply Hg, units_nth, HX. }
    split; auto. unfold shape. fold M. rewrite <- ER. now apply correct_id.
  Qed.
  Lemma shape_rows x n : units x -> (1 <= length x)%nat -> (n <= S (length x))%nat ->
    map (fun i => shape f g x (i + 1)) (seq 0 n) = firstn n (obj_rows (S (length x)) 1 (map f x) (map g x)) /\ units (map (fun i => shape f g x (i + 1)) (seq 0 n)).
  Proof.
    intros HX L HN. split.
    - unfold obj_rows. rewrite firstn_map. rewrite firstn_seq by lia.
      apply map_ext_in. intros i HI. apply in_seq in HI. apply shape_row; auto. lia.
    - apply Forall_forall. intros v HV. apply in_map_iff in HV as (i & <- & HI). apply in_seq in HI. destruct (shape_row x i HX L ltac:(lia)) as [-> U]. exact U.
  Qed.
End Rows.

(** ** weakly smaller shape vectors are equal *)
Definition rigid (h : list R -> list R) (M : nat) : Prop := forall z z', length z = M -> length z' = M -> units z -> units z' -> weakly_dom (h z') (h z) -> h z' = h z.
Lemma obj_rows_all n c s : (1 <= n)%nat -> n = S (length c) -> firstn n (obj_rows n 1 c s) = obj_rows n 1 c s.
Proof. intros. apply firstn_all2. rewrite obj_rows_length. lia. Qed.
(** concave: on the unit sphere *)
Definition concave (M : nat) (z : list R) : list R := map (fun i => shape_concave z (i + 1)) (seq 0 (S M)).
Lemma concave_rows z : units z -> (1 <= length z)%nat -> concave (length z) z = obj_rows (S (length z)) 1 (map su z) (map cu z) /\ units (concave (length z) z).
Proof.
  intros H L. destruct (shape_rows su cu su_unit cu_unit z (S (length z)) H L ltac:(lia)) as [E U]. unfold concave, shape_concave. fold su cu. change (fun v : R => sin (0.5 * v * PI)) with su. change (fun v : R => cos (0.5 * v * PI)) with cu. split; auto. rewrite E. apply firstn_all2. rewrite obj_rows_length. lia.
Qed.
Lemma concave_sphere z : units z -> (1 <= length z)%nat -> on_sphere (S (length z)) (concave (length z) z).
Proof.
  intros H L. destruct (concave_rows z H L) as [E U]. split; [unfold concave; now rewrite map_length, seq_length|]. split.
  - eapply Forall_impl; [|exact U]. intros v [V _]. exact V.
  - rewrite E. pose proof (obj_rows_sumsq (map (fun v => PI / 2 - 0.5 * v * PI) z) 1) as O. rewrite map_length, !map_map in O. replace (1 ^ 2) with 1 in O by ring. rewrite (map_ext (fun x => cos (PI / 2 - 0.5 * x * PI)) su), (map_ext (fun x => sin (PI / 2 - 0.5 * x * PI)) cu) in O; [exact O| |]; intros v; unfold su, cu; first [apply Rtrigo1.sin_shift|apply Rtrigo1.cos_shift].
Qed.
Lemma concave_reach M s : (1 <= M)%nat -> on_sphere (S M) s -> exists z, length z = M /\ units z /\ concave M z = s.
Proof.
  intros HM HS. destruct (sphere_reach M s) as (th & T1 & T2 & T3); [apply HS|apply HS|]. rewrite (norm2_1 _ _ HS) in T3. pose proof PI_RGT_0 as HP. exists (map (fun t => 1 - t * 2 / PI) th).
  assert (UZ : units (map (fun t => 1 - t * 2 / PI) th)).
  { apply Forall_forall. intros v HV. apply in_map_iff in HV as (t & <- & HT). rewrite Forall_forall in T2. specialize (T2 t HT). assert (E : t * 2 / PI * (PI / 2) = t) by (field; lra). split; nra. }
  assert (LZ : length (map (fun t => 1 - t * 2 / PI) th) = M) by (now rewrite map_length). split; auto. split; auto. rewrite <- LZ at 1. destruct (concave_rows _ UZ ltac:(lia)) as [-> _]. rewrite LZ, !map_map, <- T3. f_equal; apply map_ext; intros t; unfold su, cu.
  - rewrite <- Rtrigo1.sin_shift. f_equal. replace (0.5 * (1 - t * 2 / PI) * PI) with (PI / 2 - t * (PI * / PI)) by lra. rewrite Rinv_r by lra. lra.
  - rewrite <- Rtrigo1.cos_shift. f_equal. replace (0.5 * (1 - t * 2 / PI) * PI) with (PI / 2 - t * (PI * / PI)) by lra. rewrite Rinv_r by lra. lra.
Qed.
Lemma concave_rigid M : (1 <= M)%nat -> rigid (concave M) M.
Proof.
  intros HM z z' L L' U U' W. destruct (list_eq_dec Req_EM_T (concave M z') (concave M z)) as [E|N]; auto. exfalso. pose proof (weak_strict _ _ W N) as D. subst M.
  pose proof (concave_sphere z U HM) as (_ & _ & E1). pose proof (concave_sphere z' U') as C. rewrite L' in C. destruct (C HM) as (_ & N2 & E2). apply dom_sumsq in D; auto. lra.
Qed.
(** linear: on the unit simplex *)
Definition linear (M : nat) (z : list R) : list R := map (fun i => shape_linear z (i + 1)) (seq 0 (S M)).
Lemma linear_simplex z : units z -> (1 <= length z)%nat -> length (linear (length z) z) = S (length z) /\ units (linear (length z) z) /\ rsum (linear (length z) z) = 1.
Proof.
  intros H L. assert (I1 : forall v, unit_ v -> unit_ (1 - v)) by (intros v [? ?]; split; lra). destruct (shape_rows (fun v => v) (fun v => 1 - v) (fun v Hv => Hv) I1 z (S (length z)) H L ltac:(lia)) as [E U]. unfold linear, shape_linear. split; [now rewrite map_length, seq_length|]. split; auto.
  rewrite E, firstn_all2 by (rewrite obj_rows_length; lia). rewrite map_id. apply obj_rows_sum.
Qed.
Lemma linear_rigid M : (1 <= M)%nat -> rigid (linear M) M.
Proof.
  intros HM z z' L L' U U' W. destruct (list_eq_dec Req_EM_T (linear M z') (linear M z)) as [E|N]; auto. exfalso. pose proof (weak_strict _ _ W N) as D. subst M.
  destruct (linear_simplex z U HM) as (_ & _ & E1). pose proof (linear_simplex z' U') as C. rewrite L' in C. destruct (C HM) as (_ & _ & E2). apply dom_sum in D. lra.
Qed.

(** ** convex rows *)
Definition ca (v : R) : R := 1 - cu v.
Definition cb (v : R) : R := 1 - su v.
Lemma ca_unit v : unit_ v -> unit_ (ca v).
Proof. intros H. apply cu_unit in H. destruct H. unfold ca. split; lra. Qed.
Lemma cb_unit v : unit_ v -> unit_ (cb v).
Proof. intros H. apply su_unit in H. destruct H. unfold cb. split; lra. Qed.
Lemma su_lt u v : unit_ u -> unit_ v -> u < v -> su u < su v.
Proof. intros HU HV L. apply quarter_b in HU, HV. pose proof PI_RGT_0. unfold su. apply sin_increasing_1; try lra; nra. Qed.
Lemma cu_lt u v : unit_ u -> unit_ v -> u < v -> cu v < cu u.
Proof. intros HU HV L. apply quarter_b in HU, HV. pose proof PI_RGT_0. unfold cu. apply cos_decreasing_1; try lra; nra. Qed.
Lemma su_0 : su 0 = 0. Proof. unfold su. replace (0.5 * 0 * PI) with 0 by ring. apply sin_0. Qed.
Lemma su_1 : su 1 = 1. Proof. unfold su. replace (0.5 * 1 * PI) with (PI / 2) by lra. apply sin_PI2. Qed.
Lemma cu_0 : cu 0 = 1. Proof. unfold cu. replace (0.5 * 0 * PI) with 0 by ring. apply cos_0. Qed.
Lemma cu_1 : cu 1 = 0. Proof. unfold cu. replace (0.5 * 1 * PI) with (PI / 2) by lra. apply cos_PI2. Qed.
Lemma cb_le_inv u v : unit_ u -> unit_ v -> cb u <= cb v -> v <= u.
Proof. intros HU HV H. apply Rnot_lt_le. intros L. pose proof (su_lt u v HU HV L). unfold cb in H. lra. Qed.
Lemma ca_le u v : unit_ u -> unit_ v -> u <= v -> ca u <= ca v.
Proof. intros HU HV [L| ->]; [pose proof (cu_lt u v HU HV L); unfold ca; lra|lra]. Qed.
Lemma ca_inj u v : unit_ u -> unit_ v -> ca u = ca v -> u = v.
Proof. intros HU HV H. destruct (Rtotal_order u v) as [L|[E|L]]; auto; [pose proof (cu_lt u v HU HV L)|pose proof (cu_lt v u HV HU L)]; unfold ca in H; lra. Qed.
Lemma weak_snoc a b x y : length a = length b -> weakly_dom (a ++ [x]) (b ++ [y]) <-> weakly_dom a b /\ x <= y.
Proof.
  intros L. split.
  - intros [_ H]. rewrite app_length in H. cbn [length] in H. split; [split; auto|].
    + intros i Hi. specialize (H i ltac:(lia)). now rewrite !app_nth1 in H by lia.
    + specialize (H (length b) ltac:(lia)). rewrite <- L in H at 1. now rewrite !app_nth2, L, !Nat.sub_diag in H by lia.
  - intros [[_ H] HX]. split; [rewrite !app_length; cbn; lia|]. rewrite app_length. cbn [length]. intros i Hi. destruct (lt_dec i (length b)).
    + rewrite !app_nth1 by lia. auto.
    + replace i with (length b) by lia. rewrite <- L at 1. rewrite !app_nth2, L, !Nat.sub_diag by lia. exact HX.
Qed.
Lemma convex_rows_rigid z : forall z' r r', length z' = length z -> units z -> units z' -> 0 <= r <= r' ->
  weakly_dom (obj_rows (S (length z)) r' (map ca z') (map cb z')) (obj_rows (S (length z)) r (map ca z) (map cb z)) -> r = r' /\ obj_rows (S (length z)) r' (map ca z') (map cb z') = obj_rows (S (length z)) r (map ca z) (map cb z).
Proof.
  induction z as [|v z IH]; intros [|v' z'] r r' L U U' HR W; try discriminate.
  - cbn [map length] in *. rewrite !obj_rows_nil in *. destruct W as [_ W]. specialize (W 0%nat ltac:(cbn; lia)). cbn in W. split; [lra|f_equal; lra].
  - injection L as L. pose proof (Forall_inv U) as V. pose proof (Forall_inv U') as V'. pose proof (Forall_inv_tail U) as UT. pose proof (Forall_inv_tail U') as UT'.
    assert (E1 : forall q, obj_rows (S (length (v :: z))) q (map ca (v :: z)) (map cb (v :: z)) = obj_rows (S (length z)) (q * ca v) (map ca z) (map cb z) ++ [q * cb v]).
    { intros q. cbn [map length]. rewrite <- (map_length ca z). apply obj_rows_cons. }
    assert (E2 : forall q, obj_rows (S (length (v :: z))) q (map ca (v' :: z')) (map cb (v' :: z')) = obj_rows (S (length z)) (q * ca v') (map ca z') (map cb z') ++ [q * cb v']).
    { intros q. cbn [map length]. rewrite <- L, <- (map_length ca z'). apply obj_rows_cons. }
    rewrite E1, E2 in *. apply weak_snoc in W as [W1 W2]; [|now rewrite !obj_rows_length]. pose proof (ca_unit v V) as [A1 A2]. pose proof (ca_unit v' V') as [A1' A2']. pose proof (cb_unit v V) as [B1 B2]. pose proof (cb_unit v' V') as [B1' B2'].
    assert (V1 : unit_ 1) by (split; lra). assert (V0 : unit_ 0) by (split; lra).
    assert (HRA : 0 <= r * ca v <= r' * ca v').
    { split; [nra|]. destruct (Req_dec r 0) as [->|N]; [nra|]. assert (cb v' <= cb v) by (apply Rnot_lt_le; intros K; nra). pose proof (cb_le_inv v' v V' V H) as HL. pose proof (ca_le v v' V V' HL). nra. }
    destruct (IH z' _ _ L UT UT' HRA W1) as [EQ ER].
    assert (R0 : r = r').
    { destruct (Req_dec r 0) as [->|N].
      - rewrite Rmult_0_l in *. destruct (Req_dec r' 0) as [|N']; auto. exfalso. assert (B0 : cb v' = 0) by nra. assert (v' = 1). { assert (1 <= v') by (apply (cb_le_inv v' 1 V' V1); rewrite B0; apply cb_unit, V1). destruct V'; lra. } subst v'.
        unfold ca in EQ. rewrite cu_1 in EQ. nra.
      - destruct (Req_dec (ca v) 0) as [Z|NZ].
        + rewrite Z, Rmult_0_r in EQ. assert (Z' : ca v' = 0) by nra. assert (E0 : v = v') by (apply ca_inj; auto; congruence). assert (v = 0) by (apply ca_inj; auto; unfold ca at 2; rewrite cu_0; lra). subst v' v. unfold cb in W2. rewrite su_0 in W2. lra.
        + assert (cb v' <= cb v) by (apply Rnot_lt_le; intros K; nra). pose proof (cb_le_inv v' v V' V H) as HL. pose proof (ca_le v v' V V' HL). nra. }
    split; auto. rewrite ER. f_equal. f_equal. subst r'. destruct (Req_dec r 0) as [->|N]; [ring|]. assert (ca v = ca v') by nra. apply ca_inj in H; auto. congruence.
Qed.
