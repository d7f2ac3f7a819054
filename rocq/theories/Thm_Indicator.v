(** * Theorems C65: the distance indicators GD, GD+, IGD, IGD+ *)
From Coq Require Import List Arith Bool Reals Lia Lra Permutation.
From Verif Require Import ListAux M_NSGA3R M_Indicator S_Indicator Thm_Decomp Thm_Norm Thm_NSGA3R.
Import ListNotations.
Local Open Scope R_scope.

Lemma cdist_spec d A B : cdist d A B = map (fun a => map (d a) B) A.
Proof.
  unfold cdist. assert (E : map2 d (flat_map (fun a => repeat a (length B)) A) (concat (repeat B (length A))) = flat_map (fun a => map (d a) B) A).
  { induction A as [|a A IH]; [reflexivity|]. cbn [flat_map length repeat concat].
    assert (HA : forall (l1 l2 : list (list R)) k1 k2, length l1 = length k1 -> map2 d (l1 ++ l2) (k1 ++ k2) = map2 d l1 k1 ++ map2 d l2 k2).
    { induction l1 as [|x l1 IH1]; intros l2 [|y k1] k2 HL; try discriminate; [reflexivity|]. cbn [app map2]. rewrite IH1 by (simpl in HL; lia). reflexivity. }
    rewrite HA by (rewrite repeat_length; auto). rewrite IH. f_equal. clear. induction B as [|b B IH]; [reflexivity|]. cbn [length repeat map2 map]. now rewrite IH. }
  rewrite E. apply (reshape_flat (fun a => map (d a) B)). intros x. apply map_length.
Qed.
Lemma rmin_spec l : l <> [] -> In (rmin_list l) l /\ forall x, In x l -> rmin_list l <= x.
Proof.
  destruct l as [|x l]; [congruence|]. intros _. cbn [rmin_list]. revert x; induction l as [|y l IH]; intros x; cbn [fold_left].
  - split; [simpl; auto|]. intros z [<-|[]]. lra.
  - destruct (IH (Rmin x y)) as [H1 H2]. split.
    + destruct H1 as [E|H1]; [rewrite <- E; unfold Rmin; destruct (Rle_dec x y); simpl; auto|simpl; auto].
    + intros z [<-|[<-|Hz]].
      * eapply Rle_trans; [apply H2; simpl; auto|]. apply Rmin_l.
      * eapply Rle_trans; [apply H2; simpl; auto|]. apply Rmin_r.
      * apply H2. simpl; auto.
Qed.
Lemma mean_min_axis1 {A B} (d : A -> B -> R) X Y : X <> [] -> Y <> [] -> mean_of_smallest d X Y (mean (map rmin_list (map (fun x => map (d x) Y) X))).
Proof.
  intros HX HY. exists (map rmin_list (map (fun x => map (d x) Y) X)). split.
  - clear HX. induction X as [|x X IH]; cbn [map]; constructor; auto. destruct (rmin_spec (map (d x) Y)) as [H1 H2]; [destruct Y; [congruence|discriminate]|]. split.
    + apply in_map_iff in H1 as (y & E & Hy). exists y. auto.
    + intros y Hy. apply H2, in_map; auto.
  - unfold mean. rewrite !map_length. unfold rsum. field. apply not_0_INR. destruct X; [congruence|discriminate].
Qed.
Lemma mean_min_axis0 {A B} (d : A -> B -> R) X Y : X <> [] -> Y <> [] ->
  mean_of_smallest (fun y x => d x y) Y X (mean (map (fun j => rmin_list (rcol j (map (fun x => map (d x) Y) X))) (seq 0 (length Y)))).
Proof.
  intros HX HY.
  assert (E : map (fun j => rmin_list (rcol j (map (fun x => map (d x) Y) X))) (seq 0 (length Y)) = map rmin_list (map (fun y => map (fun x => d x y) X) Y)).
  { destruct Y as [|y0 Y0]; [congruence|]. set (Y := y0 :: Y0) in *. rewrite map_map. apply nth_ext with (d := rmin_list (rcol 0 (map (fun x => map (d x) Y) X))) (d' := rmin_list (map (fun x => d x y0) X)); [rewrite !map_length, seq_length; auto|].
    intros n Hn. rewrite map_length, seq_length in Hn. rewrite (map_nth (fun j => rmin_list (rcol j (map (fun x => map (d x) Y) X)))), seq_nth by auto. cbn [Nat.add].
    rewrite (map_nth (fun y => rmin_list (map (fun x => d x y) X))). f_equal. unfold rcol. rewrite map_map. apply map_ext. intros x.
    rewrite (nth_indep _ 0 (d x y0)) by (rewrite map_length; auto). apply map_nth. }
  rewrite E. apply (mean_min_axis1 (fun y x => d x y)); auto.
Qed.
Lemma mos_ext {A B} (d d' : A -> B -> R) X Y v : (forall x y, In x X -> In y Y -> d x y = d' x y) -> mean_of_smallest d X Y v -> mean_of_smallest d' X Y v.
Proof.
  intros HE (l & HF & Hv). exists l. split; auto. clear Hv. induction HF as [|x s X l [(y & Hy & Es) Hs] HF IH]; constructor.
  - split; [exists y; split; auto; rewrite <- HE; simpl; auto|]. intros z Hz. rewrite <- HE by (simpl; auto). auto.
  - apply IH. intros a b Ha Hb. apply HE; simpl; auto.
Qed.
Lemma mos_map {A B A' B'} (f : A -> A') (g : B -> B') d X Y v : mean_of_smallest d (map f X) (map g Y) v -> mean_of_smallest (fun x y => d (f x) (g y)) X Y v.
Proof.
  intros (l & HF & Hv). exists l. rewrite map_length in Hv. split; auto. clear Hv. remember (map f X) as X' eqn:E. revert X E. induction HF as [|x s X' l [(y & Hy & Es) Hs] HF IH]; intros X E.
  - destruct X; [|discriminate]. constructor.
  - destruct X as [|x0 X]; [discriminate|]. injection E as -> ->. constructor; [|apply IH; auto]. apply in_map_iff in Hy as (y0 & <- & Hy). split; [exists y0; auto|].
    intros z Hz. apply Hs, in_map; auto.
Qed.
Lemma rsum_le l l' : Forall2 Rle l l' -> fold_right Rplus 0 l <= fold_right Rplus 0 l'.
Proof. induction 1; cbn [fold_right]; lra. Qed.
Lemma mos_length {A B} (d : A -> B -> R) X Y v : X <> [] -> mean_of_smallest d X Y v -> 0 < INR (length X).
Proof. intros HX _. apply lt_0_INR. destruct X; [congruence|simpl; lia]. Qed.
Lemma mos_nonneg {A B} (d : A -> B -> R) X Y v : X <> [] -> (forall x y, 0 <= d x y) -> mean_of_smallest d X Y v -> 0 <= v.
Proof.
  intros HX Hd HM. pose proof (mos_length _ _ _ _ HX HM) as Hn. destruct HM as (l & HF & Hv).
  assert (0 <= fold_right Rplus 0 l). { clear Hv HX Hn. induction HF as [|x s X l [(y & Hy & ->) Hs] HF IH]; cbn [fold_right]; [lra|]. specialize (Hd x y). lra. }
  apply Rmult_le_reg_r with (INR (length X)); auto. lra.
Qed.
Lemma mos_zero {A B} (d : A -> B -> R) X Y v : X <> [] -> (forall x y, 0 <= d x y) -> mean_of_smallest d X Y v -> (v = 0 <-> forall x, In x X -> exists y, In y Y /\ d x y = 0).
Proof.
  intros HX Hd HM. pose proof (mos_length _ _ _ _ HX HM) as Hn. destruct HM as (l & HF & Hv).
  assert (Hl : Forall (fun s => 0 <= s) l). { clear Hv HX Hn. induction HF as [|x s X l [(y & Hy & ->) Hs] HF IH]; constructor; auto. }
  assert (HZ : fold_right Rplus 0 l = 0 <-> Forall (fun s => s = 0) l).
  { clear - Hl. induction Hl as [|s l Hs Hl IH]; cbn [fold_right]; [split; auto|]. assert (0 <= fold_right Rplus 0 l). { clear IH. induction Hl; cbn [fold_right]; lra. }
    split; intros H1; [constructor; [lra|apply IH; lra]|]. inversion H1; subst. apply IH in H4. lra. }
  assert (Hv0 : v = 0 <-> fold_right Rplus 0 l = 0). { rewrite <- Hv. split; intros E; [rewrite E; lra|]. apply Rmult_integral in E as [E|E]; auto. lra. }
  rewrite Hv0, HZ. clear Hv0 HZ Hv Hn HX. induction HF as [|x s X l [(y & Hy & Es) Hs] HF IH].
  - split; [intros _ x []|constructor].
  - inversion Hl; subst. split.
    + intros HA. inversion HA; subst. intros x' [<-|Hx']; [exists y; auto|]. apply IH; auto.
    + intros HA. constructor; [|apply IH; auto; intros x' Hx'; apply HA; simpl; auto]. destruct (HA x (or_introl eq_refl)) as (y' & Hy' & E'). specialize (Hs y' Hy'). lra.
Qed.
Lemma mos_mono {A B A' B'} (d : A -> B -> R) (d' : A' -> B' -> R) X Y X' Y' v v' : X <> [] ->
  Forall2 (fun x x' => forall y', In y' Y' -> exists y, In y Y /\ d x y <= d' x' y') X X' -> mean_of_smallest d X Y v -> mean_of_smallest d' X' Y' v' -> v <= v'.
Proof.
  intros HX HF2 HM HM'. pose proof (mos_length _ _ _ _ HX HM) as Hn. destruct HM as (l & HF & Hv). destruct HM' as (l' & HF' & Hv').
  assert (HL : length X = length X') by (clear - HF2; induction HF2; simpl; auto).
  assert (Hll : Forall2 Rle l l').
  { clear Hv Hv' Hn HX HL. revert l l' HF HF'. induction HF2 as [|x x' X X' Hx HF2 IH]; intros l l' HF HF'; inversion HF as [|? s1 ? l1 A1 A2 E1 E2]; subst; inversion HF' as [|? s2 ? l2 B1 B2 E3 E4]; subst; constructor; auto.
    destruct A1 as [_ A1]. destruct B1 as [(y' & Hy' & ->) _]. destruct (Hx y' Hy') as (y & Hy & Hle). specialize (A1 y Hy). lra. }
  apply rsum_le in Hll. rewrite <- Hv, <- Hv', <- HL in Hll. apply Rmult_le_reg_r with (INR (length X)); auto.
Qed.

(** ** the value *)
(** the scale of objective [j]: range of the ideal and nadir points under zero_to_one or norm_by_dist, 1 otherwise (and for an empty range under
    zero_to_one) *)
Definition scale (m : nat) (zto by_dist : bool) (pf : list (list R)) (ideal nadir : option (list R)) (j : nat) : R :=
  let c := conf false 0 zto by_dist pf ideal nadir in
  let l := nth j (ideal_of m c) 0 in let u := nth j (nadir_of m c) 0 in
  if zto then (if Req_EM_T l u then 1 else u - l) else if by_dist then u - l else 1.
(** difference of solution [f] and front point [p]; for the plus indicators only how much [f] is worse *)
Definition diff (plus : bool) (f p : list R) (j : nat) : R := if plus then Rmax 0 (nth j f 0 - nth j p 0) else nth j f 0 - nth j p 0.
Definition distance (plus : bool) (m : nat) (s : nat -> R) (f p : list R) : R := dist2 m s (diff plus f p).
(** the arguments fit: points with [m] coordinates, ideal at most nadir (less, if distances are divided by the range) *)
Definition fits (m : nat) (zto by_dist : bool) (pf : list (list R)) (ideal nadir : option (list R)) : Prop :=
  points m pf /\ (forall v, ideal = Some v -> length v = m) /\ (forall v, nadir = Some v -> length v = m) /\
  let c := conf false 0 zto by_dist pf ideal nadir in
  forall j, (j < m)%nat -> (zto = true -> nth j (ideal_of m c) 0 <= nth j (nadir_of m c) 0) /\ (zto = false -> by_dist = true -> nth j (ideal_of m c) 0 < nth j (nadir_of m c) 0).
Lemma scale_pos m zto by_dist pf ideal nadir j : fits m zto by_dist pf ideal nadir -> (j < m)%nat -> 0 < scale m zto by_dist pf ideal nadir j.
Proof.
  intros (_ & _ & _ & H) Hj. destruct (H j Hj) as [H1 H2]. unfold scale. destruct zto; [|destruct by_dist; [specialize (H2 eq_refl eq_refl); lra|lra]].
  specialize (H1 eq_refl). destruct (Req_EM_T _ _); lra.
Qed.
Lemma ideal_length m plus a zto by_dist pf ideal nadir : (forall v, ideal = Some v -> length v = m) -> length (ideal_of m (conf plus a zto by_dist pf ideal nadir)) = m.
Proof. intros H. unfold ideal_of. cbn [conf i_ideal]. destruct ideal as [v|]; [auto|]. now rewrite map_length, seq_length. Qed.
Lemma nadir_length m plus a zto by_dist pf ideal nadir : (forall v, nadir = Some v -> length v = m) -> length (nadir_of m (conf plus a zto by_dist pf ideal nadir)) = m.
Proof. intros H. unfold nadir_of. cbn [conf i_nadir]. destruct nadir as [v|]; [auto|]. now rewrite map_length, seq_length. Qed.
Lemma nth_repeat_R (x : R) m j d : (j < m)%nat -> nth j (repeat x m) d = x.
Proof. revert j; induction m; intros [|j] Hj; simpl; try lia; auto. apply IHm. lia. Qed.
Lemma rsum_sum_to m l f : length l = m -> (forall j, (j < m)%nat -> nth j l 0 = f j) -> rsum l = sum_to m f.
Proof.
  revert l; induction m as [|m IH]; intros l HL H; [destruct l; [reflexivity|discriminate]|].
  destruct l as [|x l'] using rev_ind; [discriminate|]. clear IHl'. rewrite app_length in HL. cbn [length] in HL. cbn [sum_to]. rewrite <- (IH l').
  - specialize (H m ltac:(lia)). rewrite app_nth2 in H by lia. replace (m - length l')%nat with 0%nat in H by lia. cbn [nth] in H. rewrite <- H. unfold rsum. rewrite fold_right_app. cbn [fold_right].
    clear. induction l'; cbn [fold_right]; lra.
  - lia.
  - intros j Hj. rewrite <- H by lia. rewrite app_nth1; auto. lia.
Qed.
Lemma sum_to_ext m f g : (forall j, (j < m)%nat -> f j = g j) -> sum_to m f = sum_to m g.
Proof. intros H. induction m; cbn [sum_to]; auto. rewrite IHm, H by auto. reflexivity. Qed.

Lemma forward_nth m c X r : points m X -> length (ideal_of m c) = m -> length (nadir_of m c) = m -> In r X -> exists r', forward m c X = map (fun r => if i_zero_to_one c then map2 (fun lu x => to_unit (fst lu) (snd lu) x) (combine (ideal_of m c) (nadir_of m c)) r else r) X /\
  r' = (if i_zero_to_one c then map2 (fun lu x => to_unit (fst lu) (snd lu) x) (combine (ideal_of m c) (nadir_of m c)) r else r) /\ length r' = m /\
  forall j, (j < m)%nat -> nth j r' 0 = if i_zero_to_one c then to_unit (nth j (ideal_of m c) 0) (nth j (nadir_of m c) 0) (nth j r 0) else nth j r 0.
Proof.
  intros [HX HL] L1 L2 Hr. eexists. split; [|split; [reflexivity|]].
  - unfold forward. destruct (i_zero_to_one c); [reflexivity|]. now rewrite map_id.
  - specialize (HL r Hr). destruct (i_zero_to_one c); [|split; auto]. split; [rewrite length_map2, combine_length; lia|]. intros j Hj.
    rewrite (map2_nth _ _ _ j 0 (0, 0) 0) by (rewrite ?combine_length; lia). rewrite combine_nth by lia. reflexivity.
Qed.

(** the distance between normalised points is the scaled distance of the points *)
Lemma dist_scaled m plus a zto by_dist pf ideal nadir f p F : fits m zto by_dist pf ideal nadir -> points m F -> In f F -> In p pf ->
  let c := conf plus a zto by_dist pf ideal nadir in
  let g := fun r => if zto then map2 (fun lu x => to_unit (fst lu) (snd lu) x) (combine (ideal_of m c) (nadir_of m c)) r else r in
  (if plus then modified_distance (dist_norm m c) else euclidean_distance (dist_norm m c)) (g p) (g f) = distance plus m (scale m zto by_dist pf ideal nadir) f p.
Proof.
  intros HFit HF Hf Hp c g. pose proof HFit as (HPF & HI & HN & HFj).
  assert (LI : length (ideal_of m c) = m) by (apply ideal_length; auto). assert (LN : length (nadir_of m c) = m) by (apply nadir_length; auto).
  destruct (forward_nth m c F f HF LI LN Hf) as (f' & _ & Ef & Lf & Nf). destruct (forward_nth m c pf p HPF LI LN Hp) as (p' & _ & Ep & Lp & Np). cbn [c conf i_zero_to_one] in Ef, Ep, Nf, Np.
  assert (Gf : g f = f') by (rewrite Ef; reflexivity). assert (Gp : g p = p') by (rewrite Ep; reflexivity). rewrite Gf, Gp. clear Ef Ep Gf Gp g.
  assert (LD : length (dist_norm m c) = m).
  { unfold dist_norm. destruct (i_norm_by_dist c); [destruct (i_zero_to_one c)|]; rewrite ?length_map2, ?repeat_length, ?LI, ?LN; lia. }
  assert (ED : forall j, (j < m)%nat -> nth j (dist_norm m c) 0 = if by_dist then if zto then 1 else nth j (nadir_of m c) 0 - nth j (ideal_of m c) 0 else 1).
  { intros j Hj. unfold dist_norm. cbn [c conf i_norm_by_dist i_zero_to_one]. destruct by_dist; [destruct zto|].
    - rewrite (map2_nth _ _ _ j 0 0 0) by (rewrite repeat_length; auto). rewrite !nth_repeat_R by auto. lra.
    - fold c. rewrite (map2_nth _ _ _ j 0 0 0) by lia. reflexivity.
    - apply nth_repeat_R; auto. }
  assert (Main : forall j, (j < m)%nat -> (nth j f' 0 - nth j p' 0) / nth j (dist_norm m c) 0 = (nth j f 0 - nth j p 0) / scale m zto by_dist pf ideal nadir j).
  { intros j Hj. rewrite ED, Nf, Np by auto. pose proof (scale_pos m zto by_dist pf ideal nadir j HFit Hj) as HS. destruct (HFj j Hj) as [F1 F2].
    unfold scale in *. change (ideal_of m (conf false 0 zto by_dist pf ideal nadir)) with (ideal_of m c) in *. change (nadir_of m (conf false 0 zto by_dist pf ideal nadir)) with (nadir_of m c) in *.
    destruct zto.
    - unfold to_unit. destruct (Req_EM_T _ _); destruct by_dist; field; lra.
    - destruct by_dist; reflexivity. }
  assert (Pos : forall j, (j < m)%nat -> 0 < nth j (dist_norm m c) 0).
  { intros j Hj. rewrite ED by auto. destruct (HFj j Hj) as [F1 F2]. destruct by_dist; [destruct zto; [lra|]|lra]. specialize (F2 eq_refl eq_refl).
    change (ideal_of m (conf false 0 false true pf ideal nadir)) with (ideal_of m c) in *. change (nadir_of m (conf false 0 false true pf ideal nadir)) with (nadir_of m c) in *. lra. }
  unfold distance, dist2, modified_distance, euclidean_distance, diff. destruct plus; f_equal; apply rsum_sum_to.
  - rewrite length_map2, map_length, length_map2. lia.
  - intros j Hj. rewrite (map2_nth _ _ _ j 0 0 0) by (rewrite ?map_length, ?length_map2; lia).
    rewrite (nth_indep _ 0 ((fun x => if Rlt_dec x 0 then 0 else x) 0)) by (rewrite map_length, length_map2; lia). rewrite (map_nth (fun x => if Rlt_dec x 0 then 0 else x)).
    rewrite (map2_nth _ _ _ j 0 0 0) by lia. f_equal. specialize (Main j Hj). specialize (Pos j Hj). pose proof (scale_pos m zto by_dist pf ideal nadir j HFit Hj) as HS.
    set (s := scale m zto by_dist pf ideal nadir j) in *. set (n := nth j (dist_norm m c) 0) in *. set (d := nth j f 0 - nth j p 0) in *. set (d' := nth j f' 0 - nth j p' 0) in *.
    assert (Hd : d' * s = d * n). { apply (f_equal (fun x => x * n * s)) in Main. field_simplify in Main; lra. }
    destruct (Rlt_dec d' 0) as [Hneg|Hpos].
    + rewrite Rmax_left; [lra|]. assert (d' * s < 0) by nra. rewrite Hd in H. destruct (Rle_dec d 0); auto. nra.
    + rewrite Rmax_right; [auto|]. assert (0 <= d' * s) by nra. rewrite Hd in H. destruct (Rle_dec 0 d); auto. nra.
  - rewrite !length_map2. lia.
  - intros j Hj. rewrite (map2_nth _ _ _ j 0 0 0) by (rewrite ?length_map2; lia). rewrite (map2_nth _ _ _ j 0 0 0) by lia. rewrite <- Main by auto.
    unfold Rdiv. rewrite <- (Rmult_1_l (nth j p' 0 - nth j f' 0)). ring.
Qed.

(** C65: GD and GD+ are the mean over the solutions of the (scaled, for GD+ one-sided) distance to the nearest point of the front *)
Theorem C65_gd : forall plus m zto by_dist pf ideal nadir F, fits m zto by_dist pf ideal nadir -> points m F ->
  mean_of_smallest (distance plus m (scale m zto by_dist pf ideal nadir)) F pf (gd plus m zto by_dist pf ideal nadir F).
Proof.
  intros plus m zto by_dist pf ideal nadir F HFit HF. unfold gd. set (c := conf plus 0 zto by_dist pf ideal nadir).
  assert (E : indicator_do m c (dist_do m c) F = dist_do m c (forward m c pf) (forward m c F)) by (destruct F; [destruct HF; congruence|reflexivity]). rewrite E. clear E.
  pose proof HFit as (HPF & HI & HN & _). unfold dist_do. cbn [c conf i_axis min_axis]. rewrite cdist_spec.
  set (g := fun r => if zto then map2 (fun lu x => to_unit (fst lu) (snd lu) x) (combine (ideal_of m c) (nadir_of m c)) r else r).
  assert (EF : forall X, forward m c X = map g X).
  { intros X. unfold forward, g. cbn [c conf i_zero_to_one]. destruct zto; [reflexivity|]. now rewrite map_id. }
  rewrite !EF. eapply mos_ext; [|apply (mos_map g g (fun y x => (if plus then modified_distance (dist_norm m c) else euclidean_distance (dist_norm m c)) x y)), (mean_min_axis0 (if plus then modified_distance (dist_norm m c) else euclidean_distance (dist_norm m c)))].
  - intros x y Hx Hy. apply (dist_scaled m plus 0 zto by_dist pf ideal nadir x y F); auto.
  - destruct HPF as [HPF _]. destruct pf; [congruence|discriminate].
  - destruct HF as [HF _]. destruct F; [congruence|discriminate].
Qed.
Print Assumptions C65_gd.

(** contract of moocore's igd and igd_plus *)
Definition moo_ok (plus : bool) (m : nat) (moo : list (list R) -> list (list R) -> R) : Prop :=
  forall F ref, points m F -> points m ref -> mean_of_smallest (fun p f => distance plus m (fun _ => 1) f p) ref F (moo F ref).
(** C65: IGD and IGD+ are the mean over the front of the distance to the nearest solution *)
Theorem C65_igd : forall moo plus m zto by_dist pf ideal nadir F, moo_ok plus m moo -> fits m zto by_dist pf ideal nadir -> points m F ->
  mean_of_smallest (fun p f => distance plus m (scale m zto by_dist pf ideal nadir) f p) pf F (igd moo plus m zto by_dist pf ideal nadir F).
Proof.
  intros moo plus m zto by_dist pf ideal nadir F HM HFit HF. unfold igd. set (c := conf plus 1 zto by_dist pf ideal nadir).
  set (inner := fun pf0 F0 => if by_dist then dist_do m c pf0 F0 else moo F0 pf0).
  assert (E : indicator_do m c inner F = inner (forward m c pf) (forward m c F)) by (destruct F; [destruct HF; congruence|reflexivity]). rewrite E. clear E. unfold inner.
  pose proof HFit as (HPF & HI & HN & _).
  set (g := fun r => if zto then map2 (fun lu x => to_unit (fst lu) (snd lu) x) (combine (ideal_of m c) (nadir_of m c)) r else r).
  assert (EF : forall X, forward m c X = map g X).
  { intros X. unfold forward, g. cbn [c conf i_zero_to_one]. destruct zto; [reflexivity|]. now rewrite map_id. }
  assert (LI : length (ideal_of m c) = m) by (apply ideal_length; auto). assert (LN : length (nadir_of m c) = m) by (apply nadir_length; auto).
  assert (PG : forall X, points m X -> points m (map g X)).
  { intros X [H1 H2]. split; [destruct X; [congruence|discriminate]|]. intros r Hr. apply in_map_iff in Hr as (r0 & <- & Hr0). destruct (forward_nth m c X r0 (conj H1 H2) LI LN Hr0) as (r' & _ & E & L & _). rewrite <- L, E. reflexivity. }
  rewrite !EF. destruct by_dist.
  - unfold dist_do. cbn [c conf i_axis min_axis]. rewrite cdist_spec.
    eapply mos_ext; [|apply (mos_map g g (fun x y => (if plus then modified_distance (dist_norm m c) else euclidean_distance (dist_norm m c)) x y)), (mean_min_axis1 (fun x y => (if plus then modified_distance (dist_norm m c) else euclidean_distance (dist_norm m c)) x y))].
    + intros x y Hx Hy. apply (dist_scaled m plus 1 zto true pf ideal nadir y x F); auto.
    + destruct HPF as [HPF _]. destruct pf; [congruence|discriminate].
    + destruct HF as [HF _]. destruct F; [congruence|discriminate].
  - eapply mos_ext; [|apply (mos_map g g (fun p f => distance plus m (fun _ => 1) f p)), HM; auto].
    intros p f Hp Hf. rewrite <- (dist_scaled m plus 1 zto false pf ideal nadir f p F) by auto. fold c g.
    destruct (forward_nth m c F f HF LI LN Hf) as (f' & _ & Ef & Lf & _). destruct (forward_nth m c pf p HPF LI LN Hp) as (p' & _ & Ep & Lp & _). cbn [c conf i_zero_to_one] in Ef, Ep.
    change (g f) with (if zto then map2 (fun lu x => to_unit (fst lu) (snd lu) x) (combine (ideal_of m c) (nadir_of m c)) f else f). change (g p) with (if zto then map2 (fun lu x => to_unit (fst lu) (snd lu) x) (combine (ideal_of m c) (nadir_of m c)) p else p).
    rewrite <- Ef, <- Ep. unfold dist_norm. cbn [c conf i_norm_by_dist]. symmetry.
    pose proof (dist_scaled m plus 1 false false [p'] None None f' p' [f']) as HD. cbv zeta in HD. unfold dist_norm in HD. cbn [conf i_norm_by_dist] in HD. rewrite HD; [reflexivity| | |simpl; auto|simpl; auto].
    + split; [split; [discriminate|intros r [<-|[]]; auto]|]. split; [discriminate|]. split; [discriminate|]. intros j Hj. split; discriminate.
    + split; [discriminate|]. intros r [<-|[]]. auto.
Qed.
Print Assumptions C65_igd.

(** ** laws *)
Lemma sum_to_nonneg m f : (forall j, (j < m)%nat -> 0 <= f j) -> 0 <= sum_to m f.
Proof. induction m; intros H; cbn [sum_to]; [lra|]. specialize (IHm ltac:(auto)). specialize (H m ltac:(lia)). lra. Qed.
Lemma sum_to_zero m f : (forall j, (j < m)%nat -> 0 <= f j) -> (sum_to m f = 0 <-> forall j, (j < m)%nat -> f j = 0).
Proof.
  induction m as [|m IH]; intros H; cbn [sum_to]; [split; auto; intros; lia|]. pose proof (sum_to_nonneg m f ltac:(auto)). pose proof (H m ltac:(lia)).
  split.
  - intros E j Hj. destruct (Nat.eq_dec j m) as [->|]; [lra|]. apply IH; auto; [lra|lia].
  - intros E. rewrite (E m) by lia. replace (sum_to m f) with 0; [lra|]. symmetry. apply IH; auto.
Qed.
Lemma sum_to_le m f g : (forall j, (j < m)%nat -> f j <= g j) -> sum_to m f <= sum_to m g.
Proof. induction m; intros H; cbn [sum_to]; [lra|]. specialize (IHm ltac:(auto)). specialize (H m ltac:(lia)). lra. Qed.
Lemma distance_nonneg plus m s f p : 0 <= distance plus m s f p.
Proof. apply sqrt_pos. Qed.
Lemma distance_zero plus m s f p : (forall j, (j < m)%nat -> 0 < s j) ->
  (distance plus m s f p = 0 <-> if plus then weakly_better m f p else same_point m f p).
Proof.
  intros Hs. unfold distance, dist2. assert (HP : forall j, (j < m)%nat -> 0 <= (diff plus f p j / s j) ^ 2) by (intros; apply pow2_ge_0).
  assert (E : sqrt (sum_to m (fun j => (diff plus f p j / s j) ^ 2)) = 0 <-> forall j, (j < m)%nat -> diff plus f p j = 0).
  { assert (H1 : sqrt (sum_to m (fun j => (diff plus f p j / s j) ^ 2)) = 0 <-> sum_to m (fun j => (diff plus f p j / s j) ^ 2) = 0).
    { split; [apply sqrt_eq_0, sum_to_nonneg; auto|intros ->; apply sqrt_0]. }
    rewrite H1, sum_to_zero by auto. split; intros H j Hj.
    - specialize (H j Hj). specialize (Hs j Hj). apply Rsqr_0_uniq in H || (rewrite <- Rsqr_pow2 in H; apply Rsqr_0_uniq in H). unfold Rdiv in H. apply Rmult_integral in H as [H|H]; auto. pose proof (Rinv_0_lt_compat _ Hs). lra.
    - rewrite H by auto. unfold Rdiv. ring. }
  rewrite E. unfold diff. destruct plus; split; intros H j Hj; specialize (H j Hj).
  - unfold Rmax in H. destruct (Rle_dec 0 (nth j f 0 - nth j p 0)); lra.
  - apply Rmax_left. lra.
  - lra.
  - lra.
Qed.
Lemma distance_mono m s f f' p : (forall j, (j < m)%nat -> 0 < s j) -> weakly_better m f f' -> distance true m s f p <= distance true m s f' p.
Proof.
  intros Hs H. apply sqrt_le_1_alt, sum_to_le. intros j Hj. unfold diff. specialize (Hs j Hj). specialize (H j Hj). apply pow_incr. split.
  - apply Rmult_le_pos; [apply Rmax_l|left; now apply Rinv_0_lt_compat].
  - apply Rmult_le_compat_r; [left; now apply Rinv_0_lt_compat|]. apply Rle_max_compat_l. lra.
Qed.

(** C65: never negative; zero exactly when every solution is on the front (GD), no worse than some front point (GD+), every front point is
    found (IGD), every front point is weakly dominated by some solution (IGD+) *)
Theorem C65_zero : forall moo plus m zto by_dist pf ideal nadir F, moo_ok plus m moo -> fits m zto by_dist pf ideal nadir -> points m F ->
  let reached f p := if plus then weakly_better m f p else same_point m f p in
  let g := gd plus m zto by_dist pf ideal nadir F in let ig := igd moo plus m zto by_dist pf ideal nadir F in
  0 <= g /\ 0 <= ig /\ (g = 0 <-> forall f, In f F -> exists p, In p pf /\ reached f p) /\ (ig = 0 <-> forall p, In p pf -> exists f, In f F /\ reached f p).
Proof.
  intros moo plus m zto by_dist pf ideal nadir F HM HFit HF. cbv zeta.
  pose proof (C65_gd plus _ _ _ _ _ _ _ HFit HF) as HG. pose proof (C65_igd moo plus _ _ _ _ _ _ _ HM HFit HF) as HI.
  assert (HS : forall j, (j < m)%nat -> 0 < scale m zto by_dist pf ideal nadir j) by (intros; now apply scale_pos). pose proof HF as [HF0 _]. pose proof HFit as [[HP0 _] _].
  split; [eapply mos_nonneg; [|intros; apply distance_nonneg|exact HG]; auto|]. split; [eapply mos_nonneg; [| |exact HI]; auto; intros; apply distance_nonneg|].
  rewrite (mos_zero _ _ _ _ HF0 ltac:(intros; apply distance_nonneg) HG). rewrite (mos_zero _ _ _ _ HP0 ltac:(intros; apply distance_nonneg) HI).
  split; split; intros H x Hx; destruct (H x Hx) as (y & Hy & E); exists y; (split; [auto|]); apply (distance_zero plus m _ _ _ HS); auto.
Qed.
Print Assumptions C65_zero.

(** C65: adding solutions never makes IGD or IGD+ worse; neither do their order and repetitions matter *)
Theorem C65_add : forall moo plus m zto by_dist pf ideal nadir F G, moo_ok plus m moo -> fits m zto by_dist pf ideal nadir -> points m F -> points m G ->
  (forall f, In f F -> In f G) -> igd moo plus m zto by_dist pf ideal nadir G <= igd moo plus m zto by_dist pf ideal nadir F.
Proof.
  intros moo plus m zto by_dist pf ideal nadir F G HM HFit HF HG HI. pose proof HFit as [[HP0 _] _].
  pose proof (C65_igd moo plus _ _ _ _ _ _ _ HM HFit HG) as H1. pose proof (C65_igd moo plus _ _ _ _ _ _ _ HM HFit HF) as H2. eapply mos_mono; [exact HP0| |exact H1|exact H2].
  clear H1 H2 HP0 HFit HM. set (s := scale _ _ _ _ _ _) in *. clearbody s. induction pf as [|p l IH]; constructor; auto. intros y Hy. exists y. split; auto. apply Rle_refl.
Qed.
Print Assumptions C65_add.

(** C65: IGD+ and GD+ agree with dominance: if every solution of G is weakly dominated by one of F, F is at least as good under IGD+;
    improving each solution improves GD+ *)
Theorem C65_compliant : forall moo m zto by_dist pf ideal nadir F G, moo_ok true m moo -> fits m zto by_dist pf ideal nadir -> points m F -> points m G ->
  ((forall g, In g G -> exists f, In f F /\ weakly_better m f g) -> igd moo true m zto by_dist pf ideal nadir F <= igd moo true m zto by_dist pf ideal nadir G) /\
  (Forall2 (weakly_better m) F G -> gd true m zto by_dist pf ideal nadir F <= gd true m zto by_dist pf ideal nadir G).
Proof.
  intros moo m zto by_dist pf ideal nadir F G HM HFit HF HG. pose proof HFit as [[HP0 _] _].
  assert (HS : forall j, (j < m)%nat -> 0 < scale m zto by_dist pf ideal nadir j) by (intros; now apply scale_pos). split.
  - intros HD. pose proof (C65_igd moo true _ _ _ _ _ _ _ HM HFit HF) as H1. pose proof (C65_igd moo true _ _ _ _ _ _ _ HM HFit HG) as H2. eapply mos_mono; [exact HP0| |exact H1|exact H2].
    clear H1 H2 HP0 HFit HM. set (s := scale _ _ _ _ _ _) in *. clearbody s. induction pf as [|p l IH]; constructor; auto. intros g Hg. destruct (HD g Hg) as (f & Hf & Hw). exists f. split; auto. apply distance_mono; auto.
  - intros HD. pose proof HF as [HF0 _]. eapply mos_mono; [exact HF0| |apply C65_gd; auto|apply C65_gd; auto].
    clear HF0 HF HG. induction HD as [|f g F G Hfg HD IH]; constructor; auto. intros p Hp. exists p. split; auto. apply distance_mono; auto.
Qed.
Print Assumptions C65_compliant.

(** moocore's functions can be computed; used for the examples *)
Definition moo_ref (plus : bool) (m : nat) (F ref : list (list R)) : R := mean (map rmin_list (map (fun p => map (fun f => distance plus m (fun _ => 1) f p) F) ref)).
Lemma moo_ref_ok plus m : moo_ok plus m (moo_ref plus m).
Proof. intros F ref [H1 _] [H2 _]. apply (mean_min_axis1 (fun p f => distance plus m (fun _ => 1) f p)); auto. Qed.
Lemma points2 l : Forall (fun r : list R => length r = 2%nat) l -> l <> [] -> points 2 l.
Proof. intros H1 H2. split; auto. now apply Forall_forall. Qed.
Lemma fits_plain m pf : points m pf -> fits m false false pf None None.
Proof. intros H. split; auto. split; [discriminate|]. split; [discriminate|]. intros j Hj. split; discriminate. Qed.

(** C65, refuted for IGD: the set {(5, 8)} dominates {(14, 8)}, yet its IGD with respect to the front {(20, 0), (5, 5)} is worse *)
Theorem C65_igd_compliance_refuted : ~ (forall moo m zto by_dist pf ideal nadir F G, moo_ok false m moo -> fits m zto by_dist pf ideal nadir -> points m F -> points m G ->
  (forall g, In g G -> exists f, In f F /\ weakly_better m f g) -> igd moo false m zto by_dist pf ideal nadir F <= igd moo false m zto by_dist pf ideal nadir G).
Proof.
  intros H. set (pf := [[20; 0]; [5; 5]]). set (F := [[5; 8]]). set (G := [[14; 8]]).
  assert (PF : points 2 pf) by (apply points2; [repeat constructor|discriminate]). assert (P1 : points 2 F) by (apply points2; [repeat constructor|discriminate]). assert (P2 : points 2 G) by (apply points2; [repeat constructor|discriminate]).
  specialize (H (moo_ref false 2) 2%nat false false pf None None F G (moo_ref_ok _ _) (fits_plain _ _ PF) P1 P2).
  pose proof (C65_igd _ _ _ _ _ _ _ _ _ (moo_ref_ok false 2) (fits_plain _ _ PF) P1) as H1. pose proof (C65_igd _ _ _ _ _ _ _ _ _ (moo_ref_ok false 2) (fits_plain _ _ PF) P2) as H2.
  set (a := igd (moo_ref false 2) false 2 false false pf None None F) in *. set (b := igd (moo_ref false 2) false 2 false false pf None None G) in *.
  assert (HW : a <= b). { apply H. intros g [<-|[]]. exists [5; 8]. split; [simpl; auto|]. intros [|[|j]] Hj; simpl; try lra; lia. }
  clear H. clearbody a b.
  assert (HS : forall f p, distance false 2 (scale 2 false false pf None None) f p = sqrt ((nth 0 f 0 - nth 0 p 0) ^ 2 + (nth 1 f 0 - nth 1 p 0) ^ 2)).
  { intros f p. unfold distance, dist2, diff, scale. f_equal. cbn [sum_to]. rewrite !Rdiv_1_r || (unfold Rdiv; rewrite Rinv_1). ring. }
  assert (HV : forall f v, mean_of_smallest (fun p f => distance false 2 (scale 2 false false pf None None) f p) pf [f] v ->
    v * 2 = sqrt ((nth 0 f 0 - 20) ^ 2 + (nth 1 f 0 - 0) ^ 2) + sqrt ((nth 0 f 0 - 5) ^ 2 + (nth 1 f 0 - 5) ^ 2)).
  { intros f v (l & HF & Hv). unfold pf in HF. inversion HF as [|? s1 ? l1 [(y1 & [<-|[]] & E1) _] HF' X1 X2]; subst. inversion HF' as [|? s2 ? l2 [(y2 & [<-|[]] & E2) _] HF'' X3 X4]; subst. inversion HF''; subst.
    rewrite !HS in Hv. cbn [fold_right pf length nth] in Hv. change (INR 2) with 2 in Hv || (simpl INR in Hv). lra. }
  apply HV in H1. apply HV in H2. cbn [nth] in H1, H2.
  replace ((5 - 20) ^ 2 + (8 - 0) ^ 2) with (17 * 17) in H1 by ring. replace ((5 - 5) ^ 2 + (8 - 5) ^ 2) with (3 * 3) in H1 by ring.
  replace ((14 - 20) ^ 2 + (8 - 0) ^ 2) with (10 * 10) in H2 by ring. rewrite !sqrt_square in H1 by lra. rewrite sqrt_square in H2 by lra.
  assert (H90 : sqrt ((14 - 5) ^ 2 + (8 - 5) ^ 2) < 10). { rewrite <- (sqrt_square 10) by lra. apply sqrt_lt_1_alt. lra. }
  lra.
Qed.
Print Assumptions C65_igd_compliance_refuted.

(** C65, refuted: an empty set of solutions is not better than any other - it is given the best possible value, 0 *)
Theorem C65_empty : forall moo plus m zto by_dist pf ideal nadir, gd plus m zto by_dist pf ideal nadir [] = 0 /\ igd moo plus m zto by_dist pf ideal nadir [] = 0.
Proof. split; reflexivity. Qed.
Print Assumptions C65_empty.
Theorem C65_empty_refuted : ~ (forall moo plus m zto by_dist pf ideal nadir F, moo_ok plus m moo -> fits m zto by_dist pf ideal nadir -> points m F ->
  igd moo plus m zto by_dist pf ideal nadir F <= igd moo plus m zto by_dist pf ideal nadir []).
Proof.
  intros H. set (pf := [[0; 0]]). set (F := [[1; 1]]).
  assert (PF : points 2 pf) by (apply points2; [repeat constructor|discriminate]). assert (P1 : points 2 F) by (apply points2; [repeat constructor|discriminate]).
  specialize (H (moo_ref true 2) true 2%nat false false pf None None F (moo_ref_ok _ _) (fits_plain _ _ PF) P1).
  destruct (C65_zero (moo_ref true 2) true 2 false false pf None None F (moo_ref_ok _ _) (fits_plain _ _ PF) P1) as (_ & H1 & _ & H2).
  destruct (C65_empty (moo_ref true 2) true 2 false false pf None None) as [_ E]. rewrite E in H.
  assert (E0 : igd (moo_ref true 2) true 2 false false pf None None F = 0) by lra. apply H2 with (p := [0; 0]) in E0; [|simpl; auto]. destruct E0 as (f & [<-|[]] & HW).
  specialize (HW 0%nat ltac:(lia)). simpl in HW. lra.
Qed.
Print Assumptions C65_empty_refuted.
(** all options together *)
Lemma C65_case : fits 2 true true [[0; 4]; [1; 1]; [3; 0]] None (Some [5; 5]) /\ points 2 [[2; 2]; [0; 7]].
Proof.
  split; [split; [apply points2; [repeat constructor|discriminate]|]|apply points2; [repeat constructor|discriminate]]. split; [discriminate|]. split; [intros v E; now injection E as <-|].
  intros c; subst c; intros [|[|j]] Hj; [| |lia]; (split; [|discriminate]); intros _; unfold ideal_of, nadir_of, rmin_list, rcol; cbn; unfold Rmin; repeat destruct (Rle_dec _ _); lra.
Qed.
