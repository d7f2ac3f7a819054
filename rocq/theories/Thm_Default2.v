(** * C101: the default terminations: when they stop *)
From Coq Require Import List Arith Bool QArith Qabs Lia Lqa.
From Verif Require Import ListAux M_Termination P_Termination Thm_Termination M_Default Thm_Default.
Import ListNotations.
Local Open Scope nat_scope.

(** ** specification *)
(** the best objective value of a feasible member of the optimum; the least constraint violation in it *)
Definition best_feasible {X} (o : tobs X) (b : Q) : Prop :=
  (exists k row, nth_error (ob_F o) k = Some row /\ nth_error (ob_feas o) k = Some true /\ b = hd 0%Q row) /\
  (forall k row, nth_error (ob_F o) k = Some row -> nth_error (ob_feas o) k = Some true -> (b <= hd 0%Q row)%Q).
Definition least_cv {X} (o : tobs X) (c : Q) : Prop := In c (ob_cv o) /\ forall c', In c' (ob_cv o) -> (c <= c')%Q.
Definition nothing_feasible {X} (o : tobs X) : Prop := ob_constr o = true /\ ~ In true (ob_feas o).
(** for at least the last [period] observations (all of which take [part]) nothing moved away by more than the tolerance from one earlier observation *)
Definition stalled {X} (part : tobs X -> Prop) (close : tobs X -> tobs X -> Prop) (period : nat) (os : list (tobs X)) : Prop :=
  exists s o, s + period < length os /\ nth_error os s = Some o /\ part o /\
    (forall i o', s < i -> nth_error os i = Some o' -> part o' -> close o o') /\
    (forall i o', length os - period <= i -> nth_error os i = Some o' -> part o').
Definition x_close {X} (dx : X -> X -> option Q) (xtol : Q) (o o' : tobs X) : Prop := exists d, dx (ob_x o) (ob_x o') = Some d /\ (d <= xtol)%Q.
Definition cv_close {X} (cvtol : Q) (o o' : tobs X) : Prop := exists c c', least_cv o c /\ least_cv o' c' /\ (c - c' <= cvtol)%Q.
Definition f_close {X} (ftol : Q) (o o' : tobs X) : Prop := exists b b', best_feasible o b /\ best_feasible o' b' /\ (b - b' <= ftol)%Q.
(** ideal and nadir point (column-wise extremes of the feasible members), and the current range as unit *)
Definition feasible_rows {X} (o : tobs X) : list (list Q) := keep_rows (ob_F o) (ob_feas o).
Definition col_least (F : list (list Q)) (j : nat) (v : Q) : Prop := (exists r, In r F /\ nth j r 0%Q = v) /\ forall r, In r F -> (v <= nth j r 0)%Q.
Definition col_greatest (F : list (list Q)) (j : nat) (v : Q) : Prop := (exists r, In r F /\ nth j r 0%Q = v) /\ forall r, In r F -> (nth j r 0 <= v)%Q.
Definition m_close {X} (igd : list (list Q) -> list (list Q) -> Q) (n_obj : nat) (ftol : Q) (o o' : tobs X) : Prop :=
  let F := feasible_rows o in let F' := feasible_rows o' in
  F <> [] /\ F' <> [] /\
  (forall j i i' n n', j < n_obj -> col_least F j i -> col_least F' j i' -> col_greatest F j n -> col_greatest F' j n' ->
     let unit := if Qle_bool (1 # (10 ^ 32)) (n' - i') then (n' - i')%Q else 1%Q in
     (Qabs (i' - i) <= ftol * unit)%Q /\ (Qabs (n' - n) <= ftol * unit)%Q) /\
  (igd (map (normalize_row (col_min F') (col_max F')) F') (map (normalize_row (col_min F') (col_max F')) F) <= ftol)%Q.

(** ** the pieces *)
Lemma py_max_le x l (b : Q) : (py_max x l <= b)%Q <-> Forall (fun y => (y <= b)%Q) (x :: l).
Proof.
  revert x. induction l as [|y l IH]; intros x; cbn [py_max].
  - split; [intros; constructor; auto|intros H; inversion H; auto].
  - rewrite IH. destruct (Qle_bool y x) eqn:E.
    + apply Qle_bool_iff in E. split; intros H; inversion H as [|? ? H1 H2]; subst.
      * constructor; auto. constructor; auto. lra.
      * inversion H2; subst. constructor; auto.
    + assert (x <= y)%Q. { apply Qlt_le_weak, Qnot_le_lt. intros C. apply Qle_bool_iff in C. congruence. }
      split; intros H0; inversion H0 as [|? ? H1 H2]; subst.
      * constructor; [lra|]. constructor; auto.
      * inversion H2; subst. constructor; auto.
Qed.
Lemma py_min_In x l : In (py_min x l) (x :: l) /\ forall y, In y (x :: l) -> (py_min x l <= y)%Q.
Proof.
  split.
  - revert x. induction l as [|y l IH]; intros x; cbn [py_min]; [now left|]. destruct (Qle_bool x y); destruct (IH (if Qle_bool x y then x else y)) as [H|H]; destruct (IH x) as [A|A]; destruct (IH y) as [B|B]; simpl in *; intuition.
  - assert (L : (py_min x l <= py_min x l)%Q) by apply Qle_refl. apply py_min_ge in L. rewrite Forall_forall in L. auto.
Qed.
Lemma keep_rows_In {A} (l : list A) m x : In x (keep_rows l m) <-> exists k, nth_error l k = Some x /\ nth_error m k = Some true.
Proof.
  unfold keep_rows. rewrite in_map_iff. revert m. induction l as [|y l IH]; intros [|b m]; cbn [combine filter].
  1-3: split; [intros (? & _ & []) | intros ([|k] & H1 & H2); discriminate].
  cbn [snd]. destruct b.
  - split.
    + intros ((u, v) & <- & [[= <- <-]|H]); [exists 0; auto|]. destruct (proj1 (IH m) (ex_intro _ _ (conj eq_refl H))) as (k & H1 & H2). exists (S k). auto.
    + intros ([|k] & H1 & H2); cbn in H1, H2; [injection H1 as ->; exists (x, true); split; auto; now left|].
      destruct (proj2 (IH m) (ex_intro _ k (conj H1 H2))) as (p & P1 & P2). exists p. split; auto. now right.
  - rewrite IH. split; [intros (k & H1 & H2); exists (S k); auto|]. intros ([|k] & H1 & H2); cbn in H1, H2; [discriminate|eauto].
Qed.
Lemma so_best {X} (o : tobs X) b : so_data true o = Some b -> best_feasible o b.
Proof.
  unfold so_data. destruct (map (hd 0%Q) (keep_rows (ob_F o) (ob_feas o))) as [|f l] eqn:E; [discriminate|]. intros [= <-].
  destruct (py_min_In f l) as [H1 H2]. rewrite <- E in H1, H2. apply in_map_iff in H1. destruct H1 as (row & R1 & R2).
  apply keep_rows_In in R2. destruct R2 as (k & K1 & K2). split; [exists k, row; auto|]. intros k' row' N1 N2. apply H2, in_map_iff. exists row'. split; auto.
  apply keep_rows_In. eauto.
Qed.
Lemma so_best_conv {X} (o : tobs X) b : best_feasible o b -> exists b', so_data true o = Some b' /\ (b' == b)%Q.
Proof.
  intros [(k & row & N1 & N2 & ->) HB]. unfold so_data.
  destruct (map (hd 0%Q) (keep_rows (ob_F o) (ob_feas o))) as [|f l] eqn:E.
  - exfalso. assert (H : In (hd 0%Q row) (map (hd 0%Q) (keep_rows (ob_F o) (ob_feas o)))) by (apply in_map_iff; exists row; split; auto; apply keep_rows_In; eauto).
    rewrite E in H. destruct H.
  - eexists. split; [reflexivity|]. destruct (py_min_In f l) as [H1 H2]. rewrite <- E in H1, H2. apply Qle_antisym.
    + apply H2, in_map_iff. exists row. split; auto. apply keep_rows_In. eauto.
    + apply in_map_iff in H1. destruct H1 as (row' & R1 & R2). rewrite <- R1. apply keep_rows_In in R2. destruct R2 as (k' & K1 & K2). eauto.
Qed.
Definition cv_dat {X} (o : tobs X) : Q := match ob_cv o with [] => 0%Q | c :: l => py_min c l end.
Definition cv_act {X} (o : tobs X) : bool := ob_constr o && negb (existsb (fun b => b) (ob_feas o)).
Lemma cv_act_iff {X} (o : tobs X) : cv_act o = true <-> nothing_feasible o.
Proof.
  unfold cv_act, nothing_feasible. rewrite andb_true_iff, negb_true_iff. split; intros [H1 H2]; split; auto.
  - intros C. assert (existsb (fun b => b) (ob_feas o) = true) by (apply existsb_exists; exists true; auto). congruence.
  - destruct (existsb (fun b => b) (ob_feas o)) eqn:E; auto. apply existsb_exists in E. destruct E as (b & B1 & B2). subst b. contradiction.
Qed.
Lemma cv_least {X} (o : tobs X) : ob_cv o <> [] -> least_cv o (cv_dat o).
Proof. unfold cv_dat, least_cv. destruct (ob_cv o) as [|c l]; [congruence|]. intros _. apply py_min_In. Qed.
Lemma cv_step {X} tol n_skip st (o : tobs X) : ob_cv o <> [] -> cv_update tol n_skip false st o = Some (tupd cv_delta tol n_skip cv_act cv_dat st o).
Proof.
  intros H. unfold cv_update, tupd, cv_act, cv_dat. destruct (ob_constr o); [|reflexivity]. destruct (existsb _ _); [reflexivity|]. cbn [negb andb].
  destruct (ob_cv o); [congruence|reflexivity].
Qed.
Lemma keep_nil_mo {X} (o : tobs X) : mo_data true o = feasible_rows o.
Proof. reflexivity. Qed.

(** column minima and maxima *)
Lemma map2_nth {A B C} (f : A -> B -> C) a b c l l' j : length l = length l' -> j < length l -> nth j (map2 f l l') c = f (nth j l a) (nth j l' b).
Proof. revert l' j. induction l as [|x l IH]; intros [|y l'] [|j] HL Hj; simpl in *; try lia; auto. apply IH; lia. Qed.
Lemma map2_len {A B C} (f : A -> B -> C) l l' : length l = length l' -> length (map2 f l l') = length l.
Proof. revert l'. induction l as [|x l IH]; intros [|y l'] H; simpl in *; try lia. f_equal. apply IH. lia. Qed.
Lemma col_min_spec m F : F <> [] -> (forall r, In r F -> length r = m) -> length (col_min F) = m /\ forall j, j < m -> col_least F j (nth j (col_min F) 0%Q).
Proof.
  destruct F as [|r F]; [congruence|]. intros _. unfold col_min. revert r. induction F as [|r' F IH] using rev_ind; intros r HL.
  - cbn [fold_left]. split; [apply HL; now left|]. intros j Hj. split; [exists r; split; auto; now left|]. intros x [<-|[]]. apply Qle_refl.
  - rewrite fold_left_app. cbn [fold_left]. destruct (IH r) as [I1 I2]. { intros x [<-|Hx]; apply HL; [now left|right; apply in_or_app; auto]. }
    assert (L' : length r' = m) by (apply HL; right; apply in_or_app; right; now left). split; [rewrite map2_len; lia|].
    intros j Hj. rewrite (map2_nth _ 0%Q 0%Q) by lia. destruct (I2 j Hj) as [(x & X1 & X2) X3]. set (v := nth j (fold_left (map2 (fun a b : Q => py_min a [b])) F r) 0%Q) in *. change (py_min v [nth j r' 0%Q]) with (if Qle_bool v (nth j r' 0%Q) then v else nth j r' 0%Q).
    destruct (Qle_bool v (nth j r' 0%Q)) eqn:E.
    + apply Qle_bool_iff in E. split; [exists x; split; [|exact X2]; destruct X1 as [<-|X1]; [now left|right; apply in_or_app; auto]|].
      intros y [<-|Hy]; [apply X3; now left|]. apply in_app_or in Hy. destruct Hy as [Hy|[<-|[]]]; [apply X3; now right|exact E].
    + assert (L : (nth j r' 0 <= v)%Q). { apply Qlt_le_weak, Qnot_le_lt. intros C. apply Qle_bool_iff in C. congruence. }
      split; [exists r'; split; auto; right; apply in_or_app; right; now left|].
      intros y [<-|Hy]; [eapply Qle_trans; [exact L|apply X3; now left]|]. apply in_app_or in Hy. destruct Hy as [Hy|[<-|[]]]; [eapply Qle_trans; [exact L|apply X3; now right]|apply Qle_refl].
Qed.
Lemma col_max_spec m F : F <> [] -> (forall r, In r F -> length r = m) -> length (col_max F) = m /\ forall j, j < m -> col_greatest F j (nth j (col_max F) 0%Q).
Proof.
  destruct F as [|r F]; [congruence|]. intros _. unfold col_max. revert r. induction F as [|r' F IH] using rev_ind; intros r HL.
  - cbn [fold_left]. split; [apply HL; now left|]. intros j Hj. split; [exists r; split; auto; now left|]. intros x [<-|[]]. apply Qle_refl.
  - rewrite fold_left_app. cbn [fold_left]. destruct (IH r) as [I1 I2]. { intros x [<-|Hx]; apply HL; [now left|right; apply in_or_app; auto]. }
    assert (L' : length r' = m) by (apply HL; right; apply in_or_app; right; now left). split; [rewrite map2_len; lia|].
    intros j Hj. rewrite (map2_nth _ 0%Q 0%Q) by lia. destruct (I2 j Hj) as [(x & X1 & X2) X3]. set (v := nth j (fold_left (map2 (fun a b : Q => py_max a [b])) F r) 0%Q) in *. change (py_max v [nth j r' 0%Q]) with (if Qle_bool (nth j r' 0%Q) v then v else nth j r' 0%Q).
    destruct (Qle_bool (nth j r' 0%Q) v) eqn:E.
    + apply Qle_bool_iff in E. split; [exists x; split; [|exact X2]; destruct X1 as [<-|X1]; [now left|right; apply in_or_app; auto]|].
      intros y [<-|Hy]; [apply X3; now left|]. apply in_app_or in Hy. destruct Hy as [Hy|[<-|[]]]; [apply X3; now right|exact E].
    + assert (L : (v <= nth j r' 0)%Q). { apply Qlt_le_weak, Qnot_le_lt. intros C. apply Qle_bool_iff in C. congruence. }
      split; [exists r'; split; auto; right; apply in_or_app; right; now left|].
      intros y [<-|Hy]; [eapply Qle_trans; [apply X3; now left|exact L]|]. apply in_app_or in Hy. destruct Hy as [Hy|[<-|[]]]; [eapply Qle_trans; [apply X3; now right|exact L]|apply Qle_refl].
Qed.
Lemma least_unique F j v w : col_least F j v -> col_least F j w -> (v == w)%Q.
Proof. intros [(r & R1 & R2) A] [(r' & S1 & S2) B]. apply Qle_antisym; [rewrite <- S2|rewrite <- R2]; auto. Qed.
Lemma greatest_unique F j v w : col_greatest F j v -> col_greatest F j w -> (v == w)%Q.
Proof. intros [(r & R1 & R2) A] [(r' & S1 & S2) B]. apply Qle_antisym; [rewrite <- R2|rewrite <- S2]; auto. Qed.
Lemma delta_norm_le a b n t m : length a = m -> length b = m -> length n = m -> 0 < m ->
  ((calc_delta_norm a b n <= t)%Q <-> forall j, j < m -> (Qabs ((nth j a 0 - nth j b 0) / nth j n 0) <= t)%Q).
Proof.
  intros La Lb Ln Hm. unfold calc_delta_norm. assert (L1 : length (map2 Qminus a b) = m) by (rewrite map2_len; lia).
  assert (L2 : length (map2 (fun d k : Q => Qabs (d / k)) (map2 Qminus a b) n) = m) by (rewrite map2_len; lia).
  assert (N : forall j, j < m -> nth j (map2 (fun d k : Q => Qabs (d / k)) (map2 Qminus a b) n) 0%Q = Qabs ((nth j a 0 - nth j b 0) / nth j n 0)%Q).
  { intros j Hj. rewrite (map2_nth _ 0%Q 0%Q) by lia. rewrite (map2_nth _ 0%Q 0%Q) by lia. reflexivity. }
  destruct (map2 (fun d k : Q => Qabs (d / k)) (map2 Qminus a b) n) as [|x l] eqn:E; [simpl in L2; lia|].
  rewrite py_max_le, Forall_forall. split.
  - intros H j Hj. rewrite <- N by auto. apply H, nth_In. lia.
  - intros H y Hy. destruct (In_nth _ _ 0%Q Hy) as (j & J1 & J2). rewrite <- J2, N by lia. apply H. lia.
Qed.
Lemma unit_pos (r : Q) : (0 < (if negb (Qle_bool (1 # 10 ^ 32) r) then 1 else r))%Q.
Proof. destruct (Qle_bool (1 # 10 ^ 32) r) eqn:E; cbn [negb]; [|lra]. apply Qle_bool_iff in E. eapply Qlt_le_trans; [|exact E]. reflexivity. Qed.
Lemma abs_div_le (d n t : Q) : (0 < n)%Q -> (Qabs (d / n) <= t)%Q -> (Qabs d <= t * n)%Q.
Proof.
  intros Hn H. assert (E : (d == (d / n) * n)%Q) by (field; lra). rewrite E, Qabs_Qmult, (Qabs_pos n) by lra. apply Qmult_le_compat_r; lra.
Qed.
Lemma mo_close {X} igd m ftol (o o' : tobs X) d : (forall r, In r (ob_F o ++ ob_F o') -> length r = m) -> 0 < m ->
  mo_delta igd (mo_data true o) (mo_data true o') = Some d -> (d <= ftol)%Q -> m_close igd m ftol o o'.
Proof.
  intros HL Hm HD Hd. unfold m_close. cbv zeta. rewrite !keep_nil_mo in HD. set (F := feasible_rows o) in *. set (F' := feasible_rows o') in *.
  assert (LF : forall r, In r F -> length r = m). { intros r Hr. apply keep_rows_In in Hr. destruct Hr as (k & K1 & _). apply HL, in_or_app. left. eapply nth_error_In; eauto. }
  assert (LF' : forall r, In r F' -> length r = m). { intros r Hr. apply keep_rows_In in Hr. destruct Hr as (k & K1 & _). apply HL, in_or_app. right. eapply nth_error_In; eauto. }
  assert (NF : F <> []) by (intros C; rewrite C in HD; discriminate). assert (NF' : F' <> []) by (intros C; rewrite C in HD; destruct F; discriminate).
  destruct (col_min_spec m F NF LF) as [A1 A2]. destruct (col_max_spec m F NF LF) as [B1 B2].
  destruct (col_min_spec m F' NF' LF') as [C1 C2]. destruct (col_max_spec m F' NF' LF') as [D1 D2].
  assert (HD' : d = py_max (calc_delta_norm (col_min F') (col_min F) (mo_norm F')) [calc_delta_norm (col_max F') (col_max F) (mo_norm F');
              igd (map (normalize_row (col_min F') (col_max F')) F') (map (normalize_row (col_min F') (col_max F')) F)]).
  { unfold mo_delta in HD. destruct F; [congruence|]. destruct F'; [congruence|]. injection HD as <-. reflexivity. }
  rewrite HD' in Hd. clear HD HD'. apply py_max_le in Hd. pose proof (Forall_inv Hd) as H1. pose proof (Forall_inv (Forall_inv_tail Hd)) as H2. pose proof (Forall_inv (Forall_inv_tail (Forall_inv_tail Hd))) as H3. cbv beta in H1, H2, H3.
  split; auto. split; auto. split; [|exact H3].
  assert (LN : length (mo_norm F') = m) by (unfold mo_norm; rewrite map_length, map2_len; lia).
  rewrite (delta_norm_le _ _ _ _ m) in H1 by auto. rewrite (delta_norm_le _ _ _ _ m) in H2 by auto.
  intros j i i' n n' Hj Hi Hi' Hn Hn'.
  assert (EN : nth j (mo_norm F') 0%Q = let r := (nth j (col_max F') 0 - nth j (col_min F') 0)%Q in if negb (Qle_bool (1 # 10 ^ 32) r) then 1%Q else r).
  { unfold mo_norm. set (g := fun d0 : Q => if negb (Qle_bool (1 # 10 ^ 32) d0) then 1%Q else d0).
    rewrite (nth_indep _ 0%Q (g 0%Q)) by (rewrite map_length, map2_len; lia). rewrite map_nth, (map2_nth _ 0%Q 0%Q) by lia. reflexivity. }
  specialize (H1 j Hj). specialize (H2 j Hj). rewrite EN in H1, H2. cbv zeta in H1, H2.
  set (r0 := (nth j (col_max F') 0 - nth j (col_min F') 0)%Q) in *. apply abs_div_le in H1; [|apply unit_pos]. apply abs_div_le in H2; [|apply unit_pos].
  pose proof (least_unique _ _ _ _ Hi (A2 j Hj)) as U1. pose proof (least_unique _ _ _ _ Hi' (C2 j Hj)) as U2.
  pose proof (greatest_unique _ _ _ _ Hn (B2 j Hj)) as U3. pose proof (greatest_unique _ _ _ _ Hn' (D2 j Hj)) as U4.
  assert (EU : ((if Qle_bool (1 # 10 ^ 32) (n' - i') then n' - i' else 1) == (if negb (Qle_bool (1 # 10 ^ 32) r0) then 1 else r0))%Q).
  { assert (ER : (n' - i' == r0)%Q) by (unfold r0; rewrite U2, U4; reflexivity).
    destruct (Qle_bool (1 # 10 ^ 32) (n' - i')) eqn:E1; destruct (Qle_bool (1 # 10 ^ 32) r0) eqn:E2; cbn [negb]; try reflexivity; auto; exfalso.
    - apply Qle_bool_iff in E1. rewrite ER in E1. apply Qle_bool_iff in E1. congruence.
    - apply Qle_bool_iff in E2. rewrite <- ER in E2. apply Qle_bool_iff in E2. congruence. }
  split; rewrite EU; [rewrite U1, U2|rewrite U3, U4]; auto.
Qed.
