(** * C113: the Pareto fronts of DF9-DF14 at every time *)
From Coq Require Import Reals List Arith Lra Lia Psatz.
From Verif Require Import ListAux M_NSGA3R M_RealOps P_RealOps M_ZDT M_DF S_Bench Thm_Bench Thm_Bench2 Thm_ZDT Thm_DF Thm_DF2.
Import ListNotations.
Local Open Scope R_scope.

Lemma weak3 a b c d e f : weakly_dom [a; b; c] [d; e; f] <-> a <= d /\ b <= e /\ c <= f.
Proof.
  split; [intros [_ H]; split; [apply (H 0%nat); cbn; lia|split; [apply (H 1%nat); cbn; lia|apply (H 2%nat); cbn; lia]]|]. intros (H1 & H2 & H3). split; auto. intros [|[|[|i]]] Hi; cbn in *; auto; lia.
Qed.
(** a family of attained points, one weakly below every value: the front are those that no other one dominates *)
Lemma front_part {T} (dom : list R -> Prop) F (S : T -> Prop) (c : T -> list R) :
  (forall s, S s -> attained dom F (c s)) -> (forall x, dom x -> exists s, S s /\ weakly_dom (c s) (F x)) ->
  forall p, on_front dom F p <-> exists s, S s /\ p = c s /\ forall s', S s' -> ~ pareto_dom (c s') (c s).
Proof.
  intros H1 H2 p. split.
  - intros [(x & Hx & <-) HU]. destruct (H2 x Hx) as (s & Hs & Hw). exists s. split; auto. assert (E : F x = c s). { destruct (list_eq_dec Req_EM_T (F x) (c s)) as [E|E]; auto. exfalso. destruct (H1 s Hs) as (y & Hy & Ey). apply (HU y Hy). rewrite Ey. apply weak_strict; auto. }
    split; auto. intros s' Hs' HD. destruct (H1 s' Hs') as (y & Hy & Ey). apply (HU y Hy). rewrite Ey, E. auto.
  - intros (s & Hs & -> & HN). split; [now apply H1|]. intros x Hx HD. destruct (H2 x Hx) as (s' & Hs' & Hw'). apply (HN s' Hs'). apply dom_weak in HD as [HW Hne]. apply weak_strict; [eapply weak_trans; eauto|]. intros E. apply Hne. apply weak_eq; auto. rewrite <- E. auto.
Qed.
(** points with two positions and a constant tail *)
Definition pt2 (a b v : R) (n : nat) : list R := a :: b :: repeat v (n - 2).
Lemma pt2_dom n a b v l u : (2 <= n)%nat -> 0 <= a <= 1 -> 0 <= b <= 1 -> l <= v <= u -> df_dom n 2 0 1 l u (pt2 a b v n).
Proof.
  intros Hn Ha Hb Hv. split; [cbn; rewrite repeat_length; lia|]. split; intros i Hi Hk.
  - destruct i as [|[|i]]; [exact Ha|exact Hb|lia].
  - unfold x_, pt2. destruct i as [|[|i]]; [lia|lia|]. cbn [nth]. assert (G : forall k j, (j < k)%nat -> nth j (repeat v k) 0 = v) by (induction k as [|k IH]; intros [|j] Hj; cbn; auto; [lia|lia|apply IH; lia]). rewrite G by lia. exact Hv.
Qed.
Lemma dom2_box n l u x : (2 <= n)%nat -> df_dom n 2 0 1 l u x -> 0 <= x_ 0 x <= 1 /\ 0 <= x_ 1 x <= 1.
Proof. intros Hn (_ & H & _). split; apply H; lia. Qed.
Definition unit2 (s : R * R) : Prop := 0 <= fst s <= 1 /\ 0 <= snd s <= 1.
Lemma quarter v : 0 <= v <= PI / 2 -> 0 <= sin v /\ 0 <= cos v.
Proof. intros H. pose proof PI_lb. split; [apply sin_ge_0; lra|apply cos_ge_0; lra]. Qed.
Lemma quarter1 v : 0 <= v <= 1 -> 0 <= 0.5 * PI * v <= PI / 2.
Proof. intros H. pose proof PI_lb. split; nra. Qed.
(** points on a quarter sphere are not below each other *)
Lemma sphere_le y0 y1 z0 z1 : 0 <= sin y0 -> 0 <= sin y1 * cos y0 -> 0 <= cos y1 * cos y0 ->
  sin y0 <= sin z0 -> sin y1 * cos y0 <= sin z1 * cos z0 -> cos y1 * cos y0 <= cos z1 * cos z0 -> sin y0 = sin z0 /\ sin y1 * cos y0 = sin z1 * cos z0 /\ cos y1 * cos y0 = cos z1 * cos z0.
Proof.
  intros P1 P2 P3 H1 H2 H3. pose proof (sin2_cos2 y0) as E1. pose proof (sin2_cos2 y1) as E2. pose proof (sin2_cos2 z0) as E3. pose proof (sin2_cos2 z1) as E4. unfold Rsqr in *.
  assert (EY : sin y0 * sin y0 + (sin y1 * cos y0) * (sin y1 * cos y0) + (cos y1 * cos y0) * (cos y1 * cos y0) = 1). { transitivity (sin y0 * sin y0 + (sin y1 * sin y1 + cos y1 * cos y1) * (cos y0 * cos y0)); [ring|]. rewrite E2. lra. }
  assert (EZ : sin z0 * sin z0 + (sin z1 * cos z0) * (sin z1 * cos z0) + (cos z1 * cos z0) * (cos z1 * cos z0) = 1). { transitivity (sin z0 * sin z0 + (sin z1 * sin z1 + cos z1 * cos z1) * (cos z0 * cos z0)); [ring|]. rewrite E4. lra. }
  set (a := sin y0) in *. set (b := sin y1 * cos y0) in *. set (c := cos y1 * cos y0) in *. set (a' := sin z0) in *. set (b' := sin z1 * cos z0) in *. set (c' := cos z1 * cos z0) in *. clearbody a b c a' b' c'.
  assert (Ha : a' * a' - a * a >= 0) by nra. assert (Hb : b' * b' - b * b >= 0) by nra. assert (Hc : c' * c' - c * c >= 0) by nra.
  assert (a' * a' = a * a) by lra. assert (b' * b' = b * b) by lra. assert (c' * c' = c * c) by lra. split; [nra|split; nra].
Qed.

(** DF9: the curve is wavy; the front are its points that no other one dominates *)
Theorem C113_df9 : forall t n, (1 <= n)%nat -> let dom := df_dom n 1 0 1 (-1) 1 in
  (forall p, on_front dom (df9 t n) p <-> exists s, 0 <= s <= 1 /\ p = df9_curve t s /\ forall s', 0 <= s' <= 1 -> ~ pareto_dom (df9_curve t s') (df9_curve t s)) /\
  (forall s, 0 <= s <= 1 -> attained dom (df9 t n) (df9_curve t s)).
Proof.
  intros t n Hn dom.
  assert (H1 : forall s, 0 <= s <= 1 -> attained dom (df9 t n) (df9_curve t s)).
  { intros s Hs. set (f := fix f (i : nat) : R := match i with O => s | S j => cos (4 * t + s + f j) end). set (x := map f (seq 0 n)).
    assert (HX : forall i, (i < n)%nat -> x_ i x = f i). { intros i Hi. unfold x_, x. rewrite (nth_indep _ 0 (f 0%nat)) by (now rewrite map_length, seq_length). rewrite (map_nth f), seq_nth by auto. reflexivity. }
    exists x. split.
    - split; [unfold x; now rewrite map_length, seq_length|]. split; intros i Hi Hk; rewrite HX by auto; [assert (i = 0%nat) by lia; subst; exact Hs|]. destruct i as [|i]; [lia|]. apply cos_b.
    - unfold df9, df9_curve. rewrite (HX 0%nat) by lia. change (f 0%nat) with s.
      assert (E : forall l, (forall i, In i l -> (1 <= i < n)%nat) -> rsum (map (fun i => square (x_ i x - cos (4 * t + s + x_ (i - 1) x))) l) = 0).
      { unfold rsum. induction l as [|i l IH]; intros Hl; cbn [map fold_right]; auto. rewrite IH by (intros j Hj; apply Hl; now right). destruct (Hl i (or_introl eq_refl)) as [A B]. rewrite !HX by lia. destruct i as [|i]; [lia|]. replace (S i - 1)%nat with i by lia. change (f (S i)) with (cos (4 * t + s + f i)). rewrite square_0. ring. }
      rewrite E by (intros i Hi; apply in_seq in Hi; lia). f_equal; [|f_equal]; ring. }
  split; auto. apply (front_part dom (df9 t n) (fun s => 0 <= s <= 1) (df9_curve t)); auto.
  intros x Hx. pose proof (hd_dom _ _ _ _ _ _ Hn Hx) as H0. exists (x_ 0 x). split; auto. unfold df9, df9_curve. apply weak2.
  assert (G0 : forall l, 0 <= rsum (map (fun i => square (x_ i x - cos (4 * t + x_ 0 x + x_ (i - 1) x))) l)) by (unfold rsum; induction l as [|i l IH]; cbn [map fold_right]; [lra|pose proof (square_nonneg (x_ i x - cos (4 * t + x_ 0 x + x_ (i - 1) x))); lra]). specialize (G0 (seq 1 (n - 1))). set (q := rsum _) in *.
  assert (0 <= df9_m t (x_ 0 x)) by apply Rmax_l. split; nra.
Qed.
(** DF10 *)
Lemma df10_prod t a b : 0 <= a <= 1 -> 0 <= b <= 1 -> df10_point t a b = [np_power (sin (0.5 * PI * a)) (df10_H t); np_power (sin (0.5 * PI * b) * cos (0.5 * PI * a)) (df10_H t); np_power (cos (0.5 * PI * b) * cos (0.5 * PI * a)) (df10_H t)].
Proof.
  intros Ha Hb. unfold df10_point. destruct (quarter _ (quarter1 a Ha)), (quarter _ (quarter1 b Hb)). rewrite !np_power_mult by auto. rewrite !Rmult_1_l. reflexivity.
Qed.
Lemma np_power_le_inv a b y : 0 <= a -> 0 <= b -> 0 < y -> np_power a y <= np_power b y -> a <= b.
Proof. intros Ha Hb Hy H. destruct (Rle_dec a b); auto. pose proof (np_power_lt b a y Hb ltac:(lra) Hy). lra. Qed.
Theorem C113_df10 : forall t n, (2 <= n)%nat -> let dom := df_dom n 2 0 1 (-1) 1 in
  forall p, on_front dom (df10 t) p <-> exists s, unit2 s /\ p = df10_point t (fst s) (snd s).
Proof.
  intros t n Hn dom. assert (HH : 0 < df10_H t) by (unfold df10_H; pose proof (cos_b (0.5 * PI * t)); lra). apply (front_family dom (df10 t) unit2 (fun s => df10_point t (fst s) (snd s))).
  - intros [a b] [Ha Hb]. cbn [fst snd] in *. set (v := sin (4 * PI * (a + b)) / (1 + Rabs (df3_G t))). exists (pt2 a b v n). split.
    + apply pt2_dom; auto. unfold v. pose proof (sin_b (4 * PI * (a + b))) as HS. assert (HA : 0 <= Rabs (df3_G t)) by apply Rabs_pos. set (A := 1 + Rabs (df3_G t)) in *. assert (A1 : 1 <= A) by (unfold A; lra). assert (P : A * / A = 1) by (apply Rinv_r; lra). assert (0 < / A) by (apply Rinv_0_lt_compat; lra). unfold Rdiv. nra.
    + rewrite df10_prod by auto. unfold df10. change (x_ 0 (pt2 a b v n)) with a. change (x_ 1 (pt2 a b v n)) with b. fold v. unfold pt2. cbn [skipn]. rewrite rsum_repeat0 by apply square_0. f_equal; [ring|]. f_equal; [ring|]. f_equal; ring.
  - intros x Hx. destruct (dom2_box _ _ _ _ Hn Hx) as [H0 H1]. exists (x_ 0 x, x_ 1 x). split; [split; auto|]. cbn [fst snd]. rewrite df10_prod by auto. unfold df10. cbv zeta. set (q := sin _ / _). pose proof (g_ge1 (fun v => square (v - q)) (skipn 2 x) (fun v => square_nonneg _)) as Hg. set (g := 1 + rsum _) in *.
    apply weak3. pose proof (np_power_nonneg (sin (0.5 * PI * x_ 0 x)) (df10_H t)). pose proof (np_power_nonneg (sin (0.5 * PI * x_ 1 x) * cos (0.5 * PI * x_ 0 x)) (df10_H t)). pose proof (np_power_nonneg (cos (0.5 * PI * x_ 1 x) * cos (0.5 * PI * x_ 0 x)) (df10_H t)). split; [nra|split; nra].
  - intros [a b] [a' b'] [Ha Hb] [Ha' Hb'] HW. cbn [fst snd] in *. rewrite !df10_prod in * by auto. apply weak3 in HW as (W1 & W2 & W3).
    destruct (quarter _ (quarter1 a Ha)), (quarter _ (quarter1 b Hb)), (quarter _ (quarter1 a' Ha')), (quarter _ (quarter1 b' Hb')).
    apply np_power_le_inv in W1; auto. apply np_power_le_inv in W2; try (apply Rmult_le_pos; auto). 2: auto. apply np_power_le_inv in W3; try (apply Rmult_le_pos; auto). 2: auto.
    destruct (sphere_le (0.5 * PI * a) (0.5 * PI * b) (0.5 * PI * a') (0.5 * PI * b')) as (E1 & E2 & E3); auto; try (apply Rmult_le_pos; auto). now rewrite E1, E2, E3.
Qed.
(** DF11 *)
Lemma df11_y_b t v : 0 <= v <= 1 -> 0 <= df11_y t v <= PI / 2.
Proof. intros Hv. pose proof (G1_b t) as HG. pose proof PI_lb as HP. unfold df11_y. set (G := df1_G t) in *. assert (0 <= PI * G <= PI) by nra. set (k := PI * G) in *. split; nra. Qed.
Theorem C113_df11 : forall t n, (2 <= n)%nat -> let dom := df_dom n 2 0 1 0 1 in
  forall p, on_front dom (df11 t) p <-> exists s, unit2 s /\ p = df11_point t (fst s) (snd s).
Proof.
  intros t n Hn dom. pose proof (G1_b t) as HG. apply (front_family dom (df11 t) unit2 (fun s => df11_point t (fst s) (snd s))).
  - intros [a b] [Ha Hb]. cbn [fst snd] in *. set (v := 0.5 * df1_G t * a). exists (pt2 a b v n). split; [apply pt2_dom; auto; unfold v; nra|]. unfold df11. change (x_ 0 (pt2 a b v n)) with a. change (x_ 1 (pt2 a b v n)) with b. fold v. unfold pt2. cbn [skipn]. rewrite rsum_repeat0 by apply square_0. rewrite Rplus_0_r. reflexivity.
  - intros x Hx. destruct (dom2_box _ _ _ _ Hn Hx) as [H0 H1]. exists (x_ 0 x, x_ 1 x). split; [split; auto|]. cbn [fst snd]. unfold df11, df11_point. cbv zeta. set (q := 0.5 * df1_G t * x_ 0 x). pose proof (rsum_nonneg (fun v => square (v - q)) (skipn 2 x) (fun v => square_nonneg _)) as Hg. set (r := rsum _) in *.
    destruct (quarter _ (df11_y_b t _ H0)) as [P1 P2], (quarter _ (df11_y_b t _ H1)) as [P3 P4]. apply weak3. set (y0 := df11_y t (x_ 0 x)) in *. set (y1 := df11_y t (x_ 1 x)) in *. assert (0 <= sin y1 * cos y0) by nra. assert (0 <= cos y1 * cos y0) by nra. rewrite !Rmult_assoc. split; [nra|split; nra].
  - intros [a b] [a' b'] [Ha Hb] [Ha' Hb'] HW. cbn [fst snd] in *. unfold df11_point in *. apply weak3 in HW as (W1 & W2 & W3). rewrite !Rmult_assoc in *.
    destruct (quarter _ (df11_y_b t _ Ha)), (quarter _ (df11_y_b t _ Hb)), (quarter _ (df11_y_b t _ Ha')), (quarter _ (df11_y_b t _ Hb')).
    apply Rmult_le_reg_l in W1; [|lra]. apply Rmult_le_reg_l in W2; [|lra]. apply Rmult_le_reg_l in W3; [|lra].
    destruct (sphere_le (df11_y t a) (df11_y t b) (df11_y t a') (df11_y t b')) as (E1 & E2 & E3); auto; try (apply Rmult_le_pos; auto). now rewrite E1, E2, E3.
Qed.
(** DF13: like DF9 *)
Theorem C113_df13 : forall t n, (2 <= n)%nat -> let dom := df_dom n 2 0 1 (-1) 1 in
  (forall p, on_front dom (df13 t) p <-> exists s, unit2 s /\ p = df13_point t (fst s) (snd s) /\ forall s', unit2 s' -> ~ pareto_dom (df13_point t (fst s') (snd s')) (df13_point t (fst s) (snd s))) /\
  forall s, unit2 s -> attained dom (df13 t) (df13_point t (fst s) (snd s)).
Proof.
  intros t n Hn dom. assert (H1 : forall s, unit2 s -> attained dom (df13 t) (df13_point t (fst s) (snd s))).
  { intros [a b] [Ha Hb]. cbn [fst snd] in *. exists (pt2 a b (df3_G t) n). split; [apply pt2_dom; auto; apply G3_b|]. unfold df13. change (x_ 0 (pt2 a b (df3_G t) n)) with a. change (x_ 1 (pt2 a b (df3_G t) n)) with b. unfold pt2. cbn [skipn]. rewrite rsum_repeat0 by apply square_0. rewrite Rplus_0_r, !Rmult_1_l. reflexivity. }
  split; auto. apply (front_part dom (df13 t) unit2 (fun s => df13_point t (fst s) (snd s))); auto.
  intros x Hx. destruct (dom2_box _ _ _ _ Hn Hx) as [H0 H2]. exists (x_ 0 x, x_ 1 x). split; [split; auto|]. cbn [fst snd]. unfold df13, df13_point. cbv zeta. pose proof (g_ge1 (fun v => square (v - df3_G t)) (skipn 2 x) (fun v => square_nonneg _)) as Hg. set (g := 1 + rsum _) in *.
  destruct (quarter _ (quarter1 _ H0)) as [P1 _], (quarter _ (quarter1 _ H2)) as [P2 _]. apply weak3. pose proof (pow2_ge_0 (cos (0.5 * PI * x_ 0 x))). pose proof (pow2_ge_0 (cos (0.5 * PI * x_ 1 x))).
  assert (0 <= df13_f3 t (x_ 0 x) (x_ 1 x)). { unfold df13_f3. pose proof (pow2_ge_0 (cos (df13_p t * PI * x_ 0 x))) as K1. pose proof (pow2_ge_0 (cos (df13_p t * PI * x_ 1 x))) as K2. pose proof (pow2_ge_0 (sin (0.5 * PI * x_ 0 x))). pose proof (pow2_ge_0 (sin (0.5 * PI * x_ 1 x))). pose proof (Rmult_le_pos _ _ P1 K1). pose proof (Rmult_le_pos _ _ P2 K2). lra. }
  split; [nra|split; nra].
Qed.
(** DF14 *)
Lemma wave6_up s s' : s < s' -> wave6 s < wave6 s' /\ wave6' s' < wave6' s.
Proof. intros H. apply (wave_mono 0.05 (6 * PI)); auto; [lra|]. rewrite Rabs_right by (pose proof PI_lb; lra). pose proof PI_ub. lra. Qed.
Lemma wave6_ends : wave6 0 = 0 /\ wave6' 1 = 0.
Proof. unfold wave6, wave6'. rewrite Rmult_0_r, sin_0, Rmult_1_r. split; [ring|]. rewrite (sin_eq_0_1 (6 * PI)) by (exists 6%Z; auto). ring. Qed.
Lemma wave6_nonneg s : 0 <= s <= 1 -> 0 <= wave6 s /\ 0 <= wave6' s.
Proof. apply mono_nonneg; [apply wave6_up|apply wave6_ends|apply wave6_ends]. Qed.
Lemma wave6_inj s s' : wave6 s <= wave6 s' -> s <= s'.
Proof. intros H. destruct (Rle_dec s s'); auto. destruct (wave6_up s' s ltac:(lra)). lra. Qed.
Lemma wave6'_inj s s' : wave6' s <= wave6' s' -> s' <= s.
Proof. intros H. destruct (Rle_dec s' s); auto. destruct (wave6_up s s' ltac:(lra)). lra. Qed.
Lemma wave6_sum s : 0 <= s <= 1 -> 0 < wave6 s \/ 0 < wave6' s.
Proof. intros H. destruct (Req_dec s 0) as [->|Hn]; [right|left]; [pose proof (wave6_up 0 1 ltac:(lra)); pose proof wave6_ends; lra|pose proof (wave6_up 0 s ltac:(lra)); pose proof wave6_ends; lra]. Qed.
Lemma df14_y_b t v : 0 <= v <= 1 -> 0 <= df14_y t v <= 1.
Proof. intros Hv. unfold df14_y. pose proof (G3_b t). nra. Qed.
Theorem C113_df14 : forall t n, (2 <= n)%nat -> let dom := df_dom n 2 0 1 (-1) 1 in
  forall p, on_front dom (df14 t) p <-> exists s, unit2 s /\ p = df14_point t (fst s) (snd s).
Proof.
  intros t n Hn dom. apply (front_family dom (df14 t) unit2 (fun s => df14_point t (fst s) (snd s))).
  - intros [a b] [Ha Hb]. cbn [fst snd] in *. exists (pt2 a b (df3_G t) n). split; [apply pt2_dom; auto; apply G3_b|]. unfold df14. change (x_ 0 (pt2 a b (df3_G t) n)) with a. change (x_ 1 (pt2 a b (df3_G t) n)) with b. unfold pt2. cbn [skipn]. rewrite rsum_repeat0 by apply square_0. rewrite Rplus_0_r, !Rmult_1_l. reflexivity.
  - intros x Hx. destruct (dom2_box _ _ _ _ Hn Hx) as [H0 H1]. exists (x_ 0 x, x_ 1 x). split; [split; auto|]. cbn [fst snd]. unfold df14, df14_point. cbv zeta. pose proof (g_ge1 (fun v => square (v - df3_G t)) (skipn 2 x) (fun v => square_nonneg _)) as Hg. set (g := 1 + rsum _) in *.
    destruct (wave6_nonneg _ (df14_y_b t _ H0)) as [P1 P2], (wave6_nonneg _ H1) as [P3 P4]. set (y := df14_y t (x_ 0 x)) in *. apply weak3. rewrite !Rmult_assoc. pose proof (Rmult_le_pos _ _ P4 P1). pose proof (Rmult_le_pos _ _ P3 P1). split; [nra|split; nra].
  - intros [a b] [a' b'] [Ha Hb] [Ha' Hb'] HW. cbn [fst snd] in *. unfold df14_point in *. cbv zeta in *. apply weak3 in HW as (W1 & W2 & W3).
    pose proof (df14_y_b t _ Ha) as Hy. pose proof (df14_y_b t _ Ha') as Hy'. set (y := df14_y t a) in *. set (y' := df14_y t a') in *. apply wave6'_inj in W1.
    destruct (wave6_nonneg _ Hy) as [P1 P2], (wave6_nonneg _ Hy') as [P1' P2'], (wave6_nonneg _ Hb) as [Q1 Q2], (wave6_nonneg _ Hb') as [Q1' Q2'].
    assert (HB : wave6 y' <= wave6 y) by (destruct W1 as [W1|W1]; [left; now apply wave6_up|rewrite W1; lra]).
    destruct (Req_dec (wave6 y') 0) as [E0|E0].
    + rewrite E0 in *. rewrite !Rmult_0_r in *. assert (wave6 y = 0). { destruct (wave6_sum b Hb) as [S1|S1]; nra. } assert (y = y') by (apply Rle_antisym; apply wave6_inj; lra). rewrite H, !Rmult_0_r. congruence.
    + assert (0 < wave6 y') by lra. assert (V2 : wave6' b <= wave6' b') by (apply Rmult_le_reg_r with (wave6 y'); auto; nra). assert (V3 : wave6 b <= wave6 b') by (apply Rmult_le_reg_r with (wave6 y'); auto; nra). apply wave6'_inj in V2. apply wave6_inj in V3. assert (b = b') by lra. subst b'.
      assert (HB2 : wave6 y <= wave6 y') by (destruct (wave6_sum b Hb) as [S1|S1]; [apply Rmult_le_reg_l with (wave6 b)|apply Rmult_le_reg_l with (wave6' b)]; auto). apply wave6_inj in HB2. assert (y = y') by lra. congruence.
Qed.
(** DF12: one product over all the rows: a single row with an even position switches the disturbance off for every row of the batch, so the objectives
    of a solution depend on which others are evaluated with it *)
Theorem C113_df12_batch : 
  (forall t X y, In y X -> df12_term t (x_ 0 y) = 0 \/ df12_term t (x_ 1 y) = 0 -> df12 t X = map (df12_row t 0) X) /\
  (forall t x, df12 t [x] = [df12_row t (df12_term t (x_ 0 x) * (df12_term t (x_ 1 x) * 1)) x]) /\
  exists t x y, nth 0 (df12 t [x]) [] <> nth 0 (df12 t [x; y]) [].
Proof.
  split; [|split].
  - intros t X y HI HZ. unfold df12. assert (E : fold_right Rmult 1 (flat_map (fun x => [df12_term t (x_ 0 x); df12_term t (x_ 1 x)]) X) = 0). { induction X as [|x X IH]; [destruct HI|]. cbn [flat_map app fold_right]. destruct HI as [->|HI]; [destruct HZ as [-> | ->]; ring|]. rewrite IH by auto. ring. } now rewrite E.
  - reflexivity.
  - exists 0.5, [0.55; 0.55], [0.5; 0.5]. assert (HS : sin (PI * 0.5) = 1) by (replace (PI * 0.5) with (PI / 2) by lra; apply sin_PI2).
    assert (FL : forall z r, IZR z <= r < IZR z + 1 -> floorR r = IZR z). { intros z r [H1 H2]. unfold floorR. f_equal. pose proof (floor_spec r) as [F1 F2]. assert (IZR (Int_part r) < IZR (z + 1)) by (rewrite plus_IZR; lra). assert (IZR z < IZR (Int_part r + 1)) by (rewrite plus_IZR; lra). apply lt_IZR in H. apply lt_IZR in H0. lia. }
    assert (T1 : df12_term 0.5 0.55 = 1). { unfold df12_term. rewrite HS, (FL 1%Z) by lra. rewrite Rmult_1_l, sin_PI2. apply Rabs_R1. }
    assert (T0 : df12_term 0.5 0.5 = 0). { unfold df12_term. rewrite HS, (FL 0%Z) by lra. rewrite Rmult_0_l. replace (0 / 2) with 0 by lra. rewrite sin_0. apply Rabs_R0. }
    unfold df12. cbn [flat_map app fold_right map nth]. change (x_ 0 [0.55; 0.55]) with 0.55. change (x_ 1 [0.55; 0.55]) with 0.55. change (x_ 0 [0.5; 0.5]) with 0.5. change (x_ 1 [0.5; 0.5]) with 0.5. rewrite T1, T0. unfold df12_row. change (x_ 0 [0.55; 0.55]) with 0.55. change (skipn 2 [0.55; 0.55]) with (@nil R). cbn [map rsum fold_right]. intros E. injection E as _ _ E3. assert (0 < sin (0.5 * PI * 0.55)) by (apply sin_gt_0; pose proof PI_lb; lra). nra.
Qed.
