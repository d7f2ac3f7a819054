(** * C113: the Pareto fronts of DF4-DF8 at every time *)
From Coq Require Import Reals List Arith Lra Lia Psatz.
From Verif Require Import ListAux M_NSGA3R M_RealOps P_RealOps M_ZDT M_DF S_Bench Thm_Bench Thm_Bench2 Thm_ZDT Thm_DF.
Import ListNotations.
Local Open Scope R_scope.

Lemma sin_abs_le z : 0 <= z -> - z <= sin z <= z.
Proof.
  intros [Hz| <-]; [|rewrite sin_0; lra]. split; [|left; now apply sin_lt_x]. destruct (Rle_dec z 1) as [H|H]; [|pose proof (sin_b z); lra].
  assert (0 <= sin z) by (apply sin_ge_0; [lra|]; pose proof PI_lb; lra). lra.
Qed.
Lemma sin_lip u v : u <= v -> - (v - u) <= sin v - sin u <= v - u.
Proof.
  intros H. rewrite form4. pose proof (sin_abs_le ((v - u) / 2) ltac:(lra)) as HS. pose proof (cos_b ((v + u) / 2)) as HC. set (c := cos _) in *. set (d := sin _) in *. nra.
Qed.
Lemma wave_mono c k s s' : 0 <= c -> c * Rabs k < 1 -> s < s' -> s + c * sin (k * s) < s' + c * sin (k * s') /\ 1 - s' + c * sin (k * s') < 1 - s + c * sin (k * s).
Proof.
  intros Hc Hk Hs. assert (HL : - (Rabs k * (s' - s)) <= sin (k * s') - sin (k * s) <= Rabs k * (s' - s)).
  { unfold Rabs. destruct (Rcase_abs k) as [Hn|Hn].
    - pose proof (sin_lip (k * s') (k * s) ltac:(nra)). nra.
    - pose proof (sin_lip (k * s) (k * s') ltac:(nra)). nra. }
  set (a := Rabs k) in *. set (d := sin (k * s') - sin (k * s)) in *. assert (HD : - (s' - s) < c * d < s' - s). { assert (c * (a * (s' - s)) < s' - s) by nra. split; nra. } unfold d in HD. lra.
Qed.
(** objectives g h1, g h2 with a factor g >= 1 that can be 1 *)
Lemma front_scaled (dom : list R -> Prop) F (a b : R) (h1 h2 : R -> R) :
  (forall s, a <= s <= b -> attained dom F [h1 s; h2 s]) -> (forall x, dom x -> exists g s, 1 <= g /\ a <= s <= b /\ F x = [g * h1 s; g * h2 s]) ->
  (forall s, a <= s <= b -> 0 <= h1 s /\ 0 <= h2 s) -> (forall s s', a <= s -> s < s' -> s' <= b -> h1 s < h1 s' /\ h2 s' < h2 s) ->
  forall p, on_front dom F p <-> exists s, a <= s <= b /\ p = [h1 s; h2 s].
Proof.
  intros H1 H2 H3 H4. apply front_curve; auto. intros x Hx. destruct (H2 x Hx) as (g & s & Hg & Hs & ->). exists s, (g * h1 s), (g * h2 s). destruct (H3 s Hs) as [P1 P2]. split; auto. split; auto. split; nra.
Qed.
Lemma g_ge1 (f : R -> R) l : (forall v, 0 <= f v) -> 1 <= 1 + rsum (map f l).
Proof. intros H. pose proof (rsum_nonneg f l H). lra. Qed.

(** DF5 *)
Lemma df5_w_b t : exists z, df5_w t = IZR z /\ Rabs (df5_w t) <= 10.
Proof.
  unfold df5_w, floorR. set (r := 10 * df3_G t). exists (Int_part r). split; auto. pose proof (G3_b t) as HG. pose proof (floor_spec r) as HF. assert (Hr : -10 <= r <= 10) by (unfold r; lra).
  assert (H1 : (-11 < Int_part r)%Z) by (apply lt_IZR; lra). assert (H2 : (Int_part r <= 10)%Z) by (apply le_IZR; lra). assert (H3 : (-10 <= Int_part r)%Z) by lia. apply IZR_le in H2. apply IZR_le in H3. apply Rabs_le. lra.
Qed.
Lemma df5_mono t s s' : s < s' -> df5_h1 t s < df5_h1 t s' /\ df5_h2 t s' < df5_h2 t s.
Proof.
  intros H. destruct (df5_w_b t) as (z & _ & HW). apply (wave_mono 0.02 (df5_w t * PI)); auto; [lra|]. rewrite Rabs_mult, (Rabs_right PI) by (pose proof PI_lb; lra). pose proof PI_ub. pose proof PI_lb. pose proof (Rabs_pos (df5_w t)). nra.
Qed.
Lemma df5_ends t : df5_h1 t 0 = 0 /\ df5_h2 t 1 = 0.
Proof.
  destruct (df5_w_b t) as (z & E & _). unfold df5_h1, df5_h2. rewrite Rmult_0_r, sin_0, Rmult_1_r. split; [ring|]. rewrite E, (sin_eq_0_1 (IZR z * PI)) by eauto. ring.
Qed.
Lemma mono_nonneg (h1 h2 : R -> R) : (forall s s', s < s' -> h1 s < h1 s' /\ h2 s' < h2 s) -> h1 0 = 0 -> h2 1 = 0 -> forall s, 0 <= s <= 1 -> 0 <= h1 s /\ 0 <= h2 s.
Proof.
  intros H E1 E2 s [S1 S2]. split; [destruct S1 as [S1| <-]; [destruct (H 0 s S1); lra|lra]|destruct S2 as [S2| ->]; [destruct (H s 1 S2); lra|lra]].
Qed.
Theorem C113_df5 : forall t n, (1 <= n)%nat -> let dom := df_dom n 1 0 1 (-1) 1 in
  (forall p, on_front dom (df5 t) p <-> exists s, 0 <= s <= 1 /\ p = [df5_h1 t s; df5_h2 t s]) /\ forall k, front_ok dom (df5 t) (df5_front t k).
Proof.
  intros t n Hn dom. assert (G : forall p, on_front dom (df5 t) p <-> exists s, 0 <= s <= 1 /\ p = [df5_h1 t s; df5_h2 t s]).
  { apply (front_scaled dom (df5 t) 0 1).
    - intros s Hs. exists (s :: repeat (df3_G t) (n - 1)). split; [apply pt_dom; auto; apply G3_b|]. unfold df5. cbn [skipn]. rewrite rsum_repeat0 by apply square_0. change (x_ 0 (s :: repeat (df3_G t) (n - 1))) with s. f_equal; [|f_equal]; ring.
    - intros x Hx. eexists _, (x_ 0 x). split; [|split; [apply (hd_dom _ _ _ _ _ _ Hn Hx)|reflexivity]]. apply (g_ge1 (fun v => square (v - df3_G t))). intros v. apply square_nonneg.
    - apply mono_nonneg; [apply df5_mono|apply df5_ends|apply df5_ends].
    - intros s s' _ H _. now apply df5_mono. }
  split; auto. intros k. apply (front_of_linspace dom (df5 t) 0 1 (fun s => [df5_h1 t s; df5_h2 t s])); [lra|auto].
Qed.
(** DF6 and DF8 *)
Lemma wave_up s s' : s < s' -> wave s < wave s' /\ wave' s' < wave' s.
Proof. intros H. apply (wave_mono 0.1 (3 * PI)); auto; [lra|]. rewrite Rabs_right by (pose proof PI_lb; lra). pose proof PI_ub. lra. Qed.
Lemma wave_ends : wave 0 = 0 /\ wave' 1 = 0.
Proof. unfold wave, wave'. rewrite Rmult_0_r, sin_0, Rmult_1_r. split; [ring|]. rewrite (sin_eq_0_1 (3 * PI)) by (exists 3%Z; auto). ring. Qed.
Lemma wave_nonneg s : 0 <= s <= 1 -> 0 <= wave s /\ 0 <= wave' s.
Proof. apply mono_nonneg; [apply wave_up|apply wave_ends|apply wave_ends]. Qed.
Lemma power_wave a s s' : 0 < a -> 0 <= s -> s < s' -> s' <= 1 -> np_power (wave s) a < np_power (wave s') a /\ np_power (wave' s') a < np_power (wave' s) a.
Proof. intros Ha H1 H2 H3. destruct (wave_up s s' H2). split; apply np_power_lt; auto; apply wave_nonneg; lra. Qed.
Theorem C113_df6 : forall t n, (1 <= n)%nat -> let dom := df_dom n 1 0 1 (-1) 1 in
  (forall p, on_front dom (df6 t) p <-> exists s, 0 <= s <= 1 /\ p = [np_power (wave s) (df6_a t); np_power (wave' s) (df6_a t)]) /\ forall k, front_ok dom (df6 t) (df6_front t k).
Proof.
  intros t n Hn dom. assert (Ha : 0 < df6_a t) by (unfold df6_a; pose proof (Rabs_pos (df3_G t)); lra).
  assert (G : forall p, on_front dom (df6 t) p <-> exists s, 0 <= s <= 1 /\ p = [np_power (wave s) (df6_a t); np_power (wave' s) (df6_a t)]).
  { apply (front_scaled dom (df6 t) 0 1 (fun s => np_power (wave s) (df6_a t)) (fun s => np_power (wave' s) (df6_a t))).
    - intros s Hs. exists (s :: repeat (df3_G t) (n - 1)). split; [apply pt_dom; auto; apply G3_b|]. unfold df6. cbn [skipn]. rewrite rsum_repeat0. 2: { cbv zeta. replace (df3_G t - df3_G t) with 0 by ring. rewrite Rmult_0_r, cos_0. unfold square. ring. }
      change (x_ 0 (s :: repeat (df3_G t) (n - 1))) with s. f_equal; [|f_equal]; ring.
    - intros x Hx. eexists _, (x_ 0 x). split; [|split; [apply (hd_dom _ _ _ _ _ _ Hn Hx)|reflexivity]]. apply (g_ge1 (fun v => let y := v - df3_G t in Rabs (df3_G t) * square y - 10 * cos (2 * PI * y) + 10)). intros v. cbv zeta. set (y := v - _). pose proof (cos_b (2 * PI * y)). pose proof (Rabs_pos (df3_G t)). pose proof (square_nonneg y). nra.
    - intros s _. split; apply np_power_nonneg.
    - intros s s' H1 H2 H3. now apply power_wave. }
  split; auto. intros k. apply (front_of_linspace dom (df6 t) 0 1 (fun s => [np_power (wave s) (df6_a t); np_power (wave' s) (df6_a t)])); [lra|auto].
Qed.
Theorem C113_df8 : forall t n, (1 <= n)%nat -> let dom := df_dom n 1 0 1 (-1) 1 in
  (forall p, on_front dom (df8 t) p <-> exists s, 0 <= s <= 1 /\ p = [wave s; np_power (wave' s) (df8_a t)]) /\ forall k, front_ok dom (df8 t) (df8_front t k).
Proof.
  intros t n Hn dom. assert (Ha : 0 < df8_a t) by (unfold df8_a; pose proof (cos_b (2 * PI * t)); lra).
  assert (G : forall p, on_front dom (df8 t) p <-> exists s, 0 <= s <= 1 /\ p = [wave s; np_power (wave' s) (df8_a t)]).
  { apply (front_scaled dom (df8 t) 0 1 wave (fun s => np_power (wave' s) (df8_a t))).
    - intros s Hs. set (v := df3_G t * sin (4 * PI * s) / (1 + Rabs (df3_G t))). exists (s :: repeat v (n - 1)). split.
      { apply pt_dom; auto. pose proof (G3_b t) as HG. pose proof (sin_b (4 * PI * s)) as HS. assert (HA : 0 <= Rabs (df3_G t)) by apply Rabs_pos. assert (HM : - (1 + Rabs (df3_G t)) <= df3_G t * sin (4 * PI * s) <= 1 + Rabs (df3_G t)) by nra.
        unfold v. set (A := 1 + Rabs (df3_G t)) in *. assert (A1 : 1 <= A) by (unfold A; lra). assert (P : A * / A = 1) by (apply Rinv_r; lra). assert (0 < / A) by (apply Rinv_0_lt_compat; lra). unfold Rdiv. nra. }
      unfold df8. cbn [skipn]. change (x_ 0 (s :: repeat v (n - 1))) with s. fold v. rewrite rsum_repeat0 by apply square_0. f_equal; [|f_equal]; ring.
    - intros x Hx. eexists _, (x_ 0 x). split; [|split; [apply (hd_dom _ _ _ _ _ _ Hn Hx)|reflexivity]]. cbv zeta. set (q := _ / _). apply (g_ge1 (fun v => square (v - q))). intros v. apply square_nonneg.
    - intros s Hs. split; [now apply wave_nonneg|apply np_power_nonneg].
    - intros s s' H1 H2 H3. split; [now apply wave_up|now apply power_wave]. }
  split; auto. intros k. apply (front_of_linspace dom (df8 t) 0 1 (fun s => [wave s; np_power (wave' s) (df8_a t)])); [lra|auto].
Qed.
(** DF7: the first objective falls along the curve *)
Theorem C113_df7 : forall t n, (1 <= n)%nat -> -1 < t -> let dom := df_dom n 1 1 4 0 1 in
  (forall p, on_front dom (df7 t) p <-> exists s, 1 <= s <= 4 /\ p = [(1 + t) / s; s / (1 + t)]) /\ forall k, front_ok dom (df7 t) (df7_front t k).
Proof.
  intros t n Hn Ht dom. assert (HI : 0 < / (1 + t)) by (apply Rinv_0_lt_compat; lra).
  assert (G : forall p, on_front dom (df7 t) p <-> exists s, 1 <= s <= 4 /\ p = [(1 + t) / s; s / (1 + t)]).
  { apply (front_family dom (df7 t) (fun s => 1 <= s <= 4) (fun s => [(1 + t) / s; s / (1 + t)])).
    - intros s Hs. set (a := 5 * cos (0.5 * PI * t)). set (v := 1 / (1 + exp (a * (s - 2.5)))). exists (s :: repeat v (n - 1)). split.
      { apply pt_dom; auto. unfold v. pose proof (exp_pos (a * (s - 2.5))) as HE. set (e := exp _) in *. assert (0 < / (1 + e)) by (apply Rinv_0_lt_compat; lra). assert ((1 + e) * / (1 + e) = 1) by (apply Rinv_r; lra). unfold Rdiv. nra. }
      unfold df7. fold a. cbn [skipn]. change (x_ 0 (s :: repeat v (n - 1))) with s. fold v. rewrite rsum_repeat0 by apply square_0. f_equal; [|f_equal]; field; lra.
    - intros x Hx. pose proof (hd_dom _ _ _ _ _ _ Hn Hx) as H0. exists (x_ 0 x). split; auto. unfold df7. cbv zeta. set (q := 1 / _). pose proof (g_ge1 (fun v => square (v - q)) (skipn 1 x) (fun v => square_nonneg _)) as Hg. set (g := 1 + rsum _) in *. set (z := x_ 0 x) in *. apply weak2. assert (0 < / z) by (apply Rinv_0_lt_compat; lra). unfold Rdiv. split; [|].
      + assert (0 <= (1 + t) * / z) by nra. rewrite Rmult_assoc. nra.
      + assert (0 <= z * / (1 + t)) by nra. rewrite Rmult_assoc. nra.
    - intros s s' Hs Hs' HW. apply weak2 in HW as [W1 W2]. unfold Rdiv in *. apply Rmult_le_reg_r in W2; auto. apply Rmult_le_reg_l in W1; [|lra]. assert (s' <= s). { rewrite <- (Rinv_inv s'), <- (Rinv_inv s). apply Rinv_le_contravar; auto. apply Rinv_0_lt_compat; lra. } assert (s = s') by lra. now subst. }
  split; auto. intros k. apply (front_of_linspace dom (df7 t) 1 4 (fun s => [(1 + t) / s; s / (1 + t)])); [lra|auto].
Qed.

(** DF4 *)
Definition df4_point (t s : R) : list R := [np_power (Rabs (s - df4_a t)) (df4_H t); np_power (Rabs (s - df4_a t - df4_b t)) (df4_H t)].
Lemma df4_ab t : -1 <= df4_a t <= 1 /\ 1 <= df4_b t <= 2 /\ 0 < df4_H t /\ 0 < df4_c t /\ forall s, df4_a t <= s <= df4_a t + df4_b t -> Rabs s <= df4_c t.
Proof.
  unfold df4_H, df4_c. assert (Ha : -1 <= df4_a t <= 1) by apply sin_b. assert (Hb : 1 <= df4_b t <= 2). { unfold df4_b. pose proof (Rabs_pos (cos (0.5 * PI * t))). assert (Rabs (cos (0.5 * PI * t)) <= 1) by (apply Rabs_le; apply cos_b). lra. }
  split; auto. split; auto. split; [lra|]. split.
  - destruct (Rle_dec (df4_a t) (-1)) as [H|H]; [|eapply Rlt_le_trans; [|apply Rmax_r]; lra]. eapply Rlt_le_trans; [|apply Rmax_l]. rewrite Rabs_left by lra. lra.
  - intros s Hs. apply Rabs_le. pose proof (Rmax_l (Rabs (df4_a t)) (df4_a t + df4_b t)). pose proof (Rmax_r (Rabs (df4_a t)) (df4_a t + df4_b t)). pose proof (Rle_abs (- df4_a t)). rewrite Rabs_Ropp in *. lra.
Qed.
(** C113: the front of DF4 is the part of the curve with a parameter within the bounds (at most 2); what is reported goes on to sin + 1 + |cos|, so at a time
    at which that exceeds 2 - at every time strictly between 0 and 1 - points are reported that no admissible solution has *)
Theorem C113_df4 : forall t n, (1 <= n)%nat -> let dom := df_dom n 1 (-2) 2 (-2) 2 in
  (forall p, on_front dom (df4 t n) p <-> exists s, df4_a t <= s <= Rmin 2 (df4_a t + df4_b t) /\ p = df4_point t s) /\
  (df4_a t + df4_b t <= 2 -> forall k, front_ok dom (df4 t n) (df4_front t k)) /\
  (2 < df4_a t + df4_b t -> forall k, (2 <= k)%nat -> exists p, In p (df4_front t k) /\ ~ attained dom (df4 t n) p) /\
  (0 < t < 1 -> 2 < df4_a t + df4_b t).
Proof.
  intros t n Hn dom. destruct (df4_ab t) as (Ha & Hb & HH & Hc & HC). set (a := df4_a t) in *. set (b := df4_b t) in *. set (m := Rmin 2 (a + b)).
  assert (Hm : m <= 2 /\ m <= a + b /\ a <= m) by (unfold m; split; [apply Rmin_l|]; split; [apply Rmin_r|]; apply Rmin_glb; lra).
  assert (G : forall p, on_front dom (df4 t n) p <-> exists s, a <= s <= m /\ p = df4_point t s).
  { apply (front_curve dom (df4 t n) a m (fun s => np_power (Rabs (s - a)) (df4_H t)) (fun s => np_power (Rabs (s - a - b)) (df4_H t))).
    - intros s Hs. set (f := fun i => a * square (s / df4_c t) / INR (i + 1)). set (x := s :: map f (seq 1 (n - 1))).
      assert (HX : forall i, (1 <= i < n)%nat -> x_ i x = f i). { intros i Hi. unfold x_, x. destruct i as [|i]; [lia|]. cbn [nth]. rewrite (nth_indep _ 0 (f 0%nat)) by (rewrite map_length, seq_length; lia). rewrite (map_nth f), seq_nth by lia. reflexivity. }
      assert (HSQ : 0 <= square (s / df4_c t) <= 1).
      { pose proof (HC s ltac:(lra)) as HS. assert (Hs2 : - df4_c t <= s <= df4_c t) by (unfold Rabs in HS; destruct (Rcase_abs s); lra). assert (HI : 0 < / df4_c t) by (apply Rinv_0_lt_compat; auto). assert (HP : df4_c t * / df4_c t = 1) by (apply Rinv_r; lra). unfold square, Rdiv. assert (-1 <= s * / df4_c t <= 1) by nra. nra. }
      exists x. split.
      { split; [unfold x; cbn; rewrite map_length, seq_length; lia|]. split; intros i Hi Hk; [assert (i = 0%nat) by lia; subst; unfold x_, x; cbn; lra|]. rewrite HX by lia. unfold f. set (q := square _) in *.
        assert (HN : 1 <= INR (i + 1)) by (change 1 with (INR 1); apply le_INR; lia). assert (HI : 0 < / INR (i + 1)) by (apply Rinv_0_lt_compat; lra). assert (HP : INR (i + 1) * / INR (i + 1) = 1) by (apply Rinv_r; lra). assert (HI1 : / INR (i + 1) <= 1) by nra. unfold Rdiv. assert (-1 <= a * q <= 1) by nra. nra. }
      unfold df4. fold a b. assert (E : rsum (map (fun i => square (x_ i x - a * square (x_ 0 x / df4_c t) / INR (i + 1))) (seq 1 (n - 1))) = 0).
      { assert (G0 : forall l, (forall i, In i l -> (1 <= i < n)%nat) -> rsum (map (fun i => square (x_ i x - a * square (x_ 0 x / df4_c t) / INR (i + 1))) l) = 0).
        { unfold rsum. induction l as [|i l IH]; intros Hl; cbn [map fold_right]; auto. rewrite IH by (intros j Hj; apply Hl; now right). rewrite HX by (apply Hl; now left). change (x_ 0 x) with s. unfold f. rewrite square_0. ring. }
        apply G0. intros i Hi. apply in_seq in Hi. lia. }
      rewrite E. change (x_ 0 x) with s. f_equal; [|f_equal]; ring.
    - intros x Hx. pose proof (hd_dom _ _ _ _ _ _ Hn Hx) as H0. set (z := x_ 0 x) in *. unfold df4. fold a b. fold z.
      assert (Hg : 1 <= 1 + rsum (map (fun i => square (x_ i x - a * square (z / df4_c t) / INR (i + 1))) (seq 1 (n - 1)))).
      { assert (G0 : forall l, 0 <= rsum (map (fun i => square (x_ i x - a * square (z / df4_c t) / INR (i + 1))) l)) by (unfold rsum; induction l as [|i l IH]; cbn [map fold_right]; [lra|pose proof (square_nonneg (x_ i x - a * square (z / df4_c t) / INR (i + 1))); lra]). pose proof (G0 (seq 1 (n - 1))). lra. }
      set (g := 1 + _) in *.
      assert (HP : exists s, a <= s <= m /\ Rabs (s - a) <= Rabs (z - a) /\ Rabs (s - a - b) <= Rabs (z - a - b)).
      { destruct (Rlt_dec z a) as [L|L]; [exists a|destruct (Rlt_dec m z) as [L'|L']; [exists m|exists z; lra]].
        - split; [lra|]. rewrite (Rabs_left (z - a)), (Rabs_left (z - a - b)), (Rabs_left (a - a - b)) by lra. replace (a - a) with 0 by ring. rewrite Rabs_R0. lra.
        - assert (m = a + b) by (unfold m, Rmin in *; destruct (Rle_dec 2 (a + b)); lra). split; [lra|]. rewrite (Rabs_right (z - a)), (Rabs_right (m - a)), (Rabs_right (z - a - b)) by lra. replace (m - a - b) with 0 by lra. rewrite Rabs_R0. lra. }
      destruct HP as (s & Hs & P1 & P2). exists s. eexists _, _. split; auto. split; [reflexivity|].
      pose proof (np_power_le _ _ (df4_H t) (Rabs_pos _) P1 HH). pose proof (np_power_le _ _ (df4_H t) (Rabs_pos _) P2 HH). pose proof (np_power_nonneg (Rabs (z - a)) (df4_H t)). pose proof (np_power_nonneg (Rabs (z - a - b)) (df4_H t)). split; nra.
    - intros s s' H1 H2 H3. rewrite !(Rabs_right (_ - a)) by lra. rewrite (Rabs_left1 (s' - a - b)), (Rabs_left1 (s - a - b)) by lra. split; apply np_power_lt; lra. }
  split; auto. split; [|split].
  - intros Hle k. unfold df4_front. fold a b. assert (m = a + b) by (unfold m; apply Rmin_right; lra). apply (front_of_linspace dom (df4 t n) a (a + b) (df4_point t)); [lra|]. rewrite <- H. exact G.
  - intros Hgt k Hk. exists (df4_point t (a + b)). split.
    + unfold df4_front. fold a b. apply in_map_iff. exists (a + b). split; auto. destruct k as [|[|k]]; [lia|lia|]. cbn [linspace]. apply in_map_iff. exists (S k). split; [|apply in_seq; lia]. replace (S (S k) - 1)%nat with (S k) by lia. field. apply not_0_INR. lia.
    + intros (x & Hx & E). pose proof (hd_dom _ _ _ _ _ _ Hn Hx) as H0. unfold df4, df4_point in E. fold a b in E. set (z := x_ 0 x) in *.
      assert (Hg : 1 <= 1 + rsum (map (fun i => square (x_ i x - a * square (z / df4_c t) / INR (i + 1))) (seq 1 (n - 1)))).
      { assert (G0 : forall l, 0 <= rsum (map (fun i => square (x_ i x - a * square (z / df4_c t) / INR (i + 1))) l)) by (unfold rsum; induction l as [|i l IH]; cbn [map fold_right]; [lra|pose proof (square_nonneg (x_ i x - a * square (z / df4_c t) / INR (i + 1))); lra]). pose proof (G0 (seq 1 (n - 1))). lra. }
      set (g := 1 + _) in *. injection E as _ E2. replace (a + b - a - b) with 0 in E2 by ring. rewrite Rabs_R0, np_power_0 in E2. assert (0 < np_power (Rabs (z - a - b)) (df4_H t)) by (apply np_power_gt0; rewrite Rabs_left by lra; lra). nra.
  - intros Ht. unfold a, b, df4_a, df4_b. pose proof PI_lb. set (u := 0.5 * PI * t). assert (Hu : 0 < u < PI / 2) by (unfold u; split; nra). assert (0 < sin u) by (apply sin_gt_0; lra). assert (0 < cos u) by (apply cos_gt_0; lra). rewrite Rabs_right by lra. pose proof (sin2_cos2 u) as E. unfold Rsqr in E. pose proof (sin_b u). pose proof (cos_b u). nra.
Qed.
(** a time at which everything reported is right, and one at which it is not *)
Example C113_df4_ex : df4_a 0 + df4_b 0 <= 2 /\ 2 < df4_a 0.5 + df4_b 0.5.
Proof.
  split; [unfold df4_a, df4_b; rewrite Rmult_0_r, sin_0, cos_0, Rabs_R1; lra|]. apply (C113_df4 0.5 1 ltac:(lia)). lra.
Qed.
