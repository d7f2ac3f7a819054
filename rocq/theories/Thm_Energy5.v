(** * C118: the points returned can be worse than the points given *)
From Coq Require Import List Arith Bool Reals Lra Lia.
From Verif Require Import ListAux M_NSGA3R M_Energy Thm_Energy Thm_Energy2.
Import ListNotations.
Local Open Scope R_scope.

Definition tri (x : R) : list (list R) := [[1; 0]; [0; 1]; [x; 1 - x]].
Definition one_step : opts := {| n_max_iter := 1; n_max_not_improved := 30; norm_gradients := true; precision := / 10 ^ 6; restarts := true; o_d := 4 |}.
Lemma eps4 : eps_dist 4 < / 10.
Proof.
  unfold eps_dist. replace (/ 10) with (Rpower 10 (- (1))) by (rewrite Rpower_Ropp, Rpower_1; lra). apply Rpower_lt; [lra|]. cbn [INR]. lra.
Qed.
Lemma dist4 a b s : 0 <= s -> norm (map2 Rminus a b) = s -> / 10 <= s -> dist 4 a b = s.
Proof. intros H <- Hs. unfold dist. cbn zeta. pose proof eps4. destruct (Rlt_dec _ _); auto; lra. Qed.
Lemma sq2 : sqrt 2 * sqrt 2 = 2.
Proof. apply sqrt_sqrt. lra. Qed.
Lemma sqrt2_ge : 1 <= sqrt 2.
Proof. rewrite <- sqrt_1. apply sqrt_le_1; lra. Qed.
Lemma norm2 u s : 0 <= s -> u * u = s * s -> sqrt (u * u + (u * u + 0)) = sqrt 2 * s.
Proof. intros Hs E. replace (u * u + (u * u + 0)) with (2 * (s * s)) by lra. rewrite sqrt_mult by nra. now rewrite sqrt_square. Qed.
Lemma d12 : dist 4 [1; 0] [0; 1] = sqrt 2.
Proof. pose proof sqrt2_ge. apply dist4; try lra. unfold norm, rsum. cbn. f_equal. ring. Qed.
Lemma d1 x : 2 / 5 <= x <= 3 / 5 -> dist 4 [1; 0] [x; 1 - x] = sqrt 2 * (1 - x).
Proof. intros Hx. pose proof sqrt2_ge. apply dist4; try nra. unfold norm, rsum. cbn. rewrite <- (norm2 (1 - x)) by (auto; lra). f_equal. ring. Qed.
Lemma d2 x : 2 / 5 <= x <= 3 / 5 -> dist 4 [0; 1] [x; 1 - x] = sqrt 2 * x.
Proof. intros Hx. pose proof sqrt2_ge. apply dist4; try nra. unfold norm, rsum. cbn. rewrite <- (norm2 x) by (auto; lra). f_equal. ring. Qed.
Lemma d1' x : 2 / 5 <= x <= 3 / 5 -> dist 4 [x; 1 - x] [1; 0] = sqrt 2 * (1 - x).
Proof. intros Hx. pose proof sqrt2_ge. apply dist4; try nra. unfold norm, rsum. cbn. rewrite <- (norm2 (1 - x)) by (auto; lra). f_equal. ring. Qed.
Lemma d2' x : 2 / 5 <= x <= 3 / 5 -> dist 4 [x; 1 - x] [0; 1] = sqrt 2 * x.
Proof. intros Hx. pose proof sqrt2_ge. apply dist4; try nra. unfold norm, rsum. cbn. rewrite <- (norm2 x) by (auto; lra). f_equal. ring. Qed.
Lemma pow4 s : (sqrt 2 * s) ^ 4 = 4 * s ^ 4.
Proof. replace ((sqrt 2 * s) ^ 4) with ((sqrt 2 * sqrt 2) * (sqrt 2 * sqrt 2) * s ^ 4) by ring. rewrite sq2. ring. Qed.
Lemma pow6 s : (sqrt 2 * s) ^ 6 = 8 * s ^ 6.
Proof. replace ((sqrt 2 * s) ^ 6) with ((sqrt 2 * sqrt 2) * (sqrt 2 * sqrt 2) * (sqrt 2 * sqrt 2) * s ^ 6) by ring. rewrite sq2. ring. Qed.
Definition E4 (x : R) : R := 1 / 4 + 1 / (4 * (1 - x) ^ 4) + 1 / (4 * x ^ 4).
Lemma energy_tri x : 2 / 5 <= x <= 3 / 5 -> energy_sum 4 (tri x) = E4 x.
Proof.
  intros Hx. unfold tri, energy_sum, E4, rsum. cbn [map fold_right]. rewrite d12, d1, d2, !pow4 by auto. replace (sqrt 2 ^ 4) with 4; [lra|]. replace (sqrt 2 ^ 4) with ((sqrt 2 * sqrt 2) * (sqrt 2 * sqrt 2)) by ring. rewrite sq2. ring.
Qed.
Lemma E4_pos x : 2 / 5 <= x <= 3 / 5 -> 0 < E4 x <= 100.
Proof.
  intros Hx. assert (G : forall y, 2 / 5 <= y -> 0 < 1 / (4 * y ^ 4) <= 49).
  { intros y Hy. assert (K : (2 / 5) ^ 4 <= y ^ 4) by (apply pow_incr; lra). assert (0 < 4 * y ^ 4) by lra. split; [apply Rdiv_lt_0_compat; lra|]. apply Rmult_le_reg_r with (4 * y ^ 4); auto. unfold Rdiv. rewrite Rmult_assoc, Rinv_l by lra. lra. }
  unfold E4. pose proof (G (1 - x) ltac:(lra)). pose proof (G x ltac:(lra)). lra.
Qed.
(** further from the middle: more energy *)
Lemma E4_incr s r : 0 <= s < r -> r <= 1 / 10 -> E4 (1 / 2 + s) < E4 (1 / 2 - r).
Proof.
  intros Hs Hr. assert (G : forall s, -1 / 10 <= s <= 1 / 10 -> E4 (1 / 2 + s) = 1 / 4 + (1 / 8 + 3 * (s * s) + 2 * (s * s) * (s * s)) * / (4 * ((1 / 4 - s * s) ^ 4))).
  { clear. intros s Hs. unfold E4. assert (s * s <= 1 / 100) by nra. field. repeat split; nra. }
  rewrite G by lra. replace (1 / 2 - r) with (1 / 2 + - r) by ring. rewrite G by lra. assert (K : s * s < r * r) by nra. assert (K2 : r * r <= 1 / 100) by nra. assert (K3 : 0 <= s * s) by nra. replace (- r * - r) with (r * r) by ring. set (z := s * s) in *. set (w := r * r) in *. clearbody z w.
  apply Rplus_lt_compat_l. assert (P : 0 < (1 / 4 - w) ^ 4) by (apply pow_lt; lra). assert (Q : (1 / 4 - w) ^ 4 <= (1 / 4 - z) ^ 4) by (apply pow_incr; lra).
  assert (Q2 : / (4 * (1 / 4 - z) ^ 4) <= / (4 * (1 / 4 - w) ^ 4)) by (apply Rinv_le_contravar; lra). assert (Q3 : 0 < / (4 * (1 / 4 - z) ^ 4)) by (apply Rinv_0_lt_compat; lra).
  apply Rlt_le_trans with ((1 / 8 + 3 * w + 2 * w * w) * / (4 * (1 / 4 - z) ^ 4)); [apply Rmult_lt_compat_r; auto; nra|]. apply Rmult_le_compat_l; auto. nra.
Qed.

Definition q0 : R := 501 / 1000.
Definition rows0 : list row := [make_row true [1; 0]; make_row true [0; 1]; make_row false [q0; 1 - q0]].
Definition g0 : R := (4 * (1 - q0) / (8 * (1 - q0) ^ 6) - 4 * q0 / (8 * q0 ^ 6)) / E4 q0.
Lemma points0 : points rows0 = tri q0.
Proof. reflexivity. Qed.
Lemma free_gradient : row_gradient one_step rows0 (make_row false [q0; 1 - q0]) = [g0; - g0].
Proof.
  unfold row_gradient. cbn [frozen make_row o_d one_step]. rewrite points0, coords_make. unfold gradient. rewrite energy_tri by (unfold q0; lra). unfold tri. cbn [length seq map nth]. change (4 + 2)%nat with 6%nat.
  rewrite d1', d2', !pow6 by (unfold q0; lra). unfold project_zero, rsum. cbn [map fold_right length].
  replace (INR 4) with 4 by (cbn; lra). replace (INR 2) with 2 by (cbn; lra).
  replace (- (4) * (q0 - q0) / _) with 0 by (unfold Rdiv; ring). replace (- (4) * (1 - q0 - (1 - q0)) / _) with 0 by (unfold Rdiv; ring).
  assert (E4 q0 <> 0) by (pose proof (E4_pos q0); unfold q0 in *; lra). assert (q0 <> 0) by (unfold q0; lra). assert (1 - q0 <> 0) by (unfold q0; lra).
  unfold g0. f_equal; [|f_equal]; field; auto.
Qed.
Lemma g0_pos : / 1000 <= g0.
Proof.
  unfold g0. pose proof (E4_pos q0 ltac:(unfold q0; lra)) as [P1 P2]. apply Rmult_le_reg_r with (E4 q0); auto. unfold Rdiv at 1. rewrite Rmult_assoc, Rinv_l, Rmult_1_r by lra. apply Rle_trans with (/ 1000 * 100); [lra|]. unfold q0. lra.
Qed.
Lemma norm_zeros l : Forall (eq 0) l -> norm l = 0.
Proof. intros H. unfold norm. replace (rsum _) with 0; [apply sqrt_0|]. unfold rsum. induction H as [|v l <- H IH]; cbn; [auto|]. rewrite <- IH. ring. Qed.
Lemma div_tri : divisor one_step rows0 = sqrt 2 * g0.
Proof.
  pose proof g0_pos. pose proof sqrt2_ge. assert (HP : g0 <= sqrt 2 * g0) by (rewrite <- (Rmult_1_l g0) at 1; apply Rmult_le_compat_r; lra). unfold divisor. cbn [norm_gradients one_step]. unfold rows0 at 2. cbn [map max_list fold_right]. rewrite free_gradient. rewrite !norm_zeros by (apply frozen_gradient; reflexivity).
  replace (norm [g0; - g0]) with (sqrt 2 * g0). 2:{ unfold norm, rsum. cbn. rewrite <- (norm2 g0) by (auto; lra). f_equal. ring. }
  unfold max_list. cbn [fold_right]. rewrite (Rmax_left (sqrt 2 * g0)) by (apply Rle_trans with (/ 1000); [apply Rinv_le_contravar; [lra|apply Rle_trans with (10 ^ 3); [lra|apply Rle_pow; [lra|lia]]]|lra]). rewrite !(Rmax_right 0 (sqrt 2 * g0)) by lra. reflexivity.
Qed.
Lemma ratio : exists w, 9 / 10 < w < 1 /\ forall c, c_m c = 0 -> c_v c = 0 ->
  c_x (adam_cell (5 / 1000) 1 c (g0 / divisor one_step rows0)) = c_x c - 5 / 1000 * w /\ c_x (adam_cell (5 / 1000) 1 c (- g0 / divisor one_step rows0)) = c_x c + 5 / 1000 * w.
Proof.
  rewrite div_tri. pose proof g0_pos. pose proof sqrt2_ge. pose proof sq2. set (u := g0 / (sqrt 2 * g0)). assert (Hu : u = sqrt 2 / 2). { unfold u. apply Rmult_eq_reg_r with (sqrt 2); [|lra]. replace (sqrt 2 / 2 * sqrt 2) with (sqrt 2 * sqrt 2 / 2) by (unfold Rdiv; ring). rewrite sq2. field. split; lra. }
  replace (- g0 / (sqrt 2 * g0)) with (- u) by (unfold u; field; split; lra). assert (Hu1 : 1 / 2 <= u) by lra. clearbody u.
  assert (W1 : u / (u + 1 / 100000000) < 1) by (apply Rmult_lt_reg_r with (u + 1 / 100000000); [lra|]; replace (u / (u + 1 / 100000000) * (u + 1 / 100000000)) with u by (field; lra); lra).
  assert (W2 : 9 / 10 < u / (u + 1 / 100000000)) by (apply Rmult_lt_reg_r with (u + 1 / 100000000); [lra|]; replace (u / (u + 1 / 100000000) * (u + 1 / 100000000)) with u by (field; lra); lra).
  exists (u / (u + 1 / 100000000)). split; [lra|]. intros c Hm Hv. unfold adam_cell. cbn [c_x]. rewrite Hm, Hv.
  assert (Q : forall s, s * s = u * u -> (999 / 1000 * 0 + (1 - 999 / 1000) * (s * s)) / (1 - (999 / 1000) ^ 1) = u * u) by (intros s ->; field).
  rewrite !Q by ring. rewrite sqrt_square by lra. split; field; lra.
Qed.
(** C118: with the default settings and one iteration the points returned have more energy than the points given: the configuration after the step is stored with the
    energy before the step *)
Theorem C118_energy_refuted : exists X Y, Forall on_simplex X /\ solve one_step X None true = Some Y /\ log_energy 4 X < log_energy 4 Y.
Proof.
  destruct ratio as (w & Hw & HC). exists (tri q0), (tri (1 / 2 - (5 / 1000 * w - 1 / 1000))). split; [|split].
  - unfold tri, on_simplex, rsum, q0. repeat constructor; cbn; lra.
  - unfold solve. assert (HE : map (fun x => make_row (true && edge x) x) (tri q0) ++ [] = rows0).
    { unfold tri, rows0, edge. cbn [map app existsb]. assert (0 < / 10 ^ 16) by (apply Rinv_0_lt_compat; lra). assert (/ 10 ^ 16 < 1 / 10) by (unfold Rdiv; rewrite Rmult_1_l; apply Rinv_lt_contravar; lra).
      destruct (Rlt_dec 1 _); [lra|]. destruct (Rlt_dec 0 _); [|lra]. destruct (Rlt_dec q0 _); [unfold q0 in *; lra|]. destruct (Rlt_dec (1 - q0) _); [unfold q0 in *; lra|]. reflexivity. }
    rewrite HE. cbn [forallb rows0 frozen make_row andb]. change (n_max_iter one_step) with 1%nat. cbn [solve_loop length tri Nat.ltb Nat.leb].
    destruct (row_step one_step 2 ltac:(lia) rows0 (5 / 1000) 1 (make_row true [1; 0])) as (r1 & E1 & _ & _ & V1); [lra|lia|apply make_ok; auto; [unfold rsum; cbn; lra|discriminate]|].
    destruct (row_step one_step 2 ltac:(lia) rows0 (5 / 1000) 1 (make_row true [0; 1])) as (r2 & E2 & _ & _ & V2); [lra|lia|apply make_ok; auto; [unfold rsum; cbn; lra|discriminate]|].
    specialize (V1 eq_refl). specialize (V2 eq_refl). rewrite coords_make in V1, V2.
    set (f := fun r => finish_row (adam_row (5 / 1000) 1 (map (fun g => g / divisor one_step rows0) (row_gradient one_step rows0 r)) r)).
    set (x' := 1 / 2 - (5 / 1000 * w - 1 / 1000)).
    assert (E3 : exists r3, f (make_row false [q0; 1 - q0]) = Some r3 /\ coords r3 = [x'; 1 - x']).
    { unfold f. rewrite free_gradient. cbn [map]. unfold finish_row. cbn [adam_row frozen make_row]. unfold coords at 1. cbn [adam_row cells make_row map map2].
      destruct (HC {| c_x := q0; c_m := 0; c_v := 0 |} eq_refl eq_refl) as [C1 _]. destruct (HC {| c_x := 1 - q0; c_m := 0; c_v := 0 |} eq_refl eq_refl) as [_ C2]. rewrite C1, C2. cbn [c_x].
      replace (q0 - 5 / 1000 * w) with x' by (unfold x', q0; lra). replace (1 - q0 + 5 / 1000 * w) with (1 - x') by (unfold x', q0; lra).
      unfold project_simplex_row. replace (negative [x'; 1 - x']) with false by (symmetry; apply negative_false; repeat constructor; unfold x'; lra).
      eexists. split; [reflexivity|]. rewrite coords_with by reflexivity. unfold rsum. cbn [map fold_right]. f_equal; [|f_equal]; field; lra. }
    destruct E3 as (r3 & E3 & V3).
    assert (ES : step one_step (5 / 1000) 1 rows0 = Some [r1; r2; r3]).
    { unfold step. fold f. unfold rows0 at 1. cbn [map]. fold f in E1, E2. change (f (make_row true [1; 0]) = Some r1) in E1. change (f (make_row true [0; 1]) = Some r2) in E2. cbn [all_rows]. rewrite E1, E2, E3. reflexivity. }
    rewrite ES. cbn [improves]. assert (EP : points [r1; r2; r3] = tri x') by (unfold points, tri; cbn [map]; now rewrite V1, V2, V3).
    assert (FE : Some (firstn 3 (points [r1; r2; r3])) = Some (tri x')) by (rewrite EP; reflexivity).
    destruct (Rlt_dec _ _); [exact FE|]. destruct (restarts one_step && _)%bool; cbn [solve_loop]; exact FE.
  - unfold log_energy. change (length (tri _)) with 3%nat. apply Rplus_lt_compat_l. rewrite !energy_tri by (unfold q0; lra). apply ln_increasing; [apply E4_pos; unfold q0; lra|]. replace q0 with (1 / 2 + 1 / 1000) by (unfold q0; lra). apply E4_incr; lra.
Qed.
(** the hypotheses of C118_simplex, C118_best and C118_gradient are met *)
Example C118_example :
  Forall (fun x => length x = 2%nat /\ on_simplex x) (tri (1 / 2)) /\
  (exists Y, solve one_step (tri (1 / 2)) None true = Some Y /\ length Y = 3%nat /\ nth 0 Y [] = [1; 0]) /\
  Forall (fun b => length b = 2%nat /\ eps_dist 4 < norm (map2 Rminus [1 / 2; 1 - 1 / 2] b)) [[1; 0]; [0; 1]].
Proof.
  assert (H : Forall (fun x => length x = 2%nat /\ on_simplex x) (tri (1 / 2))) by (unfold tri, on_simplex, rsum; repeat constructor; cbn; lra).
  split; auto. split.
  - destruct (C118_simplex one_step (tri (1 / 2)) None true 2 ltac:(lia) H) as (Y & E & _ & K & L & _); [discriminate|]. exists Y. split; auto. split.
    + apply L. exists [1 / 2; 1 - 1 / 2]. split; [cbn; auto|]. right. assert (T : / 10 ^ 16 <= / 10 ^ 1) by (apply Rinv_le_contravar; [lra|apply Rle_pow; [lra|lia]]). constructor; [lra|]. constructor; [lra|]. constructor.
    + apply (K 0%nat); auto; [cbn; lia|]. exists 0. split; [cbn; auto|]. apply Rinv_0_lt_compat. apply pow_lt. lra.
  - pose proof eps4. pose proof sqrt2_ge. assert (N : forall s, s * s = 1 / 2 -> 1 / 10 < sqrt (1 / 2)) by (intros s _; rewrite <- (sqrt_square (1 / 10)) by lra; apply sqrt_lt_1; lra).
    assert (N2 : 1 / 10 < sqrt (1 / 2)) by (rewrite <- (sqrt_square (1 / 10)) by lra; apply sqrt_lt_1; lra).
    repeat constructor; unfold norm, rsum; cbn [map2 map fold_right];
    [replace ((1 / 2 - 1) * (1 / 2 - 1) + ((1 - 1 / 2 - 0) * (1 - 1 / 2 - 0) + 0)) with (1 / 2) by lra | replace ((1 / 2 - 0) * (1 / 2 - 0) + ((1 - 1 / 2 - 1) * (1 - 1 / 2 - 1) + 0)) with (1 / 2) by lra]; lra.
Qed.
