(** * C98: R-NSGA-III, reference directions around the aspiration points *)
From Coq Require Import List Arith Bool Lia Reals Lra.
From Verif Require Import ListAux M_RNSGA M_RNSGA3.
Import ListNotations.
Local Open Scope R_scope.

Lemma map2_len {A B C} (f : A -> B -> C) : forall u v, length u = length v -> length (map2 f u v) = length v.
Proof. induction u as [|x u IH]; intros [|y v] L; try discriminate; cbn; [reflexivity|f_equal; apply IH; cbn in L; lia]. Qed.
Lemma rsum_map2_plus : forall u v, length u = length v -> rsumR (map2 Rplus u v) = rsumR u + rsumR v.
Proof. induction u as [|x u IH]; intros [|y v] L; try discriminate; [cbn; lra|]. cbn [map2]. change (x + y + rsumR (map2 Rplus u v) = x + rsumR u + (y + rsumR v)). rewrite IH by (cbn in L; lia). lra. Qed.
Lemma rsum_map2_minus : forall u v, length u = length v -> rsumR (map2 Rminus u v) = rsumR u - rsumR v.
Proof. induction u as [|x u IH]; intros [|y v] L; try discriminate; [cbn; lra|]. cbn [map2]. change (x - y + rsumR (map2 Rminus u v) = x + rsumR u - (y + rsumR v)). rewrite IH by (cbn in L; lia). lra. Qed.
Lemma rsum_scale c u : rsumR (map (fun x => c * x) u) = c * rsumR u.
Proof. induction u as [|x u IH]; [cbn; lra|]. cbn [map]. change (c * x + rsumR (map (fun x => c * x) u) = c * (x + rsumR u)). rewrite IH. lra. Qed.
Lemma rsum_scale_r c u : rsumR (map (fun x => x * c) u) = rsumR u * c.
Proof. induction u as [|x u IH]; [cbn; lra|]. cbn [map]. change (x * c + rsumR (map (fun x => x * c) u) = (x + rsumR u) * c). rewrite IH. lra. Qed.
Lemma rsum_div c u : rsumR (map (fun x => x / c) u) = rsumR u / c.
Proof. unfold Rdiv. apply rsum_scale_r. Qed.
Lemma rsum_repeat c n : rsumR (repeat c n) = INR n * c.
Proof. induction n as [|n IH]; [cbn; lra|]. cbn [repeat]. change (c + rsumR (repeat c n) = INR (S n) * c). rewrite IH, S_INR. lra. Qed.
Lemma dot_const c : forall u n, length u = n -> dotR u (repeat c n) = rsumR u * c.
Proof. unfold dotR. induction u as [|x u IH]; intros n <-; [cbn; lra|]. cbn [length repeat map2]. change (x * c + rsumR (map2 Rmult u (repeat c (length u))) = (x + rsumR u) * c). rewrite IH by reflexivity. lra. Qed.
Lemma rsum_swap {A} (f : A -> nat -> R) (rows : list A) (cols : list nat) :
  rsumR (map (fun j => rsumR (map (fun r => f r j) rows)) cols) = rsumR (map (fun r => rsumR (map (fun j => f r j) cols)) rows).
Proof.
  induction rows as [|r rows IH]; cbn [map].
  - rewrite (map_ext (fun j => rsumR []) (fun j => 0 * 0)) by (intros; cbn; lra). change (rsumR (map (fun _ : nat => 0 * 0) cols) = 0). induction cols as [|c cols IHc]; [reflexivity|]. cbn [map]. change (0 * 0 + rsumR (map (fun _ => 0 * 0) cols) = 0). rewrite IHc. lra.
  - change (rsumR (map (fun j => f r j + rsumR (map (fun r => f r j) rows)) cols) = rsumR (map (fun j => f r j) cols) + rsumR (map (fun r => rsumR (map (fun j => f r j) cols)) rows)). rewrite <- IH. clear IH.
    induction cols as [|c cols IHc]; [cbn; lra|]. cbn [map]. change (f r c + rsumR (map (fun r => f r c) rows) + rsumR (map (fun j => f r j + rsumR (map (fun r => f r j) rows)) cols) = (f r c + rsumR (map (fun j => f r j) cols)) + (rsumR (map (fun r => f r c) rows) + rsumR (map (fun j => rsumR (map (fun r => f r j) rows)) cols))). rewrite IHc. lra.
Qed.
Lemma map_nth_seq (u : list R) m : length u = m -> map (fun j => nth j u 0) (seq 0 m) = u.
Proof. intros <-. induction u as [|x u IH]; [reflexivity|]. cbn [length seq map nth]. f_equal. rewrite <- seq_shift, map_map. exact IH. Qed.
Lemma mean_length m rows : length (mean_rows m rows) = m.
Proof. unfold mean_rows. now rewrite map_length, seq_length. Qed.
Lemma mean_sum m rows s : rows <> [] -> Forall (fun r => length r = m /\ rsumR r = s) rows -> rsumR (mean_rows m rows) = s.
Proof.
  intros Hne HF. unfold mean_rows.
  rewrite <- (map_map (fun j => rsumR (map (fun r => nth j r 0) rows)) (fun x => x / INR (length rows))), rsum_div, (rsum_swap (fun r j => nth j r 0) rows (seq 0 m)).
  assert (E : map (fun r => rsumR (map (fun j => nth j r 0) (seq 0 m))) rows = repeat s (length rows)).
  { clear Hne. induction HF as [|r rows [H1 H2] HF IH]; [reflexivity|]. cbn [map length repeat]. rewrite IH, map_nth_seq by exact H1. now rewrite H2. }
  rewrite E, rsum_repeat. field. apply not_0_INR. destruct rows; [congruence|discriminate].
Qed.
Lemma mean_scale m c rows : mean_rows m (map (map (fun x => c * x)) rows) = map (fun x => c * x) (mean_rows m rows).
Proof.
  unfold mean_rows. rewrite map_map. apply map_ext. intros j. rewrite map_map, map_length.
  rewrite (map_ext (fun r => nth j (map (fun x => c * x) r) 0) (fun r => c * nth j r 0)).
  - rewrite <- (map_map (fun r => nth j r 0) (fun x => c * x)), rsum_scale. unfold Rdiv. ring.
  - intros r. destruct (Nat.lt_ge_cases j (length r)) as [H|H]; [rewrite (nth_indep _ 0 (c * 0)) by (now rewrite map_length); exact (map_nth (fun x => c * x) r 0 j)|rewrite !nth_overflow; [ring|exact H|now rewrite map_length]].
Qed.

(** a point of the unit simplex in m dimensions *)
Definition in_simplex (m : nat) (d : list R) : Prop := length d = m /\ Forall (fun x => 0 <= x) d /\ rsumR d = 1.
Definition row_onehot (m i : nat) : list R := map (fun j => if (i =? j)%nat then 1 else 0) (seq 0 m).
Lemma onehot_sum i : forall n s, rsumR (map (fun j => if (i =? j)%nat then 1 else 0) (seq s n)) = if andb (s <=? i)%nat (i <? s + n)%nat then 1 else 0.
Proof.
  induction n as [|n IH]; intros s; cbn [seq map]; [replace (s <=? i)%nat with (s <=? i)%nat by reflexivity; destruct (Nat.leb_spec s i), (Nat.ltb_spec i (s + 0)); cbn; try lra; lia|].
  change ((if (i =? s)%nat then 1 else 0) + rsumR (map (fun j => if (i =? j)%nat then 1 else 0) (seq (S s) n)) = if ((s <=? i)%nat && (i <? s + S n)%nat)%bool then 1 else 0). rewrite IH.
  destruct (Nat.eqb_spec i s), (Nat.leb_spec (S s) i), (Nat.ltb_spec i (S s + n)), (Nat.leb_spec s i), (Nat.ltb_spec i (s + S n)); cbn; try lra; lia.
Qed.
Lemma onehot_simplex m i : (i < m)%nat -> in_simplex m (row_onehot m i).
Proof.
  intros Hi. split; [unfold row_onehot; now rewrite map_length, seq_length|]. split.
  - apply Forall_forall. intros x Hx. apply in_map_iff in Hx. destruct Hx as (j & <- & _). destruct (i =? j)%nat; lra.
  - unfold row_onehot. rewrite onehot_sum. replace (0 <=? i)%nat with true by (symmetry; apply Nat.leb_le; lia). replace (i <? 0 + m)%nat with true by (symmetry; apply Nat.ltb_lt; lia). reflexivity.
Qed.
Lemma eye_nth m i : (i < m)%nat -> nth i (eye m) [] = row_onehot m i.
Proof.
  intros Hi. unfold eye. rewrite (nth_indep _ [] (row_onehot m 0)) by (now rewrite map_length, seq_length). change (map (fun i => map (fun j => if (i =? j)%nat then 1 else 0) (seq 0 m)) (seq 0 m)) with (map (row_onehot m) (seq 0 m)). rewrite map_nth, seq_nth by exact Hi. reflexivity.
Qed.
Lemma sqrt_INR m : (0 < m)%nat -> 0 < sqrt (INR m) /\ sqrt (INR m) * sqrt (INR m) = INR m.
Proof. intros H. assert (0 < INR m) by (apply lt_0_INR; exact H). split; [now apply sqrt_lt_R0|apply sqrt_sqrt; lra]. Qed.
Lemma minus_zero u : forall n, length u = n -> map2 Rminus u (repeat 0 n) = u.
Proof. induction u as [|x u IH]; intros n <-; [reflexivity|]. cbn. rewrite (IH (length u)) by reflexivity. f_equal. lra. Qed.
Lemma zero_plus u : forall n, length u = n -> map2 Rplus (repeat 0 n) u = u.
Proof. induction u as [|x u IH]; intros n <-; [reflexivity|]. cbn. rewrite (IH (length u)) by reflexivity. f_equal. lra. Qed.
Lemma normal_vector m : map (fun x => x / sqrt (INR m)) (repeat 1 m) = repeat (/ sqrt (INR m)) m.
Proof. generalize (sqrt (INR m)). intros s. induction m as [|m IH]; [reflexivity|]. cbn. rewrite IH. f_equal. unfold Rdiv. ring. Qed.
(** the projection of a reference point: on its ray when that meets the plane, always on the plane *)
Definition center_of (m : nat) (point : list R) : list R := line_plane_intersection (repeat 0 m) point (nth 0 (eye m) []) (map (fun x => x / sqrt (INR m)) (repeat 1 m)) plane_tol.
Lemma center_spec m point : (0 < m)%nat -> length point = m ->
  length (center_of m point) = m /\ rsumR (center_of m point) = 1 /\
  (plane_tol * sqrt (INR m) < Rabs (rsumR point) -> center_of m point = map (fun x => x / rsumR point) point).
Proof.
  intros Hm L. unfold center_of, line_plane_intersection. rewrite normal_vector. destruct (sqrt_INR m Hm) as [S1 S2]. set (s := sqrt (INR m)) in *. rewrite eye_nth by exact Hm. destruct (onehot_simplex m 0 Hm) as (O1 & O2 & O3). set (e := row_onehot m 0) in *.
  rewrite (minus_zero point m L), (minus_zero e m O1), (dot_const _ point m L), (dot_const _ e m O1), O3.
  assert (ML : length (map2 Rminus point e) = m) by (rewrite map2_len; [exact O1|lia]). rewrite (dot_const _ _ m ML), (rsum_map2_minus point e) by lia. rewrite O3.
  assert (EA : Rabs (rsumR point * / s) = Rabs (rsumR point) / s) by (rewrite Rabs_mult, (Rabs_right (/ s)); [reflexivity|apply Rle_ge, Rlt_le, Rinv_0_lt_compat, S1]).
  destruct (Rlt_dec plane_tol (Rabs (rsumR point * / s))) as [D|D]; rewrite EA in D.
  - assert (D' : plane_tol * s < Rabs (rsumR point)). { apply (Rmult_lt_compat_r s) in D; [|exact S1]. unfold Rdiv in D. rewrite Rmult_assoc, Rinv_l, Rmult_1_r in D by lra. exact D. }
    assert (NZ : rsumR point <> 0). { intros E. rewrite E, Rabs_R0 in D'. unfold plane_tol in D'. assert (0 < / 1000000) by (apply Rinv_0_lt_compat; lra). assert (0 < / 1000000 * s) by (now apply Rmult_lt_0_compat). lra. }
    assert (EF : map (fun x => x * (1 * / s / (rsumR point * / s))) point = map (fun x => x / rsumR point) point) by (apply map_ext; intros x; field; split; [exact NZ|lra]).
    rewrite EF, (zero_plus (map (fun x => x / rsumR point) point) m) by (now rewrite map_length). split; [now rewrite map_length|]. split; [rewrite rsum_div; field; exact NZ|intros _; reflexivity].
  - split; [rewrite map2_len; rewrite map_length, repeat_length; lia|]. split.
    + rewrite rsum_map2_minus by (rewrite map_length, repeat_length; exact L). rewrite rsum_scale, rsum_repeat. rewrite <- S2. field. lra.
    + intros K. exfalso. apply D. apply (Rmult_lt_reg_r s); [exact S1|]. unfold Rdiv. rewrite Rmult_assoc, Rinv_l, Rmult_1_r by lra. exact K.
Qed.
Lemma clip_sum r : rsumR r <= rsumR (map (fun x => if Rlt_dec x 0 then 0 else x) r).
Proof. induction r as [|x r IH]; [cbn; lra|]. cbn [map]. change (x + rsumR r <= (if Rlt_dec x 0 then 0 else x) + rsumR (map (fun x => if Rlt_dec x 0 then 0 else x) r)). destruct (Rlt_dec x 0); lra. Qed.
Lemma clip_nonneg r : Forall (fun x => 0 <= x) (map (fun x => if Rlt_dec x 0 then 0 else x) r).
Proof. apply Forall_forall. intros y Hy. apply in_map_iff in Hy. destruct Hy as (x & <- & _). destruct (Rlt_dec x 0); lra. Qed.
Lemma point_dirs m mu dirs point : (0 < m)%nat -> dirs <> [] -> Forall (fun d => length d = m /\ rsumR d = 1) dirs -> length point = m ->
  length (dirs_of_point m mu dirs point) = length dirs /\ Forall (in_simplex m) (dirs_of_point m mu dirs point).
Proof.
  intros Hm Hne HD L. unfold dirs_of_point. fold (center_of m point). destruct (center_spec m point Hm L) as (C1 & C2 & _). set (c := center_of m point) in *.
  set (sh := map (map (fun x => mu * x)) dirs). assert (HS : Forall (fun r => length r = m /\ rsumR r = mu) sh).
  { apply Forall_forall. intros r Hr. apply in_map_iff in Hr. destruct Hr as (d & <- & Hd). rewrite Forall_forall in HD. destruct (HD d Hd) as [H1 H2]. split; [now rewrite map_length|]. rewrite rsum_scale, H2. lra. }
  assert (NS : sh <> []) by (unfold sh; destruct dirs; [congruence|discriminate]).
  set (shift := map2 Rminus c (mean_rows m sh)). assert (LS : length shift = m) by (unfold shift; rewrite map2_len; rewrite mean_length; auto).
  assert (SS : rsumR shift = 1 - mu) by (unfold shift; rewrite rsum_map2_minus by (now rewrite mean_length); now rewrite C2, (mean_sum m sh mu)).
  set (d := map (fun r => map2 Rplus r shift) sh). assert (Hd : Forall (fun r => length r = m /\ rsumR r = 1) d).
  { apply Forall_forall. intros r Hr. apply in_map_iff in Hr. destruct Hr as (r0 & <- & Hr0). rewrite Forall_forall in HS. destruct (HS r0 Hr0) as [H1 H2]. split; [rewrite map2_len; lia|]. rewrite rsum_map2_plus by lia. lra. }
  assert (Ld : length d = length dirs) by (unfold d, sh; now rewrite !map_length).
  destruct (forallb _ d) eqn:E.
  - split; [exact Ld|]. apply Forall_forall. intros r Hr. rewrite Forall_forall in Hd. destruct (Hd r Hr) as [H1 H2]. split; [exact H1|]. split; [|exact H2].
    rewrite forallb_forall in E. specialize (E r Hr). rewrite forallb_forall in E. apply Forall_forall. intros x Hx. specialize (E x Hx). destruct (Rlt_dec 0 x); [lra|discriminate].
  - split; [now rewrite map_length|]. apply Forall_forall. intros r Hr. apply in_map_iff in Hr. destruct Hr as (r0 & <- & Hr0). rewrite Forall_forall in Hd. destruct (Hd r0 Hr0) as [H1 H2].
    set (k := map (fun x => if Rlt_dec x 0 then 0 else x) r0). assert (K1 : 1 <= rsumR k) by (unfold k; pose proof (clip_sum r0); lra). assert (K2 := clip_nonneg r0). fold k in K2.
    split; [unfold k; now rewrite !map_length|]. split; [|rewrite rsum_div; field; lra].
    apply Forall_forall. intros y Hy. apply in_map_iff in Hy. destruct Hy as (x & <- & Hx). rewrite Forall_forall in K2. specialize (K2 x Hx). unfold Rdiv. apply Rmult_le_pos; [exact K2|]. apply Rlt_le, Rinv_0_lt_compat. lra.
Qed.
(** C98: for any reference points and any shrink factor: as many directions as the population has members; each in the unit simplex; the unit vectors are among them *)
Theorem C98_directions : forall m mu dirs points, (0 < m)%nat -> dirs <> [] -> Forall (fun d => length d = m /\ rsumR d = 1) dirs -> Forall (fun p => length p = m) points ->
  let D := get_ref_dirs_from_points m mu dirs points in
  length D = rn3_pop_size (length points) (length dirs) m /\ Forall (in_simplex m) D /\ forall i, (i < m)%nat -> In (row_onehot m i) D.
Proof.
  intros m mu dirs points Hm Hne HD HP D. unfold D, get_ref_dirs_from_points, rn3_pop_size.
  assert (G : length (concat (map (dirs_of_point m mu dirs) points)) = (length points * length dirs)%nat /\ Forall (in_simplex m) (concat (map (dirs_of_point m mu dirs) points))).
  { clear D. induction HP as [|p ps Hp HP IH]; [split; [reflexivity|constructor]|]. cbn [map concat length]. destruct (point_dirs m mu dirs p Hm Hne HD Hp) as [P1 P2]. destruct IH as [I1 I2]. rewrite app_length. split; [lia|]. apply Forall_app. auto. }
  destruct G as [G1 G2]. rewrite app_length. split; [unfold eye; rewrite map_length, seq_length; lia|]. split.
  - apply Forall_app. split; [exact G2|]. apply Forall_forall. intros r Hr. unfold eye in Hr. apply in_map_iff in Hr. destruct Hr as (i & <- & Hi). apply in_seq in Hi. apply onehot_simplex. lia.
  - intros i Hi. apply in_or_app. right. unfold eye. apply in_map_iff. exists i. split; [reflexivity|]. apply in_seq. lia.
Qed.
(** C98: the directions of one reference point are the aspiration directions shrunk by mu around the point's projection onto the simplex plane (along its ray from the ideal point, if that meets
    the plane), unless one of them leaves the positive orthant *)
Theorem C98_around : forall m mu dirs point, (0 < m)%nat -> dirs <> [] -> Forall (fun d => length d = m /\ rsumR d = 1) dirs -> length point = m ->
  exists center, length center = m /\ rsumR center = 1 /\ (plane_tol * sqrt (INR m) < Rabs (rsumR point) -> forall j, nth j center 0 = nth j point 0 / rsumR point) /\
    let value k j := nth j center 0 + mu * (nth j (nth k dirs []) 0 - rsumR (map (fun r => nth j r 0) dirs) / INR (length dirs)) in
    ((forall k j, (k < length dirs)%nat -> (j < m)%nat -> 0 < value k j) ->
     forall k j, (k < length dirs)%nat -> (j < m)%nat -> nth j (nth k (dirs_of_point m mu dirs point) []) 0 = value k j).
Proof.
  intros m mu dirs point Hm Hne HD L. destruct (center_spec m point Hm L) as (C1 & C2 & C3). exists (center_of m point). split; [exact C1|]. split; [exact C2|]. split.
  { intros K j. rewrite (C3 K). destruct (Nat.lt_ge_cases j (length point)) as [H|H]; [rewrite (nth_indep _ 0 (0 / rsumR point)) by (now rewrite map_length); exact (map_nth (fun x => x / rsumR point) point 0 j)|].
    rewrite !nth_overflow; [unfold Rdiv; ring|exact H|now rewrite map_length]. }
  intros value Hpos. unfold dirs_of_point. fold (center_of m point). set (c := center_of m point) in *. set (sh := map (map (fun x => mu * x)) dirs).
  set (shift := map2 Rminus c (mean_rows m sh)). assert (LS : length shift = m) by (unfold shift; rewrite map2_len; rewrite mean_length; auto).
  assert (N2 : forall (f : R -> R -> R) u v j, length u = length v -> (j < length v)%nat -> nth j (map2 f u v) 0 = f (nth j u 0) (nth j v 0)).
  { intros f. induction u as [|x u IH]; intros [|y v] j Lu Hj; try discriminate; cbn in Hj; [lia|]. destruct j as [|j]; [reflexivity|]. cbn. apply IH; cbn in Lu; lia. }
  assert (NM : forall j, (j < m)%nat -> nth j (mean_rows m sh) 0 = mu * (rsumR (map (fun r => nth j r 0) dirs) / INR (length dirs))).
  { intros j Hj. unfold sh. rewrite mean_scale. rewrite (nth_indep _ 0 (mu * 0)) by (rewrite map_length, mean_length; exact Hj). rewrite (map_nth (fun x => mu * x) (mean_rows m dirs) 0 j). f_equal. unfold mean_rows. set (g := fun j => rsumR (map (fun r => nth j r 0) dirs) / INR (length dirs)).
    rewrite (nth_indep _ 0 (g 0%nat)) by (now rewrite map_length, seq_length). rewrite map_nth, seq_nth by exact Hj. reflexivity. }
  set (d := map (fun r => map2 Rplus r shift) sh). assert (Ld : length d = length dirs) by (unfold d, sh; now rewrite !map_length).
  rewrite Forall_forall in HD.
  assert (VK : forall k j, (k < length dirs)%nat -> (j < m)%nat -> length (nth k d []) = m /\ nth j (nth k d []) 0 = value k j).
  { intros k j Hk Hj. destruct (HD (nth k dirs [])) as [L1 _]; [now apply nth_In|].
    assert (E : nth k d [] = map2 Rplus (map (fun x => mu * x) (nth k dirs [])) shift).
    { unfold d, sh. rewrite map_map. set (g := fun r => map2 Rplus (map (fun x => mu * x) r) shift). rewrite (nth_indep _ [] (g [])) by (now rewrite map_length). exact (map_nth g dirs [] k). }
    rewrite E. split; [rewrite map2_len; rewrite ?map_length; lia|]. rewrite N2 by (rewrite ?map_length; lia). rewrite (nth_indep _ 0 (mu * 0)) by (rewrite map_length; lia). rewrite (map_nth (fun x => mu * x)). unfold shift. rewrite N2 by (rewrite ?mean_length; auto). rewrite NM by exact Hj. unfold value. lra. }
  destruct (forallb _ d) eqn:E; [intros k j Hk Hj; apply VK; auto|]. exfalso. assert (T : forallb (forallb (fun x => if Rlt_dec 0 x then true else false)) d = true); [|congruence].
  apply forallb_forall. intros r Hr. apply forallb_forall. intros x Hx. destruct (In_nth _ _ [] Hr) as (k & Hk & <-). rewrite Ld in Hk. destruct (In_nth _ _ 0 Hx) as (j & Hj & <-). destruct (VK k 0%nat Hk Hm) as [Lk _]. rewrite Lk in Hj. destruct (VK k j Hk Hj) as [_ ->]. destruct (Rlt_dec 0 (value k j)); [reflexivity|]. exfalso. apply n. auto.
Qed.
(** the hypotheses are met: three aspiration directions around the reference point (1, 3) *)
Theorem C98_directions_example : let dirs := [[1; 0]; [1/2; 1/2]; [0; 1]] in
  Forall (fun d => length d = 2%nat /\ rsumR d = 1) dirs /\ plane_tol * sqrt (INR 2) < Rabs (rsumR [1; 3]) /\
  map (fun k => (nth 0 (nth k (dirs_of_point 2 (1/10) dirs [1; 3]) []) 0, nth 1 (nth k (dirs_of_point 2 (1/10) dirs [1; 3]) []) 0)) [0; 1; 2]%nat = [(3/10, 7/10); (1/4, 3/4); (2/10, 8/10)].
Proof.
  intros dirs. assert (HD : Forall (fun d => length d = 2%nat /\ rsumR d = 1) dirs) by (repeat (apply Forall_cons; [split; [reflexivity|cbn; lra]|]); apply Forall_nil). split; [exact HD|].
  assert (HK : plane_tol * sqrt (INR 2) < Rabs (rsumR [1; 3])).
  { assert (sqrt (INR 2) <= 2) by (rewrite <- (sqrt_square 2) by lra; apply sqrt_le_1_alt; cbn; lra). assert (rsumR [1; 3] = 4) by (cbn; lra). rewrite H0, Rabs_right by lra. unfold plane_tol. lra. }
  split; [exact HK|]. destruct (C98_around 2 (1/10) dirs [1; 3] ltac:(lia) ltac:(discriminate) HD eq_refl) as (c & _ & _ & C3 & C4). specialize (C3 HK).
  assert (c0 : nth 0 c 0 = 1/4) by (rewrite C3; cbn; lra). assert (c1 : nth 1 c 0 = 3/4) by (rewrite C3; cbn; lra). cbv zeta in C4.
  assert (V : forall k j, (k < length dirs)%nat -> (j < 2)%nat -> nth j (nth k (dirs_of_point 2 (1 / 10) dirs [1; 3]) []) 0 = nth j c 0 + 1/10 * (nth j (nth k dirs []) 0 - rsumR (map (fun r => nth j r 0) dirs) / INR (length dirs))).
  { apply C4. intros k j Hk Hj. cbn in Hk. destruct j as [|[|j]]; [| |lia]; rewrite ?c0, ?c1; (destruct k as [|[|[|k]]]; [| | |lia]); cbn; lra. }
  cbn [map]. rewrite !V by (cbn; lia). rewrite c0, c1. cbn. repeat (f_equal; try lra).
Qed.
