(** * C118: the gradient of the energy method is the derivative of its energy *)
From Coq Require Import List Arith Bool Reals Lra Lia.
From Coquelicot Require Import Coquelicot.
From Verif Require Import ListAux M_NSGA3R M_Energy.
Import ListNotations.
Local Open Scope R_scope.

Definition sumsq (x : list R) : R := rsum (map (fun v => v * v) x).
Lemma sumsq_nonneg x : 0 <= sumsq x.
Proof. unfold sumsq, rsum. induction x as [|v x IH]; cbn; [lra|]. nra. Qed.
Lemma rsum_app a b : rsum (a ++ b) = rsum a + rsum b.
Proof. unfold rsum. induction a as [|v a IH]; cbn; [lra|]. rewrite IH. ring. Qed.
Lemma eps_pos d : 0 < eps_dist d.
Proof. apply exp_pos. Qed.
Lemma dist_pos d a b : 0 < dist d a b.
Proof. unfold dist. cbn zeta. pose proof (eps_pos d). destruct (Rlt_dec _ _); lra. Qed.
Lemma term_pos d a b : 0 < 1 / dist d a b ^ d.
Proof. unfold Rdiv. rewrite Rmult_1_l. apply Rinv_0_lt_compat, pow_lt, dist_pos. Qed.
Lemma norm_sumsq x : norm x = sqrt (sumsq x).
Proof. reflexivity. Qed.
Lemma norm_sym a b : norm (map2 Rminus a b) = norm (map2 Rminus b a).
Proof.
  rewrite !norm_sumsq. f_equal. unfold sumsq, rsum. revert b. induction a as [|v a IH]; intros [|w b]; cbn; auto. rewrite IH. ring.
Qed.
Lemma dist_sym d a b : dist d a b = dist d b a.
Proof. unfold dist. now rewrite norm_sym. Qed.
Lemma energy_split d L b R' : energy_sum d (L ++ b :: R') = energy_sum d (L ++ R') + rsum (map (fun c => 1 / dist d b c ^ d) (L ++ R')).
Proof.
  assert (C : forall v l, rsum (v :: l) = v + rsum l) by reflexivity.
  induction L as [|a L IH]; cbn [app energy_sum map]; [ring|]. rewrite IH, C, !map_app. cbn [map]. rewrite !rsum_app, !C, (dist_sym d a b). ring.
Qed.
Lemma energy_sum_nonneg d X : 0 <= energy_sum d X.
Proof.
  induction X as [|a X IH]; cbn [energy_sum]; [lra|]. assert (0 <= rsum (map (fun b => 1 / dist d a b ^ d) X)); [|lra]. unfold rsum. clear. induction X as [|b X IH]; cbn; [lra|]. pose proof (term_pos d a b). lra.
Qed.
Lemma energy_sum_pos d X : (2 <= length X)%nat -> 0 < energy_sum d X.
Proof.
  destruct X as [|a [|b X]]; cbn [length]; try lia. intros _. change (energy_sum d (a :: b :: X)) with ((1 / dist d a b ^ d + rsum (map (fun b => 1 / dist d a b ^ d) X)) + energy_sum d (b :: X)). pose proof (energy_sum_nonneg d (b :: X)). pose proof (term_pos d a b).
  assert (0 <= rsum (map (fun b => 1 / dist d a b ^ d) X)); [|lra]. unfold rsum. clear. induction X as [|c X IH]; cbn; [lra|]. pose proof (term_pos d a c). lra.
Qed.
(** one coordinate varies *)
Lemma norm_upd a b k : (k < length a)%nat -> length b = length a -> exists c, 0 <= c /\ forall t, norm (map2 Rminus (upd a k t) b) = sqrt ((t - nth k b 0) ^ 2 + c).
Proof.
  intros Hk Hb. assert (G : exists c, 0 <= c /\ forall t, sumsq (map2 Rminus (upd a k t) b) = (t - nth k b 0) ^ 2 + c).
  { revert a b Hk Hb. induction k as [|k IH]; intros [|v a] [|w b] Hk Hb; cbn in Hk, Hb; try lia.
    - exists (sumsq (map2 Rminus a b)). split; [apply sumsq_nonneg|]. intros t. unfold sumsq, rsum. cbn. ring.
    - destruct (IH a b ltac:(lia) ltac:(lia)) as (c & Hc & E). exists ((v - w) * (v - w) + c). split; [pose proof (pow2_ge_0 (v - w)); nra|]. intros t. cbn [upd map2 nth]. specialize (E t). change (sumsq (v - w :: map2 Rminus (upd a k t) b)) with ((v - w) * (v - w) + sumsq (map2 Rminus (upd a k t) b)). rewrite E. ring. }
  destruct G as (c & Hc & E). exists c. split; auto. intros t. rewrite norm_sumsq. now rewrite E.
Qed.
Lemma term_derive d a b k : (k < length a)%nat -> length b = length a -> eps_dist d < norm (map2 Rminus a b) ->
  is_derive (fun t => 1 / dist d (upd a k t) b ^ d) (nth k a 0) ((- INR d * (nth k a 0 - nth k b 0)) / dist d a b ^ (d + 2)).
Proof.
  intros Hk Hb He. destruct (norm_upd a b k Hk Hb) as (c & Hc & E). set (x := nth k a 0). set (y := nth k b 0) in *.
  assert (Hx : norm (map2 Rminus a b) = sqrt ((x - y) ^ 2 + c)). { rewrite <- E. f_equal. f_equal. symmetry. unfold x. clear. revert k. induction a as [|v a IH]; intros [|k]; cbn; auto. now rewrite IH. }
  pose proof (eps_pos d) as Hp. rewrite Hx in He. assert (HS : 0 < (x - y) ^ 2 + c) by (apply sqrt_lt_0_alt; rewrite sqrt_0; lra).
  set (f := fun t => sqrt ((t - y) ^ 2 + c)).
  assert (Df : is_derive f x ((x - y) / f x)).
  { unfold f. auto_derive; [nra|]. fold (f x). assert (0 < f x) by (unfold f; lra). replace ((x - y) * ((x - y) * 1)) with ((x - y) ^ 2) by ring. fold (f x). replace ((x + - y) * ((x + - y) * 1)) with ((x - y) ^ 2) by ring. fold (f x). field. lra. }
  assert (Hfx : 0 < f x) by (unfold f; lra).
  apply is_derive_ext_loc with (fun t => 1 / f t ^ d).
  - pose proof (ex_derive_continuous f x (ex_intro _ _ Df)) as C.
    pose proof (locally_open (fun v => eps_dist d < v) (fun v => eps_dist d < v) (open_gt (eps_dist d)) (fun v h => h) (f x) ltac:(unfold f; lra)) as C2. specialize (C _ C2). unfold filtermap in C. revert C. apply filter_imp. intros t Ht. cbn beta in Ht. unfold dist. cbn zeta. rewrite E. fold (f t). destruct (Rlt_dec (f t) (eps_dist d)); [lra|auto].
  - assert (Ed : dist d a b = f x). { unfold dist. cbn zeta. rewrite Hx. fold (f x). destruct (Rlt_dec (f x) (eps_dist d)); [unfold f in *; lra|auto]. }
    rewrite Ed. replace ((- INR d * (x - y)) / f x ^ (d + 2)) with (scal ((x - y) / f x) (- INR d * f x ^ (pred d) / (f x ^ d) ^ 2)).
    + apply (is_derive_comp (fun u => 1 / u ^ d) f x); [|exact Df]. auto_derive; [apply pow_nonzero; lra|]. field. apply pow_nonzero; lra.
    + unfold scal; cbn; unfold mult; cbn. destruct d as [|d]; [cbn; field; lra|]. cbn [pred]. rewrite pow_add. cbn [pow]. field. assert (f x ^ d <> 0) by (apply pow_nonzero; lra). split; auto; lra.
Qed.
Lemma sum_derive d a k Z : (k < length a)%nat -> List.Forall (fun b => length b = length a /\ eps_dist d < norm (map2 Rminus a b)) Z ->
  is_derive (fun t => rsum (map (fun b => 1 / dist d (upd a k t) b ^ d) Z)) (nth k a 0) (rsum (map (fun b => (- INR d * (nth k a 0 - nth k b 0)) / dist d a b ^ (d + 2)) Z)).
Proof.
  intros Hk H. induction H as [|b Z [H1 H2] H IH]; [apply (is_derive_const 0)|]. cbn [map]. unfold rsum. cbn [fold_right].
  apply (is_derive_plus (fun t => 1 / dist d (upd a k t) b ^ d) (fun t => rsum (map (fun b => 1 / dist d (upd a k t) b ^ d) Z))); [now apply term_derive|exact IH].
Qed.

Lemma ln_derive c e (f : R -> R) x D : is_derive f x D -> 0 < e + f x -> derivable_pt_lim (fun t => c + ln (e + f t)) x (D / (e + f x)).
Proof.
  intros H Hp. apply is_derive_Reals. auto_derive; [split; auto; now exists D|]. change (Derive (fun t => f t) x) with (Derive f x). rewrite (is_derive_unique f x D H). field. lra.
Qed.

(** C118: the analytic gradient used for the step is the derivative of the energy (logarithm of the mean of 1 / distance^d over the pairs): for every point whose
    distances to all others exceed the threshold that avoids overflow, and each of its coordinates *)
Theorem C118_gradient : forall d L a R' k, (k < length a)%nat -> L ++ R' <> [] -> List.Forall (fun b => length b = length a /\ eps_dist d < norm (map2 Rminus a b)) (L ++ R') ->
  derivable_pt_lim (fun t => log_energy d (L ++ upd a k t :: R')) (nth k a 0) (nth k (gradient d (L ++ a :: R') a) 0).
Proof.
  intros d L a R' k Hk Hne H. apply is_derive_Reals. unfold gradient. set (F := fun k : nat => rsum _ / _). rewrite (nth_indep (map F (seq 0 (length a))) 0 (F 0%nat)) by (rewrite map_length, seq_length; auto). rewrite (map_nth F), seq_nth by auto. cbn [Nat.add]. unfold F. clear F.
  assert (Hu : upd a k (nth k a 0) = a) by (clear; revert k; induction a as [|v a IH]; intros [|k]; cbn; auto; now rewrite IH).
  set (SV := energy_sum d (L ++ a :: R')). assert (HSV : 0 < SV) by (apply energy_sum_pos; rewrite app_length; cbn [length]; destruct L, R'; cbn [length app] in *; try lia; congruence).
  set (D := rsum (map (fun b => (- INR d * (nth k a 0 - nth k b 0)) / dist d a b ^ (d + 2)) (L ++ R'))).
  replace (rsum (map (fun b => (- INR d * (nth k a 0 - nth k b 0)) / dist d a b ^ (d + 2)) (L ++ a :: R'))) with D.
  2:{ unfold D. rewrite !map_app, !rsum_app. cbn [map]. unfold rsum at 4. cbn [fold_right]. match goal with |- _ = _ + (_ + ?z) => change z with (rsum (map (fun b => (- INR d * (nth k a 0 - nth k b 0)) / dist d a b ^ (d + 2)) R')) end.
      replace (- INR d * (nth k a 0 - nth k a 0)) with 0 by ring. unfold Rdiv at 4. ring. }
  apply (is_derive_ext (fun t => - ln (INR (n_pairs (length (L ++ a :: R')))) + ln (energy_sum d (L ++ R') + rsum (map (fun c => 1 / dist d (upd a k t) c ^ d) (L ++ R'))))).
  { intros t. unfold log_energy. rewrite energy_split, !app_length. reflexivity. }
  unfold SV. rewrite energy_split. unfold SV in HSV. rewrite energy_split in HSV. apply is_derive_Reals.
  match goal with |- derivable_pt_lim _ _ (D / (?e + rsum (map _ ?Z))) => replace (e + rsum (map (fun c => 1 / dist d a c ^ d) Z)) with (e + rsum (map (fun c => 1 / dist d (upd a k (nth k a 0)) c ^ d) Z)) by now rewrite Hu end.
  apply (ln_derive _ _ (fun t => rsum (map (fun c => 1 / dist d (upd a k t) c ^ d) (L ++ R')))); [now apply sum_derive|]. rewrite Hu in *. exact HSV.
Qed.
Print Assumptions C118_gradient.
