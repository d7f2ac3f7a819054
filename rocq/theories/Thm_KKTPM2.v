(** * C121 (continued): the measure *)
From Coq Require Import List Arith Bool Reals Lra Lia.
From Verif Require Import ListAux M_KKTPM Thm_KKTPM.
Import ListNotations.
Local Open Scope R_scope.

Lemma cv_pos pt : 0 < cv pt <-> ~ feasible pt.
Proof.
  unfold cv, feasible. split.
  - intros H C. rewrite vsum_0 in H; [lra|]. intros j Hj. apply Rmax_left. auto.
  - intros H. destruct (Rlt_dec 0 (vsum (n_ieq pt) (fun j => Rmax 0 (G pt j)))) as [|C]; auto. exfalso. apply H. intros j Hj.
    assert (N : forall i, (i < n_ieq pt)%nat -> 0 <= Rmax 0 (G pt i)) by (intros; apply Rmax_l). pose proof (vsum_nonneg (n_ieq pt) _ N).
    pose proof (vsum_nonneg_0 (n_ieq pt) _ N ltac:(lra) j Hj) as E. cbn beta in E. rewrite <- E. apply Rmax_r.
Qed.
(** C121: the search for multipliers ends: the measure never runs forever *)
Theorem C121_terminates : forall solve rho z pt fuel, exact_solver solve -> (n_obj pt + n_ieq pt <= fuel)%nat -> kktpm solve rho z pt fuel <> Running.
Proof.
  intros solve rho z pt fuel Hs Hf. unfold kktpm. destruct (Rlt_dec 0 (cv pt)); [discriminate|]. pose proof (found rho z pt solve Hs fuel Hf) as H. destruct (find_multipliers solve rho z pt fuel); [now destruct (n_ieq pt =? 0)%nat|discriminate|destruct H].
Qed.
(** C121: an infeasible solution is measured by 1 plus its constraint violation, more than 1 *)
Theorem C121_infeasible : forall solve rho z pt fuel, ~ feasible pt -> kktpm solve rho z pt fuel = Value (1 + vsum (n_ieq pt) (fun j => Rmax 0 (G pt j))) /\ 1 < 1 + vsum (n_ieq pt) (fun j => Rmax 0 (G pt j)).
Proof.
  intros solve rho z pt fuel H. apply cv_pos in H. unfold kktpm. destruct (Rlt_dec 0 (cv pt)) as [C|C]; [|contradiction]. split; [reflexivity|]. unfold cv in C. lra.
Qed.
(** C121: a feasible solution raises an exception if and only if there are no constraints at all, or the rows of the system are degenerate *)
Theorem C121_raises : forall solve rho z pt fuel, exact_solver solve -> (n_obj pt + n_ieq pt <= fuel)%nat -> feasible pt ->
  (kktpm solve rho z pt fuel = Raises <-> n_ieq pt = 0%nat \/
    exists v, vsum (n_obj pt) v = 0 /\ (forall k, (k < n_var pt)%nat -> vsum (size pt) (fun q => arow rho z pt q k * v q) = 0) /\ (forall j, (j < n_ieq pt)%nat -> G pt j * v (n_obj pt + j)%nat = 0) /\ exists q, (q < size pt)%nat /\ v q <> 0).
Proof.
  intros solve rho z pt fuel Hs Hf HF. unfold kktpm. destruct (Rlt_dec 0 (cv pt)) as [C|_]; [apply cv_pos in C; contradiction|]. pose proof (found rho z pt solve Hs fuel Hf) as H. pose proof (singular_iff rho z pt solve Hs fuel) as S0. unfold degenerate in S0.
  destruct (find_multipliers solve rho z pt fuel) as [u| |]; [|tauto|destruct H]. destruct (Nat.eqb_spec (n_ieq pt) 0) as [E|E]; [tauto|]. split; [discriminate|]. intros [|D]; [contradiction|]. apply S0 in D. discriminate.
Qed.
Section Found.
  Variables (solve : solver) (rho : R) (z : nat -> R) (pt : point) (fuel : nat).
  Hypothesis Hs : exact_solver solve.
  Hypothesis Hf : (n_obj pt + n_ieq pt <= fuel)%nat.
  Hypothesis HF : feasible pt.
  Lemma cauchy n t : vsum n t * vsum n t <= INR n * vsum n (fun j => t j * t j).
  Proof.
    induction n as [|n IH]; [cbn; lra|]. cbn [vsum]. rewrite S_INR. set (s := vsum n t) in *. set (d := vsum n (fun j => t j * t j)) in *. pose proof (pos_INR n) as Hn. set (t' := t n). assert (Hd : 0 <= d) by (apply vsum_nonneg; intros; apply Rle_0_sqr).
    destruct (Nat.eq_dec n 0) as [->|C]; [unfold s, d; cbn; lra|]. assert (0 < INR n) by (apply lt_0_INR; lia). set (N := INR n) in *. clearbody N s d t'.
    assert (2 * s * t' <= d + N * t' * t'); [|nra]. apply (Rmult_le_reg_l N); [lra|]. assert (0 <= (s - N * t') * (s - N * t')) by apply Rle_0_sqr. nra.
  Qed.
  (** s: the sum of the weights, q: the complementary slackness, d: the sum of squares of its terms *)
  Lemma value_shape r : kktpm solve rho z pt fuel = Value r -> exists u s q d gg,
    (forall i, (i < size pt)%nat -> 0 <= u i) /\ s = vsum (n_obj pt) u /\ q = - vsum (n_ieq pt) (fun j => G pt j * u (n_obj pt + j)%nat) /\ 0 <= q /\ 0 <= d /\ 0 <= gg /\ q * q <= INR (n_ieq pt) * d /\
    direct rho z pt u = 1 - s - d /\ 0 <= direct rho z pt u /\ 0 <= s <= 1 /\ d <= s * (1 - s) /\
    r = if Rlt_dec 1 (s + q * (1 + q)) then (direct rho z pt u + q + (direct rho z pt u * gg + q) / (1 + gg)) / 3 else direct rho z pt u.
  Proof.
    unfold kktpm. destruct (Rlt_dec 0 (cv pt)) as [C|_]; [apply cv_pos in C; contradiction|]. pose proof (found rho z pt solve Hs fuel Hf) as H.
    destruct (find_multipliers solve rho z pt fuel) as [u| |]; try discriminate. destruct (Nat.eqb_spec (n_ieq pt) 0) as [E0|E0]; try discriminate. intros E. injection E as <-.
    destruct H as (T & A' & b' & I0 & Hu). pose proof (normal_energy rho z pt T _ I0) as NE. cbn [snd] in NE.
    set (V := vsum (n_var pt) _) in NE. set (d := vsum (n_ieq pt) (fun j => G pt j * G pt j * _ * _)) in NE. set (s := vsum (n_obj pt) u) in *.
    assert (HV : 0 <= V) by (apply vsum_nonneg; intros; apply Rle_0_sqr).
    assert (Hd : 0 <= d) by (apply vsum_nonneg; intros j _; set (t := u (n_obj pt + j)%nat); set (g := G pt j); nra).
    assert (Hss : 0 <= s) by (apply vsum_nonneg; intros i Hi; apply Hu; unfold size; lia).
    assert (ED : direct rho z pt u = 1 - s - d).
    { unfold direct. fold s. rewrite (vsum_ext (n_var pt) _ (fun k => vsum (size pt) (fun q => arow rho z pt q k * u q) * vsum (size pt) (fun q => arow rho z pt q k * u q))) by (intros; ring). fold V. nra. }
    exists u, s, (- vsum (n_ieq pt) (fun j => G pt j * u (n_obj pt + j)%nat)), d, (vsum (n_ieq pt) (fun j => G pt j * G pt j)).
    assert (Hs1 : s <= 1) by nra.
    split; [exact Hu|]. split; [reflexivity|]. split; [reflexivity|]. split.
    { rewrite <- (Rmult_1_l (vsum _ _)), Ropp_mult_distr_l, <- vsum_scal. apply vsum_nonneg. intros j Hj. specialize (HF j Hj). assert (0 <= u (n_obj pt + j)%nat) by (apply Hu; unfold size; lia). nra. }
    split; [exact Hd|]. split; [apply vsum_nonneg; intros; apply Rle_0_sqr|]. split.
    { rewrite Rmult_opp_opp. eapply Rle_trans; [apply cauchy|]. apply Req_le. f_equal. apply vsum_ext. intros; ring. }
    split; [exact ED|]. split; [|split; [lra|]; split; [nra|]].
    - unfold direct. fold s. assert (0 <= vsum (n_var pt) (fun k => vsum (size pt) (fun q => arow rho z pt q k * u q) ^ 2)) by (apply vsum_nonneg; intros; apply pow2_ge_0). pose proof (pow2_ge_0 (1 - s)). lra.
    - unfold measure. fold s. cbv zeta. unfold Rminus at 1. reflexivity.
  Qed.
  Lemma convex_le dd q gg : 0 <= gg -> (dd * gg + q) / (1 + gg) <= Rmax dd q.
  Proof.
    intros Hg. apply (Rmult_le_reg_r (1 + gg)); [lra|]. unfold Rdiv. rewrite Rmult_assoc, Rinv_l, Rmult_1_r by lra. pose proof (Rmax_l dd q). pose proof (Rmax_r dd q). nra.
  Qed.
  Lemma value_nonneg r : kktpm solve rho z pt fuel = Value r -> 0 <= r.
  Proof.
    intros H. destruct (value_shape r H) as (u & s & q & d & gg & _ & _ & _ & Hq & Hd & Hg & _ & _ & Hdd & _ & _ & ->). destruct (Rlt_dec 1 _); auto. assert (0 <= (direct rho z pt u * gg + q) / (1 + gg)); [|lra]. apply Rmult_le_pos; [nra|]. left. apply Rinv_0_lt_compat. lra.
  Qed.
  Lemma value_le_1 r : (n_ieq pt <= 7)%nat -> kktpm solve rho z pt fuel = Value r -> r <= 1.
  Proof.
    intros Hj H. destruct (value_shape r H) as (u & s & q & d & gg & _ & _ & _ & Hq & Hd & Hg & Hqd & ED & Hdd & Hss & Hds & ->). destruct (Rlt_dec 1 _); [|lra]. pose proof (convex_le (direct rho z pt u) q gg Hg) as Hc. set (P := _ / (1 + gg)) in *. set (dd := direct rho z pt u) in *. clearbody P dd.
    assert (INR (n_ieq pt) <= 7) by (replace 7 with (INR 7) by (cbn; lra); now apply le_INR). assert (Hq7 : q * q <= 7 * d) by nra.
    destruct (Rle_lt_dec q dd) as [C|C]; [rewrite Rmax_left in Hc by lra; lra|]. rewrite Rmax_right in Hc by lra.
    assert (2 * q - d - s <= 2); [|lra]. assert (0 <= (q - 14 / 11) * (q - 14 / 11)) by apply Rle_0_sqr. assert (0 <= (s - 7 / 18) * (s - 7 / 18)) by apply Rle_0_sqr. nra.
  Qed.
  Lemma value_zero : (1 <= n_ieq pt)%nat -> kktpm solve rho z pt fuel = Value 0 -> exists u, kkt rho z pt u.
  Proof.
    intros Hj H. destruct (value_shape 0 H) as (u & s & q & d & gg & Hu & Es & Eq & Hq & Hd & Hg & Hqd & ED & Hdd & Hss & Hds & E). exists u.
    assert (D0 : direct rho z pt u = 0 /\ q = 0).
    { destruct (Rlt_dec 1 (s + q * (1 + q))) as [C|C].
      - assert (0 <= (direct rho z pt u * gg + q) / (1 + gg)) by (apply Rmult_le_pos; [nra|]; left; apply Rinv_0_lt_compat; lra). lra.
      - split; [lra|]. unfold direct in E. assert (0 <= vsum (n_var pt) (fun k => vsum (size pt) (fun q => arow rho z pt q k * u q) ^ 2)) by (apply vsum_nonneg; intros; apply pow2_ge_0). rewrite <- Es in E. assert (E1 : (1 - s) * (1 - s) = 0) by nra. assert (s = 1) by (apply Rmult_integral in E1; lra). subst s. nra. }
    destruct D0 as [D0 Q0]. unfold direct in D0. rewrite <- Es in D0. assert (N : forall k, (k < n_var pt)%nat -> 0 <= vsum (size pt) (fun q => arow rho z pt q k * u q) ^ 2) by (intros; apply pow2_ge_0). pose proof (vsum_nonneg _ _ N) as N0. pose proof (pow2_ge_0 (1 - s)) as N1.
    split; [exact Hu|]. split; [|split].
    - rewrite <- Es. assert (E1 : (1 - s) * (1 - s) = 0) by nra. apply Rmult_integral in E1. lra.
    - intros k Hk. assert (E1 : vsum (size pt) (fun q => arow rho z pt q k * u q) ^ 2 = 0) by (apply (vsum_nonneg_0 _ _ N); auto; lra). apply Rsqr_0_uniq. unfold Rsqr. lra.
    - intros j Hj'. assert (E1 : - (G pt j * u (n_obj pt + j)%nat) = 0); [|lra].
      apply (vsum_nonneg_0 (n_ieq pt) (fun j => - (G pt j * u (n_obj pt + j)%nat))); auto.
      + intros i Hi. specialize (HF i Hi). assert (0 <= u (n_obj pt + i)%nat) by (apply Hu; unfold size; lia). nra.
      + rewrite (vsum_ext _ _ (fun j => -1 * (G pt j * u (n_obj pt + j)%nat))) by (intros; ring). rewrite vsum_scal. lra.
  Qed.
  Lemma zero_value u : (1 <= n_ieq pt)%nat -> kkt rho z pt u -> kktpm solve rho z pt fuel = Value 0 \/ kktpm solve rho z pt fuel = Raises.
  Proof.
    intros Hj (Hu & H1 & H2 & H3). unfold kktpm. destruct (Rlt_dec 0 (cv pt)) as [C|_]; [apply cv_pos in C; contradiction|]. unfold find_multipliers.
    pose proof (Hs (size pt) (A0 rho z pt) (b0 pt)) as S0. destruct (solve (size pt) (A0 rho z pt) (b0 pt)) as [u'|]; cbn [option_map]; [|right; now destruct fuel].
    destruct S0 as [S1 S2]. assert (Eu : forall q, (q < size pt)%nat -> u' q = u q).
    { intros q Hq. assert (u' q + -1 * u q = 0); [|lra]. apply (S2 (fun q => u' q + -1 * u q)); auto. intros p Hp.
      rewrite (vsum_ext _ _ (fun q => A0 rho z pt p q * u' q + -1 * (A0 rho z pt p q * u q))) by (intros; ring). rewrite vsum_plus, vsum_scal, S1 by auto. rewrite row_form by auto. rewrite H1, (vsum_0 (n_var pt)) by (intros k Hk; rewrite H2 by auto; ring).
      unfold b0. destruct (Nat.ltb_spec p (n_obj pt)) as [|C]; [ring|]. specialize (H3 (p - n_obj pt)%nat). replace (n_obj pt + (p - n_obj pt))%nat with p in H3 by lia. rewrite Rmult_assoc, H3; [ring|]. unfold size in Hp. lia. }
    assert (N : any_negative pt u' = false).
    { destruct (any_negative pt u') eqn:E; auto. unfold any_negative in E. apply existsb_exists in E. destruct E as (j & Hj' & En). apply in_seq in Hj'. destruct (Rlt_dec (u' j) 0) as [C|]; [|discriminate]. rewrite Eu in C by lia. specialize (Hu j). lra || (specialize (Hu ltac:(lia)); lra). }
    assert (EL : forall f, fix_loop solve pt f (Some (A0 rho z pt, b0 pt, u')) = Done u') by (intros f; destruct f; cbn [fix_loop]; now rewrite N). rewrite EL. destruct (Nat.eqb_spec (n_ieq pt) 0); [lia|]. left. f_equal. unfold measure.
    assert (Es : vsum (n_obj pt) u' = 1) by (rewrite <- H1; apply vsum_ext; intros i Hi; apply Eu; unfold size; lia).
    assert (Eg : vsum (n_ieq pt) (fun j => G pt j * u' (n_obj pt + j)%nat) = 0) by (apply vsum_0; intros j Hj'; rewrite Eu by (unfold size; lia); auto).
    cbv zeta. rewrite Es, Eg. destruct (Rlt_dec 1 (1 + - 0 * (1 + - 0))) as [C|_]; [lra|]. unfold direct. rewrite Es. rewrite vsum_0; [ring|]. intros k Hk.
    rewrite (vsum_ext _ _ (fun q => arow rho z pt q k * u q)) by (intros q Hq; now rewrite Eu). rewrite H2 by auto. ring.
  Qed.
End Found.
(** C121: with exact arithmetic, the measure of a feasible solution is not negative, and with up to seven constraints at most 1 *)
Theorem C121_range : forall solve rho z pt fuel r, exact_solver solve -> (n_obj pt + n_ieq pt <= fuel)%nat -> feasible pt -> kktpm solve rho z pt fuel = Value r -> 0 <= r /\ ((n_ieq pt <= 7)%nat -> r <= 1).
Proof. intros solve rho z pt fuel r Hs Hf HF H. split; [eapply value_nonneg; eauto|]. intros Hj. eapply value_le_1; eauto. Qed.
(** C121: for a feasible solution the measure is 0 if and only if it is a Karush-Kuhn-Tucker point of the scalarized problem (unless the rows are degenerate: an exception) *)
Theorem C121_zero : forall solve rho z pt fuel, exact_solver solve -> (n_obj pt + n_ieq pt <= fuel)%nat -> feasible pt -> (1 <= n_ieq pt)%nat -> kktpm solve rho z pt fuel <> Raises ->
  (kktpm solve rho z pt fuel = Value 0 <-> exists u, kkt rho z pt u).
Proof.
  intros solve rho z pt fuel Hs Hf HF Hj HR. split; [eapply value_zero; eauto|]. intros [u Hu]. destruct (zero_value solve rho z pt fuel Hs Hf HF u Hj Hu); [auto|contradiction].
Qed.
(** C121: then, if the ideal point is better in all objectives, the solution is critical for the problem itself: positive weights of the objectives and multipliers of the active constraints whose gradients balance *)
Theorem C121_critical : forall solve rho z pt fuel, exact_solver solve -> (n_obj pt + n_ieq pt <= fuel)%nat -> feasible pt -> (1 <= n_ieq pt)%nat -> 0 < rho -> (forall m, (m < n_obj pt)%nat -> z m < F pt m) -> kktpm solve rho z pt fuel = Value 0 ->
  exists lambda mu, (forall m, (m < n_obj pt)%nat -> 0 < lambda m) /\ (forall j, (j < n_ieq pt)%nat -> 0 <= mu j /\ G pt j * mu j = 0) /\
    forall k, (k < n_var pt)%nat -> vsum (n_obj pt) (fun m => lambda m * dF pt m k) + vsum (n_ieq pt) (fun j => mu j * dG pt j k) = 0.
Proof.
  intros solve rho z pt fuel Hs Hf HF Hj Hrho Hz H. destruct (value_zero solve rho z pt fuel Hs Hf HF Hj H) as (u & Hu & H1 & H2 & H3).
  assert (Hw : forall m, (m < n_obj pt)%nat -> 0 < w z pt m).
  { intros m Hm. unfold w. specialize (Hz m Hm) as Hzm. apply Rmult_lt_0_compat; [|apply Rinv_0_lt_compat; lra]. apply sqrt_lt_R0.
    assert (N : forall l, (l < n_obj pt)%nat -> 0 <= (F pt l - z l) ^ 2) by (intros; apply pow2_ge_0). pose proof (vsum_nonneg _ _ N) as [|E]; auto. symmetry in E. pose proof (vsum_nonneg_0 _ _ N E m Hm) as E0. cbn beta in E0. nra. }
  exists (fun m => w z pt m * (u m + rho)), (fun j => u (n_obj pt + j)%nat). split; [|split].
  - intros m Hm. apply Rmult_lt_0_compat; auto. specialize (Hu m ltac:(unfold size; lia)). lra.
  - intros j Hj'. split; [apply Hu; unfold size; lia|auto].
  - intros k Hk. rewrite <- (H2 k Hk). unfold size. rewrite vsum_app. f_equal.
    + rewrite (vsum_ext (n_obj pt) (fun i => arow rho z pt i k * u i) (fun i => w z pt i * u i * dF pt i k + rho * vsum (n_obj pt) (fun m => dF pt m k * w z pt m) * u i)).
      * rewrite vsum_plus, vsum_scal, H1, Rmult_1_r, <- vsum_scal, <- vsum_plus. apply vsum_ext. intros; ring.
      * intros i Hi. unfold arow. destruct (Nat.ltb_spec i (n_obj pt)); [ring|lia].
    + apply vsum_ext. intros j Hj'. unfold arow. destruct (Nat.ltb_spec (n_obj pt + j) (n_obj pt)); [lia|]. replace (n_obj pt + j - n_obj pt)%nat with j by lia. ring.
Qed.
(** C121: calc shifts the array of the ideal point it is given: after k calls with the same array it is k * eps lower, and call i measures against a point (i + 1) * eps below the one given *)
Theorem C121_ideal : forall solve fuel rho eps xs ideal,
  (forall m, fst (calls solve fuel rho eps ideal xs) m = ideal m - INR (length xs) * eps) /\
  length (snd (calls solve fuel rho eps ideal xs)) = length xs /\
  forall i, (i < length xs)%nat -> exists z, (forall m, z m = ideal m - INR (S i) * eps) /\ nth i (snd (calls solve fuel rho eps ideal xs)) [] = map (fun pt => kktpm solve rho z pt fuel) (nth i xs []).
Proof.
  intros solve fuel rho eps xs. induction xs as [|pts xs IH]; intros ideal; cbn [calls length].
  - split; [intros; cbn; ring|]. split; [reflexivity|]. intros i Hi. cbn in Hi. lia.
  - cbv zeta. destruct (IH (fst (calc solve fuel rho eps ideal pts))) as (E1 & E2 & E3). split; [|split].
    + intros m. cbn [fst]. rewrite E1. cbn [calc fst]. rewrite S_INR. ring.
    + cbn [snd length]. now rewrite E2.
    + intros [|i] Hi; cbn [snd nth].
      * exists (fun m => ideal m - eps). split; [intros; cbn; ring|reflexivity].
      * destruct (E3 i) as (z & Ez & Er); [lia|]. exists z. split; [|exact Er]. intros m. rewrite Ez. cbn [calc fst]. rewrite !S_INR. ring.
Qed.
