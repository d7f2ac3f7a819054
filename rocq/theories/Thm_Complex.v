(** * C120: the complex step gradient approximates the partial derivatives *)
From Coq Require Import Ascii String List Arith Bool Reals Lra Lia.
From Coquelicot Require Import Coquelicot.
From Verif Require Import ListAux P_Perm M_Params M_Complex.
Import ListNotations.
Local Open Scope R_scope.

(** ** specification *)
(** the expression is differentiable at x as it stands: no absolute value, no division by zero, square roots and logarithms of positive numbers only *)
Fixpoint smooth (e : ex) (x : list R) : Prop :=
  match e with
  | Var _ | Const _ => True
  | Add a b | Sub a b | Mul a b => smooth a x /\ smooth b x
  | Div a b => smooth a x /\ smooth b x /\ ev b x <> 0
  | Exp a | Sin a | Cos a => smooth a x
  | Sqrt a | Ln a => smooth a x /\ 0 < ev a x
  | Abs _ => False
  end.
(** d is the partial derivative of e with respect to variable j at x *)
Definition partial (e : ex) (x : list R) (j : nat) (d : R) : Prop := is_derive (fun t => ev e (upd x j t)) (nth j x 0) d.
(** what is reported for it *)
Definition estimate (e : ex) (x : list R) (eps : R) (j : nat) : R := snd (cev e (perturbed x eps j)) / eps.

Lemma dv (f : R -> R) p l : is_derive f p l -> Derive (fun t => f t) p = l.
Proof. apply is_derive_unique. Qed.
Section Expr.
  Variables (x : list R) (j : nat).
  Hypothesis Hj : (j < length x)%nat.
  Let re e t := fst (cev e (perturbed x t j)).
  Let im e t := snd (cev e (perturbed x t j)).
  Lemma perturbed_nth t k : (k < length x)%nat -> nth k (perturbed x t j) (0, 0) = (nth k x 0, if (k =? j)%nat then t else 0).
  Proof. intros H. unfold perturbed. now rewrite nth_map_seq0. Qed.
  Lemma perturbed_out t k : (length x <= k)%nat -> nth k (perturbed x t j) (0, 0) = (0, 0).
  Proof. intros H. apply nth_overflow. unfold perturbed. now rewrite map_length, seq_length. Qed.
  Lemma upd_same : upd x j (nth j x 0) = x.
  Proof. apply (nth_ext _ _ 0 0); [now rewrite length_upd|]. intros k Hk. rewrite length_upd in Hk. destruct (Nat.eq_dec k j) as [->|C]; [now rewrite nth_upd_eq|now rewrite nth_upd_neq]. Qed.
  (** at step 0 the complex value is the real one *)
  Definition good (e : ex) : Prop := re e 0 = ev e x /\ im e 0 = 0 /\ is_derive (re e) 0 0 /\ exists d, partial e x j d /\ is_derive (im e) 0 d.
  Ltac open_a a IHa Ha ra ia va := destruct (IHa Ha) as (A1 & A2 & A3 & da & A4 & A5); set (ra := re a) in *; set (ia := im a) in *; set (va := fun t : R => ev a (upd x j t));
    change (is_derive va (nth j x 0) da) in A4; assert (Va : va (nth j x 0) = ev a x) by (unfold va; now rewrite upd_same).
  Ltac open_b b IHb Hb rb ib vb := destruct (IHb Hb) as (B1 & B2 & B3 & db & B4 & B5); set (rb := re b) in *; set (ib := im b) in *; set (vb := fun t : R => ev b (upd x j t));
    change (is_derive vb (nth j x 0) db) in B4; assert (Vb : vb (nth j x 0) = ev b x) by (unfold vb; now rewrite upd_same).
  Lemma expr_good e : smooth e x -> good e.
  Proof.
    induction e as [k|r|a IHa b IHb|a IHa b IHb|a IHa b IHb|a IHa b IHb|a IHa|a IHa|a IHa|a IHa|a IHa|a IHa]; cbn [smooth]; intros H.
    - destruct (Nat.lt_ge_cases k (length x)) as [C|C].
      + assert (Ere : forall t, re (Var k) t = nth k x 0) by (intros t; unfold re; cbn [cev]; now rewrite perturbed_nth).
        assert (Eim : forall t, im (Var k) t = if (k =? j)%nat then t else 0) by (intros t; unfold im; cbn [cev]; now rewrite perturbed_nth).
        split; [apply Ere|]. split; [rewrite Eim; now destruct (k =? j)%nat|]. split; [apply (is_derive_ext (fun _ => nth k x 0)); [intros; now rewrite Ere|apply @is_derive_const]|].
        destruct (Nat.eqb_spec k j) as [->|Ck].
        * exists 1. split; [apply (is_derive_ext (fun t => t)); [intros t; cbn [ev]; now rewrite nth_upd_eq|apply @is_derive_id]|apply (is_derive_ext (fun t => t)); [intros; now rewrite Eim|apply @is_derive_id]].
        * exists 0. split; [apply (is_derive_ext (fun t => nth k x 0)); [intros t; cbn [ev]; now rewrite nth_upd_neq|apply @is_derive_const]|apply (is_derive_ext (fun t => 0)); [intros; now rewrite Eim|apply @is_derive_const]].
      + assert (E : forall t, cev (Var k) (perturbed x t j) = (0, 0)) by (intros; now apply perturbed_out). unfold good, re, im.
        split; [rewrite E; cbn; now rewrite nth_overflow|]. split; [now rewrite E|]. split; [apply (is_derive_ext (fun _ => 0)); [intros; now rewrite E|apply @is_derive_const]|]. exists 0.
        split; [apply (is_derive_ext (fun t => 0)); [intros t; cbn [ev]; now rewrite nth_overflow by (rewrite length_upd; auto)|apply @is_derive_const]|apply (is_derive_ext (fun _ => 0)); [intros; now rewrite E|apply @is_derive_const]].
    - split; [reflexivity|]. split; [reflexivity|]. split; [apply (is_derive_const r)|]. exists 0. split; [apply (is_derive_const r)|apply (is_derive_const 0)].
    - destruct H as [Ha Hb]. open_a a IHa Ha ra ia va. open_b b IHb Hb rb ib vb. unfold good. change (re (Add a b)) with (fun t => ra t + rb t). change (im (Add a b)) with (fun t => ia t + ib t).
      change (partial (Add a b) x j) with (fun d => is_derive (fun t => va t + vb t) (nth j x 0) d). cbn [ev]. cbv beta. clearbody ra ia va rb ib vb.
      split; [rewrite A1, ?A2, B1, ?B2; ring|]. split; [rewrite ?A1, A2, ?B1, B2; ring|]. split.
      + auto_derive; [rewrite ?B1, ?B2; repeat split; auto; try (eexists; eauto)|]. rewrite ?(dv _ _ _ A3), ?(dv _ _ _ A5), ?(dv _ _ _ B3), ?(dv _ _ _ B5), ?A1, ?A2, ?B1, ?B2. ring.
      + exists (da + db). split.
        * auto_derive; [rewrite ?Vb; repeat split; auto; try (eexists; eauto)|]. rewrite ?(dv _ _ _ A4), ?(dv _ _ _ B4), ?Va, ?Vb. ring.
        * auto_derive; [rewrite ?B1, ?B2; repeat split; auto; try (eexists; eauto)|]. rewrite ?(dv _ _ _ A3), ?(dv _ _ _ A5), ?(dv _ _ _ B3), ?(dv _ _ _ B5), ?A1, ?A2, ?B1, ?B2. ring.
    - destruct H as [Ha Hb]. open_a a IHa Ha ra ia va. open_b b IHb Hb rb ib vb. unfold good. change (re (Sub a b)) with (fun t => ra t - rb t). change (im (Sub a b)) with (fun t => ia t - ib t).
      change (partial (Sub a b) x j) with (fun d => is_derive (fun t => va t - vb t) (nth j x 0) d). cbn [ev]. cbv beta. clearbody ra ia va rb ib vb.
      split; [rewrite A1, ?A2, B1, ?B2; ring|]. split; [rewrite ?A1, A2, ?B1, B2; ring|]. split.
      + auto_derive; [rewrite ?B1, ?B2; repeat split; auto; try (eexists; eauto)|]. rewrite ?(dv _ _ _ A3), ?(dv _ _ _ A5), ?(dv _ _ _ B3), ?(dv _ _ _ B5), ?A1, ?A2, ?B1, ?B2. ring.
      + exists (da - db). split.
        * auto_derive; [rewrite ?Vb; repeat split; auto; try (eexists; eauto)|]. rewrite ?(dv _ _ _ A4), ?(dv _ _ _ B4), ?Va, ?Vb. ring.
        * auto_derive; [rewrite ?B1, ?B2; repeat split; auto; try (eexists; eauto)|]. rewrite ?(dv _ _ _ A3), ?(dv _ _ _ A5), ?(dv _ _ _ B3), ?(dv _ _ _ B5), ?A1, ?A2, ?B1, ?B2. ring.
    - destruct H as [Ha Hb]. open_a a IHa Ha ra ia va. open_b b IHb Hb rb ib vb. unfold good. change (re (Mul a b)) with (fun t => ra t * rb t - ia t * ib t). change (im (Mul a b)) with (fun t => ra t * ib t + ia t * rb t).
      change (partial (Mul a b) x j) with (fun d => is_derive (fun t => va t * vb t) (nth j x 0) d). cbn [ev]. cbv beta. clearbody ra ia va rb ib vb.
      split; [rewrite A1, ?A2, B1, ?B2; ring|]. split; [rewrite ?A1, A2, ?B1, B2; ring|]. split.
      + auto_derive; [rewrite ?B1, ?B2; repeat split; auto; try (eexists; eauto)|]. rewrite ?(dv _ _ _ A3), ?(dv _ _ _ A5), ?(dv _ _ _ B3), ?(dv _ _ _ B5), ?A1, ?A2, ?B1, ?B2. ring.
      + exists (da * ev b x + ev a x * db). split.
        * auto_derive; [rewrite ?Vb; repeat split; auto; try (eexists; eauto)|]. rewrite ?(dv _ _ _ A4), ?(dv _ _ _ B4), ?Va, ?Vb. ring.
        * auto_derive; [rewrite ?B1, ?B2; repeat split; auto; try (eexists; eauto)|]. rewrite ?(dv _ _ _ A3), ?(dv _ _ _ A5), ?(dv _ _ _ B3), ?(dv _ _ _ B5), ?A1, ?A2, ?B1, ?B2. ring.
    - destruct H as (Ha & Hb & Hn). open_a a IHa Ha ra ia va. open_b b IHb Hb rb ib vb. assert (Hnz : ev b x * ev b x + 0 * 0 <> 0) by (rewrite Rmult_0_l, Rplus_0_r; now apply Rmult_integral_contrapositive_currified). unfold good. change (re (Div a b)) with (fun t => (ra t * rb t + ia t * ib t) / (rb t * rb t + ib t * ib t)). change (im (Div a b)) with (fun t => (ia t * rb t - ra t * ib t) / (rb t * rb t + ib t * ib t)).
      change (partial (Div a b) x j) with (fun d => is_derive (fun t => va t / vb t) (nth j x 0) d). cbn [ev]. cbv beta. clearbody ra ia va rb ib vb.
      split; [rewrite A1, ?A2, B1, ?B2; field; auto|]. split; [rewrite ?A1, A2, ?B1, B2; unfold Rdiv; ring|]. split.
      + auto_derive; [rewrite ?B1, ?B2; repeat split; auto; try (eexists; eauto)|]. rewrite ?(dv _ _ _ A3), ?(dv _ _ _ A5), ?(dv _ _ _ B3), ?(dv _ _ _ B5), ?A1, ?A2, ?B1, ?B2. field; auto.
      + exists ((da * ev b x - ev a x * db) / (ev b x * ev b x)). split.
        * auto_derive; [rewrite ?Vb; repeat split; auto; try (eexists; eauto)|]. rewrite ?(dv _ _ _ A4), ?(dv _ _ _ B4), ?Va, ?Vb. field; auto.
        * auto_derive; [rewrite ?B1, ?B2; repeat split; auto; try (eexists; eauto)|]. rewrite ?(dv _ _ _ A3), ?(dv _ _ _ A5), ?(dv _ _ _ B3), ?(dv _ _ _ B5), ?A1, ?A2, ?B1, ?B2. field; auto.
    - pose proof H as Ha. open_a a IHa Ha ra ia va. unfold good. change (re (Exp a)) with (fun t => exp (ra t) * cos (ia t)). change (im (Exp a)) with (fun t => exp (ra t) * sin (ia t)).
      change (partial (Exp a) x j) with (fun d => is_derive (fun t => exp (va t)) (nth j x 0) d). cbn [ev]. cbv beta. clearbody ra ia va.
      split; [rewrite A1, A2; rewrite cos_0; ring|]. split; [rewrite ?A1, A2; rewrite sin_0; ring|]. split.
      + auto_derive; [repeat split; auto; try (eexists; eauto)|]. rewrite ?(dv _ _ _ A3), ?(dv _ _ _ A5), ?A1, ?A2. rewrite ?sin_0, ?cos_0; ring.
      + exists (exp (ev a x) * da). split.
        * auto_derive; [rewrite ?Va; repeat split; auto; try (eexists; eauto)|]. rewrite ?(dv _ _ _ A4), ?Va. ring.
        * auto_derive; [repeat split; auto; try (eexists; eauto)|]. rewrite ?(dv _ _ _ A3), ?(dv _ _ _ A5), ?A1, ?A2. rewrite ?sin_0, ?cos_0; ring.
    - pose proof H as Ha. open_a a IHa Ha ra ia va. unfold good. change (re (Sin a)) with (fun t => sin (ra t) * ((exp (ia t) + exp (- ia t)) / 2)). change (im (Sin a)) with (fun t => cos (ra t) * ((exp (ia t) - exp (- ia t)) / 2)).
      change (partial (Sin a) x j) with (fun d => is_derive (fun t => sin (va t)) (nth j x 0) d). cbn [ev]. cbv beta. clearbody ra ia va.
      split; [rewrite A1, A2; rewrite Ropp_0, exp_0; field|]. split; [rewrite ?A1, A2; rewrite Ropp_0, exp_0; field|]. split.
      + auto_derive; [repeat split; auto; try (eexists; eauto)|]. rewrite ?(dv _ _ _ A3), ?(dv _ _ _ A5), ?A1, ?A2. rewrite Ropp_0, exp_0; field.
      + exists (cos (ev a x) * da). split.
        * auto_derive; [rewrite ?Va; repeat split; auto; try (eexists; eauto)|]. rewrite ?(dv _ _ _ A4), ?Va. ring.
        * auto_derive; [repeat split; auto; try (eexists; eauto)|]. rewrite ?(dv _ _ _ A3), ?(dv _ _ _ A5), ?A1, ?A2. rewrite Ropp_0, exp_0; field.
    - pose proof H as Ha. open_a a IHa Ha ra ia va. unfold good. change (re (Cos a)) with (fun t => cos (ra t) * ((exp (ia t) + exp (- ia t)) / 2)). change (im (Cos a)) with (fun t => - (sin (ra t) * ((exp (ia t) - exp (- ia t)) / 2))).
      change (partial (Cos a) x j) with (fun d => is_derive (fun t => cos (va t)) (nth j x 0) d). cbn [ev]. cbv beta. clearbody ra ia va.
      split; [rewrite A1, A2; rewrite Ropp_0, exp_0; field|]. split; [rewrite ?A1, A2; rewrite Ropp_0, exp_0; field|]. split.
      + auto_derive; [repeat split; auto; try (eexists; eauto)|]. rewrite ?(dv _ _ _ A3), ?(dv _ _ _ A5), ?A1, ?A2. rewrite Ropp_0, exp_0; field.
      + exists (- sin (ev a x) * da). split.
        * auto_derive; [rewrite ?Va; repeat split; auto; try (eexists; eauto)|]. rewrite ?(dv _ _ _ A4), ?Va. ring.
        * auto_derive; [repeat split; auto; try (eexists; eauto)|]. rewrite ?(dv _ _ _ A3), ?(dv _ _ _ A5), ?A1, ?A2. rewrite Ropp_0, exp_0; field.
    - destruct H as [Ha Hp]. open_a a IHa Ha ra ia va. assert (Em : sqrt (ev a x * ev a x + 0 * 0) = ev a x) by (rewrite Rmult_0_l, Rplus_0_r; apply sqrt_square; lra).
      assert (Es : (ev a x + ev a x) * / 2 = ev a x) by field. assert (Hs : 0 < sqrt (ev a x)) by now apply sqrt_lt_R0.
      assert (Hsq : 0 < ev a x * ev a x + 0 * 0) by nra. assert (Hsum : 0 < (ev a x + ev a x) * / 2) by lra. assert (Hne : 2 * sqrt (ev a x) <> 0) by lra. assert (Hne2 : sqrt (ev a x) <> 0) by lra. assert (Hne3 : ev a x <> 0) by lra. unfold good. change (re (Sqrt a)) with (fun t => sqrt ((sqrt (ra t * ra t + ia t * ia t) + ra t) / 2)). change (im (Sqrt a)) with (fun t => ia t / (2 * sqrt ((sqrt (ra t * ra t + ia t * ia t) + ra t) / 2))).
      change (partial (Sqrt a) x j) with (fun d => is_derive (fun t => sqrt (va t)) (nth j x 0) d). cbn [ev]. cbv beta. clearbody ra ia va.
      split; [rewrite A1, A2; unfold Rdiv; now rewrite Em, Es|]. split; [rewrite ?A1, A2; unfold Rdiv; ring|]. split.
      + auto_derive; [rewrite ?A1, ?A2, ?Em, ?Es; repeat split; auto; try (eexists; eauto)|]. rewrite ?(dv _ _ _ A3), ?(dv _ _ _ A5), ?A1, ?A2. unfold Rdiv; ring.
      + exists (da / (2 * sqrt (ev a x))). split.
        * auto_derive; [rewrite ?Va; repeat split; auto; try (eexists; eauto)|]. rewrite ?(dv _ _ _ A4), ?Va. field; auto.
        * auto_derive; [rewrite ?A1, ?A2, ?Em, ?Es; repeat split; auto; try (eexists; eauto)|]. rewrite ?(dv _ _ _ A3), ?(dv _ _ _ A5), ?A1, ?A2. rewrite ?Em, ?Es; field; auto.
    - destruct H as [Ha Hp]. open_a a IHa Ha ra ia va. assert (Em : sqrt (ev a x * ev a x + 0 * 0) = ev a x) by (rewrite Rmult_0_l, Rplus_0_r; apply sqrt_square; lra).
      assert (Es : (ev a x + ev a x) * / 2 = ev a x) by field. assert (Hs : 0 < sqrt (ev a x)) by now apply sqrt_lt_R0.
      assert (Hsq : 0 < ev a x * ev a x + 0 * 0) by nra. assert (Hsum : 0 < (ev a x + ev a x) * / 2) by lra. assert (Hne : 2 * sqrt (ev a x) <> 0) by lra. assert (Hne2 : sqrt (ev a x) <> 0) by lra. assert (Hne3 : ev a x <> 0) by lra. unfold good. change (re (Ln a)) with (fun t => ln (sqrt (ra t * ra t + ia t * ia t))). change (im (Ln a)) with (fun t => atan (ia t / ra t)).
      change (partial (Ln a) x j) with (fun d => is_derive (fun t => ln (va t)) (nth j x 0) d). cbn [ev]. cbv beta. clearbody ra ia va.
      split; [rewrite A1, A2; now rewrite Em|]. split; [rewrite ?A1, A2; unfold Rdiv; rewrite Rmult_0_l; apply atan_0|]. split.
      + auto_derive; [rewrite ?A1, ?A2, ?Em; repeat split; auto; try (eexists; eauto)|]. rewrite ?(dv _ _ _ A3), ?(dv _ _ _ A5), ?A1, ?A2. unfold Rdiv; ring.
      + exists (da / ev a x). split.
        * auto_derive; [rewrite ?Va; repeat split; auto; try (eexists; eauto)|]. rewrite ?(dv _ _ _ A4), ?Va. field; auto.
        * auto_derive; [rewrite ?A1, ?A2; repeat split; auto; try (eexists; eauto)|]. rewrite ?(dv _ _ _ A3), ?(dv _ _ _ A5), ?A1, ?A2. field; auto.
    - destruct H.
  Qed.
End Expr.

(** C120: for an expression of arithmetic, exp, sin, cos, sqrt and log defined at x, the estimate comes arbitrarily close to the partial derivative as the step gets small, for every variable *)
Theorem C120_limit : forall e x j, (j < length x)%nat -> smooth e x -> exists d, partial e x j d /\
  forall delta, 0 < delta -> exists eta, 0 < eta /\ forall eps, eps <> 0 -> Rabs eps < eta -> Rabs (estimate e x eps j - d) < delta.
Proof.
  intros e x j Hj Hs. destruct (expr_good x j e Hs) as (_ & Him & _ & d & Hd & Hi). exists d. split; auto. intros delta Hdelta. apply is_derive_Reals in Hi. destruct (Hi delta Hdelta) as [eta He]. exists eta. split; [apply cond_pos|]. intros eps H0 Heps.
  specialize (He eps H0 Heps). cbn beta in He. rewrite Him, Rplus_0_l, Rminus_0_r in He. exact He.
Qed.
(** C120 (refuted for absolute values): the estimate for |x| is 0 for every step, its derivative is 1 *)
Theorem C120_abs_refuted : partial (Abs (Var 0)) [1] 0 1 /\ forall eps, estimate (Abs (Var 0)) [1] eps 0 = 0.
Proof.
  split.
  - unfold partial. apply (is_derive_ext (fun t => Rabs t)); [reflexivity|]. cbn [nth]. replace 1 with (sign 1 * 1) at 2 by (rewrite sign_eq_1 by lra; ring). auto_derive; [lra|]. rewrite sign_eq_1 by lra. ring.
  - intros eps. unfold estimate. cbn. unfold Rdiv. ring.
Qed.
