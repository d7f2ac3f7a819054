From Coq Require Import List QArith Qfield Qpower Lqa Bool Arith Lia.
From Verif Require Import ListAux M_Individual.
Import ListNotations.
Local Open Scope Q_scope.

Lemma qpos_nonneg x : 0 <= qpos x.
Proof. unfold qpos. destruct (Qle_bool x 0) eqn:E; [lra|]. destruct (Qlt_le_dec 0 x); [lra|]. apply Qle_bool_iff in q. congruence. Qed.
Lemma qpos_zero x : qpos x == 0 <-> x <= 0.
Proof.
  unfold qpos. destruct (Qle_bool x 0) eqn:E.
  - apply Qle_bool_iff in E. split; intros; [auto|reflexivity].
  - split; intros H; [lra|]. apply Qle_bool_iff in H. congruence.
Qed.
Lemma qpos_mono x y : x <= y -> qpos x <= qpos y.
Proof.
  intros H. unfold qpos. destruct (Qle_bool x 0) eqn:E1, (Qle_bool y 0) eqn:E2; try lra.
  - apply Qle_bool_iff in E1. destruct (Qlt_le_dec 0 y); [lra|]. apply Qle_bool_iff in q. congruence.
  - apply Qle_bool_iff in E2. assert (x <= 0) by lra. apply Qle_bool_iff in H0. congruence.
Qed.
Lemma qabs_le x y : qabs x <= y <-> - y <= x /\ x <= y.
Proof.
  unfold qabs. destruct (Qle_bool 0 x) eqn:E.
  - apply Qle_bool_iff in E. lra.
  - assert (x < 0) by (destruct (Qlt_le_dec x 0); auto; apply Qle_bool_iff in q; congruence). lra.
Qed.

Lemma qsum_nonneg l : Forall (fun x => 0 <= x) l -> 0 <= qsum l.
Proof. induction 1; simpl; lra. Qed.
Lemma qsum_zero l : Forall (fun x => 0 <= x) l -> (qsum l == 0 <-> Forall (fun x => x == 0) l).
Proof.
  induction 1 as [|x l H HF IH]; simpl.
  - split; [constructor|reflexivity].
  - pose proof (qsum_nonneg l HF). split; intros HH.
    + constructor; [lra|]. apply IH. lra.
    + apply Forall_cons_iff in HH as [H1 H2]. apply IH in H2. lra.
Qed.
Lemma qsum_mono l m : Forall2 Qle l m -> qsum l <= qsum m.
Proof. induction 1; simpl; lra. Qed.

(** the aggregation functions numpy offers for this purpose: sum and mean *)
Definition agg_ok (f : list Q -> Q) : Prop :=
  forall l, l <> [] -> Forall (fun x => 0 <= x) l ->
    0 <= f l /\ (f l == 0 <-> Forall (fun x => x == 0) l) /\ (forall m, Forall2 Qle l m -> f l <= f m).

Lemma qsum_agg : agg_ok qsum.
Proof. intros l _ H. split; [now apply qsum_nonneg|]. split; [now apply qsum_zero|apply qsum_mono]. Qed.
Lemma qmean_agg : agg_ok qmean.
Proof.
  intros l Hne H. unfold qmean.
  assert (Hp : forall k : nat, (0 < k)%nat -> 0 < inject_Z (Z.of_nat k)).
  { intros k Hk. change 0 with (inject_Z 0). rewrite <- Zlt_Qlt. lia. }
  assert (Hl : (0 < length l)%nat) by (destruct l; [congruence|simpl; lia]).
  pose proof (qsum_nonneg l H) as Hs. specialize (Hp _ Hl).
  assert (Hpi : 0 < / inject_Z (Z.of_nat (length l))) by now apply Qinv_lt_0_compat.
  split; [unfold Qdiv; nra|]. split.
  - rewrite <- (qsum_zero l H). unfold Qdiv. split; intros E.
    + destruct (Qmult_integral _ _ E); auto. lra.
    + rewrite E. lra.
  - intros m Hm. assert (length m = length l) as -> by (symmetry; clear -Hm; induction Hm; simpl; auto).
    apply qsum_mono in Hm. unfold Qdiv. apply Qmult_le_compat_r; lra.
Qed.

Definition cfg_ok (cfg : cv_config) : Prop :=
  agg_ok (c_func cfg) /\ (forall s, c_scale cfg = Some s -> 0 < s) /\ (forall p, c_pow cfg = Some p -> (0 < p)%nat).

Lemma qpow_nonneg x p : 0 <= x -> 0 <= Qpower x (Z.of_nat p).
Proof. intros. now apply Qpower_pos. Qed.
Lemma Qpower_S x p : x ^ Z.of_nat (S p) == x * x ^ Z.of_nat p.
Proof.
  destruct p; [simpl; lra|]. rewrite Nat2Z.inj_succ. unfold Z.succ. rewrite Z.add_comm.
  change (1 + Z.of_nat (S p))%Z with (1 + Z.of_nat (S p))%Z. destruct (Qeq_dec x 0) as [E|E].
  - rewrite E. rewrite Qpower_0 by lia. lra.
  - rewrite Qpower_plus by auto. simpl. lra.
Qed.
Lemma qpow_zero x p : (0 < p)%nat -> (Qpower x (Z.of_nat p) == 0 <-> x == 0).
Proof.
  induction p as [|p IH]; intros Hp; [lia|]. rewrite Qpower_S. split; intros H.
  - destruct (Qmult_integral _ _ H) as [|H2]; auto. destruct p; [simpl in H2; lra|]. apply IH in H2; [auto|lia].
  - rewrite H. lra.
Qed.
Lemma qpow_mono x y p : 0 <= x -> x <= y -> Qpower x (Z.of_nat p) <= Qpower y (Z.of_nat p).
Proof.
  intros Hx Hy. induction p as [|p IH]; [simpl; lra|]. rewrite !Qpower_S.
  pose proof (qpow_nonneg x p Hx). assert (0 <= y) by lra. pose proof (qpow_nonneg y p H0). nra.
Qed.

(** the transformation of one constraint value *)
Definition viol1 (cfg : cv_config) (x : Q) : Q :=
  let v := qpos (x - c_eps cfg) in
  let v := match c_scale cfg with None => v | Some s => v / s end in
  match c_pow cfg with None => v | Some p => Qpower v (Z.of_nat p) end.
Lemma constr_to_cv_map c cfg : c <> [] -> constr_to_cv c cfg = c_func cfg (map (viol1 cfg) c).
Proof.
  intros H. unfold constr_to_cv, viol1. destruct c as [|x c]; [congruence|]. generalize (x :: c); intros l.
  destruct (c_scale cfg), (c_pow cfg); rewrite ?map_map; reflexivity.
Qed.
Lemma viol1_spec cfg : cfg_ok cfg -> forall x, 0 <= viol1 cfg x /\ (viol1 cfg x == 0 <-> x <= c_eps cfg) /\ forall y, x <= y -> viol1 cfg x <= viol1 cfg y.
Proof.
  intros (_ & Hs & Hp) x. unfold viol1.
  assert (H1 : 0 <= qpos (x - c_eps cfg) /\ (qpos (x - c_eps cfg) == 0 <-> x <= c_eps cfg) /\
               forall y, x <= y -> qpos (x - c_eps cfg) <= qpos (y - c_eps cfg)).
  { split; [apply qpos_nonneg|]. split; [rewrite qpos_zero; lra|]. intros. apply qpos_mono. lra. }
  destruct H1 as (A1 & A2 & A3).
  assert (H2 : 0 <= match c_scale cfg with None => qpos (x - c_eps cfg) | Some s => qpos (x - c_eps cfg) / s end /\
     (match c_scale cfg with None => qpos (x - c_eps cfg) | Some s => qpos (x - c_eps cfg) / s end == 0 <-> x <= c_eps cfg) /\
     forall y, x <= y -> match c_scale cfg with None => qpos (x - c_eps cfg) | Some s => qpos (x - c_eps cfg) / s end <=
                         match c_scale cfg with None => qpos (y - c_eps cfg) | Some s => qpos (y - c_eps cfg) / s end).
  { destruct (c_scale cfg) as [s|]; auto. pose proof (Hs s eq_refl) as Hs'.
    assert (Hi : 0 < / s) by now apply Qinv_lt_0_compat. unfold Qdiv. split; [nra|]. split.
    - rewrite <- A2. split; intros E; [|rewrite E; lra]. destruct (Qmult_integral _ _ E); auto. lra.
    - intros y Hy. specialize (A3 y Hy). apply Qmult_le_compat_r; lra. }
  destruct H2 as (B1 & B2 & B3). destruct (c_pow cfg) as [p|]; auto. specialize (Hp p eq_refl).
  split; [now apply qpow_nonneg|]. split; [now rewrite qpow_zero|]. intros y Hy. apply qpow_mono; auto.
Qed.

Lemma constr_to_cv_spec cfg c : cfg_ok cfg ->
  0 <= constr_to_cv c cfg /\ (constr_to_cv c cfg == 0 <-> Forall (fun x => x <= c_eps cfg) c) /\
  forall c', Forall2 Qle c c' -> constr_to_cv c cfg <= constr_to_cv c' cfg.
Proof.
  intros Hc. pose proof (viol1_spec cfg Hc) as HV. pose proof Hc as (Ha & _).
  destruct c as [|x c].
  - simpl. split; [lra|]. split; [split; [constructor|reflexivity]|]. intros c' H. inversion H; subst. simpl. lra.
  - assert (Hne : x :: c <> []) by discriminate. revert Hne. generalize (x :: c). clear x c. intros l Hne.
    rewrite constr_to_cv_map by auto.
    destruct (Ha (map (viol1 cfg) l)) as (H1 & H2 & H3).
    { intros E. apply map_eq_nil in E. auto. }
    { apply Forall_map. apply Forall_forall. intros. apply HV. }
    split; auto. split.
    + rewrite H2, Forall_map, !Forall_forall. split; intros H x Hx; apply HV; auto.
    + intros c' H'. destruct c' as [|y c']; [inversion H'; subst; congruence|]. rewrite constr_to_cv_map by discriminate.
      apply H3. clear -H' HV. induction H'; simpl; constructor; auto. now apply HV.
Qed.
