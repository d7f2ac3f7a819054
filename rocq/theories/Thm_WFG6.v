(** * C116: optimal and reachable vectors of WFG1-WFG9 *)
From Coq Require Import Reals List Arith ZArith Lra Lia Psatz.
From Verif Require Import ListAux M_NSGA3R M_Bench M_RealOps P_RealOps M_DTLZ M_DF S_Bench Thm_Bench Thm_Bench2 Thm_DTLZ Thm_DF Thm_DF2 M_WFG Thm_WFG Thm_WFG2 Thm_WFG3 Thm_WFG4 Thm_WFG5.
Import ListNotations.
Local Open Scope R_scope.

Lemma unit_35 : unit_ 0.35. Proof. split; lra. Qed.
Lemma unit_0 : unit_ 0. Proof. split; lra. Qed.
Lemma units_repeat v n : unit_ v -> units (repeat v n).
Proof. intros H. apply Forall_forall. intros a Ha. apply repeat_spec in Ha. now subst. Qed.
Lemma map_repeat {A B} (f : A -> B) v n : map f (repeat v n) = repeat (f v) n.
Proof. induction n; cbn [repeat map]; congruence. Qed.
Lemma firstn_app_exact {A} (a b : list A) : firstn (length a) (a ++ b) = a.
Proof. rewrite firstn_app, Nat.sub_diag, firstn_all, firstn_O. apply app_nil_r. Qed.
Lemma skipn_app_exact {A} (a b : list A) : skipn (length a) (a ++ b) = b.
Proof. rewrite skipn_app, Nat.sub_diag, skipn_all. reflexivity. Qed.
Lemma reach_map (f : R -> R) : (forall z, unit_ z -> exists y, unit_ y /\ f y = z) -> forall T, units T -> exists Y, units Y /\ map f Y = T.
Proof.
  intros H T HT. induction HT as [|z T HZ HT (Y & HY & E)]; [exists []; split; auto|]. destruct (H z HZ) as (y & U & EY). exists (y :: Y). split; [constructor; auto|]. cbn [map]. congruence.
Qed.
Lemma slice_concat {A} g (rest : list A) bs : Forall (fun b => length b = g) bs -> forall j, (j < length bs)%nat -> slice (j * g) (S j * g) (concat bs ++ rest) = nth j bs [].
Proof.
  induction 1 as [|b bs Hb Hbs IH]; intros j Hj; cbn [length] in Hj; [lia|]. cbn [concat]. rewrite <- app_assoc. destruct j as [|j].
  - unfold slice. replace (1 * g - 0 * g)%nat with (length b) by lia. cbn [Nat.mul skipn nth]. apply firstn_app_exact.
  - cbn [nth]. rewrite <- (IH j) by lia. unfold slice. replace (S (S j) * g - S j * g)%nat with (S j * g - j * g)%nat by lia. f_equal. replace (S j * g)%nat with (length b + j * g)%nat by lia. rewrite skipn_app. rewrite skipn_all2 by lia. cbn [app]. f_equal. lia.
Qed.

(** ** the WFG7/WFG9 recursion *)
Lemma w7_app K s j : exists K', length K' = length K /\ w7_t1 (length K + j) (K ++ s) = K' ++ w7_t1 j s.
Proof. induction K as [|v K (K' & L & E)]; cbn [length Nat.add app w7_t1]; [exists []; auto|]. eexists (_ :: K'). split; [cbn; lia|]. rewrite E. reflexivity. Qed.
Lemma w7_reach s j T : units s -> units T -> exists K, units K /\ length K = length T /\ w7_t1 (length T + j) (K ++ s) = T ++ w7_t1 j s.
Proof.
  intros HS HT. induction HT as [|z T HZ HT (K & UK & LK & E)]; [exists []; auto|]. pose proof (uniform_unit' (K ++ s) (proj2 (Forall_app _ _ _) (conj UK HS))) as UU.
  destruct (dependent_reach z _ HZ UU) as [D1 D2]. exists (np_power z (/ dep_exponent (weighted_sum_uniform (K ++ s))) :: K). split; [constructor; auto|]. split; [cbn; lia|]. cbn [length Nat.add app w7_t1]. rewrite D2, E. reflexivity.
Qed.
(** ** WFG9: the suffix *)
Lemma mean_le v r : Forall (fun a => a <= v) r -> (1 <= length r)%nat -> mean r <= v.
Proof.
  intros H L. assert (S1 : rsum r <= INR (length r) * v). { clear L. induction H as [|a r Ha Hr IH]; [cbn; lra|]. rewrite rsum_cons. cbn [length]. rewrite S_INR. lra. }
  unfold mean. pose proof (lt_0_INR (length r) ltac:(lia)) as P. apply Rmult_le_reg_r with (INR (length r)); auto. unfold Rdiv. rewrite Rmult_assoc, Rinv_l by lra. lra.
Qed.
Lemma w9_suffix_ok l : (1 <= l)%nat -> length (w9_suffix l) = l /\ Forall (fun v => 0 <= v <= 0.35) (w9_suffix l) /\ w7_t1 (l - 1) (w9_suffix l) = repeat 0.35 l.
Proof.
  intros H. destruct l as [|l]; [lia|]. clear H. induction l as [|l (L & F & E)]; [cbn; split; [auto|split; auto; constructor; [lra|auto]]|].
  change (w9_suffix (S (S l))) with (np_power 0.35 (/ (0.02 + 1.96 * (rsum (w9_suffix (S l)) / INR (length (w9_suffix (S l)))))) :: w9_suffix (S l)). set (s := w9_suffix (S l)) in *. fold (mean s).
  assert (US : units s) by (eapply Forall_impl; [|exact F]; cbn; intros a [A1 A2]; split; lra). assert (M1 : mean s <= 0.35) by (apply mean_le; [eapply Forall_impl; [|exact F]; cbn; intros a [_ A2]; exact A2|lia]).
  destruct (uniform_unit s US ltac:(lia)) as [EU UU]. destruct (exponent_val (mean s) ltac:(now rewrite <- EU)) as [EX _]. specialize (EX ltac:(lra)). rewrite <- EX. rewrite EU in UU. destruct UU as [U1 U2].
  destruct (dependent_reach 0.35 (mean s) unit_35 (conj U1 U2)) as [[D0 _] D2]. split; [cbn [length]; lia|]. split.
  - constructor; auto. split; auto. rewrite np_power_pos by lra. rewrite EX. set (e := / (0.02 + 1.96 * mean s)). assert (1 <= e) by (unfold e; rewrite <- Rinv_1; apply Rinv_le_contravar; lra).
    rewrite <- (Rpower_1 0.35) at 2 by lra. unfold Rpower. assert (LN : ln 0.35 < 0) by (rewrite <- ln_1; apply ln_increasing; lra). destruct (Req_dec e 1) as [->|N]; [lra|]. left. apply exp_increasing. nra.
  - replace (S (S l) - 1)%nat with (S (S l - 1)) by lia. cbn [w7_t1]. rewrite E. rewrite EU, D2. reflexivity.
Qed.
(** ** WFG8 *)
Lemma w8_extend_ok l : forall K, units K -> (1 <= length K)%nat -> units (w8_extend l K) /\ length (w8_extend l K) = (length K + l)%nat /\ (exists s, w8_extend l K = K ++ s) /\
  forall i, (length K <= i < length K + l)%nat -> param_dependent (nth i (w8_extend l K) 0) (weighted_sum_uniform (firstn i (w8_extend l K))) = 0.35.
Proof.
  induction l as [|l IH]; intros K U L; cbn [w8_extend].
  - split; auto. split; [lia|]. split; [exists []; now rewrite app_nil_r|]. intros; lia.
  - fold (mean K). destruct (uniform_unit K U L) as [EU UU]. rewrite EU in UU. destruct (dependent_reach 0.35 (mean K) unit_35 UU) as [D1 D2].
    assert (EE : 0.02 + 49.98 * (0.98 / 49.98 - (1 - 2 * mean K) * Rabs (floorR (0.5 - mean K) + 0.98 / 49.98)) = dep_exponent (mean K)) by (unfold dep_exponent; lra).
    rewrite EE. set (v := np_power 0.35 (/ dep_exponent (mean K))) in *. destruct (IH (K ++ [v])) as (I1 & I2 & (s & I3) & I4); [apply Forall_app; split; auto|rewrite app_length; cbn; lia|].
    rewrite app_length in I2, I4. cbn [length] in I2, I4. split; auto. split; [lia|]. split; [exists (v :: s); rewrite I3, <- app_assoc; reflexivity|]. intros i Hi. destruct (Nat.eq_dec i (length K)) as [->|N]; [|apply I4; lia].
    rewrite I3, <- app_assoc. rewrite firstn_app_exact, EU. rewrite app_nth2, Nat.sub_diag by lia. cbn [app nth]. exact D2.
Qed.
