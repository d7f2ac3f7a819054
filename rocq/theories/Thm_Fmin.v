(** * C37: exactly when the minimum-function-value criterion stops, continues or fails *)
From Coq Require Import QArith Bool Lqa.
From Verif Require Import M_Termination.
Local Open Scope Q_scope.

(** C37: for every target and every best feasible value: with both positive (or target zero) it stops exactly when the target is reached; with both negative (or target zero) exactly when the
    target is NOT passed; a value of zero stops it for positive targets; in all other cases the assertion on the progress fails *)
Theorem C37_fmin_exact : forall fmin best,
  (0 < best -> 0 <= fmin -> exists b, decide (fmin_progress fmin true best) = Some b /\ (b = true <-> best <= fmin)) /\
  (best < 0 -> fmin <= 0 -> exists b, decide (fmin_progress fmin true best) = Some b /\ (b = true <-> fmin <= best)) /\
  (best == 0 -> 0 < fmin -> decide (fmin_progress fmin true best) = Some true) /\
  ((0 < best /\ fmin < 0) \/ (best < 0 /\ 0 < fmin) \/ (best == 0 /\ fmin <= 0) <-> decide (fmin_progress fmin true best) = None).
Proof.
  intros fmin best. unfold fmin_progress, np_div.
  assert (POS : 0 < best -> (Qle_bool 0 (fmin / best) = true <-> 0 <= fmin) /\ (Qle_bool 1 (fmin / best) = true <-> best <= fmin)).
  { intros H. assert (E : fmin / best * best == fmin) by (field; lra). rewrite !Qle_bool_iff. set (q := fmin / best) in *. clearbody q. rewrite <- E. split; split; intros K; nra. }
  assert (NEG : best < 0 -> (Qle_bool 0 (fmin / best) = true <-> fmin <= 0) /\ (Qle_bool 1 (fmin / best) = true <-> fmin <= best)).
  { intros H. assert (E : fmin / best * best == fmin) by (field; lra). rewrite !Qle_bool_iff. set (q := fmin / best) in *. clearbody q. rewrite <- E. split; split; intros K; nra. }
  assert (Z : Qeq_bool best 0 = true <-> best == 0) by apply Qeq_bool_iff.
  assert (ZF : Qeq_bool fmin 0 = true <-> fmin == 0) by apply Qeq_bool_iff. assert (ZL : Qle_bool 0 fmin = true <-> 0 <= fmin) by apply Qle_bool_iff.
  destruct (Qlt_le_dec 0 best) as [HP|HP]; [|destruct (Qlt_le_dec best 0) as [HN|HN]].
  - destruct (POS HP) as [P1 P2]. destruct (Qeq_bool best 0); [exfalso; destruct Z as [Z _]; specialize (Z eq_refl); lra|]. cbn [decide]. split; [|split; [intros; exfalso; lra|split; [intros; exfalso; lra|]]].
    + intros _ HF. rewrite (proj2 P1 HF). eauto.
    + destruct (Qle_bool 0 (fmin / best)); [split; [intros [[_ K]|[[K _]|[K _]]]; exfalso; [destruct P1 as [P1 _]; specialize (P1 eq_refl)| |]; lra|discriminate]|]. split; auto. intros _. left. split; auto. destruct (Qlt_le_dec fmin 0) as [|K]; auto. apply P1 in K. discriminate.
  - destruct (NEG HN) as [P1 P2]. destruct (Qeq_bool best 0); [exfalso; destruct Z as [Z _]; specialize (Z eq_refl); lra|]. cbn [decide]. split; [intros; exfalso; lra|]. split; [|split; [intros; exfalso; lra|]].
    + intros _ HF. rewrite (proj2 P1 HF). eauto.
    + destruct (Qle_bool 0 (fmin / best)); [split; [intros [[K _]|[[_ K]|[K _]]]; exfalso; [|destruct P1 as [P1 _]; specialize (P1 eq_refl)|]; lra|discriminate]|]. split; auto. intros _. right; left. split; auto. destruct (Qlt_le_dec 0 fmin) as [|K]; auto. apply P1 in K. discriminate.
  - assert (E : best == 0) by lra. rewrite (proj2 Z E). split; [intros; exfalso; lra|]. split; [intros; exfalso; lra|]. split.
    + intros _ HF. destruct (Qeq_bool fmin 0); [exfalso; destruct ZF as [ZF _]; specialize (ZF eq_refl); lra|]. rewrite (proj2 ZL) by lra. reflexivity.
    + destruct (Qeq_bool fmin 0) eqn:EF; cbn [decide]; [split; auto; intros _; right; right; split; auto; destruct ZF as [ZF _]; specialize (ZF eq_refl); lra|].
      destruct (Qle_bool 0 fmin); cbn [decide]; [split; [|discriminate]|split; auto; intros _; right; right; split; auto; destruct (Qlt_le_dec 0 fmin) as [K|K]; auto; assert (K' : 0 <= fmin) by lra; apply ZL in K'; discriminate].
      destruct ZL as [ZL _]. specialize (ZL eq_refl). intros [[K _]|[[K _]|[_ K]]]; [lra|lra|]. assert (K' : fmin == 0) by lra. apply ZF in K'. congruence.
Qed.
Print Assumptions C37_fmin_exact.
