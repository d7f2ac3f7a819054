(** * C99: dynamic NSGA-II *)
From Coq Require Import List Arith Bool ZArith QArith Qround Lia Lqa Permutation Floats.SpecFloat.
From Verif Require Import Flt ListAux NpSort M_NDS M_Survival M_Optimum M_GDE3 S_Pareto S_NDS S_Survival P_Peel P_NDS1 P_Survival P_Survival2 P_Survival3 P_Survival4 P_Optimum Thm_Survival M_AGE Thm_AGE M_RankOpt Thm_GDE3 Thm_GDE3b Thm_RankOpt M_Repro Thm_Repro M_DNSGA.
Import ListNotations.
Local Open Scope nat_scope.

(** ** specification *)
(** the stored objectives are those of the objective function in force *)
Definition up_to_date {X} (f : X -> list flt) (a : X * list flt) : Prop := snd a = f (fst a).

(** ** change detection, binary64 *)
Definition zn (x : flt) : Prop := x = S754_zero false \/ x = S754_nan.
Lemma sub_self x : zn (fsub64 x x).
Proof.
  unfold fsub64, SFsub, zn. destruct x as [s|s| |s mm e]; cbn; auto.
  - destruct s; cbn; auto.
  - destruct s; cbn; auto.
  - rewrite Z.sub_diag. cbn. auto.
Qed.
Lemma zn_sq x : zn x -> zn (fmul64 x x).
Proof. intros [-> | ->]; cbn; unfold zn; auto. Qed.
Lemma zn_add x y : zn x -> zn y -> zn (fadd64 x y).
Proof. intros [-> | ->] [-> | ->]; cbn; unfold zn; auto. Qed.
Lemma fsum_zn l s : fsum_of l s -> Forall zn l -> zn s.
Proof.
  induction 1 as [|x|l1 l2 a b _ IH1 _ IH2|l1 l2 a _ IH]; intros HF.
  - now left.
  - now inversion HF.
  - apply Forall_app in HF as [H1 H2]. apply zn_add; auto.
  - apply IH. apply Forall_app in HF as [H1 H2]. apply Forall_app. auto.
Qed.
Lemma nan_add_l y : fadd64 S754_nan y = S754_nan. Proof. reflexivity. Qed.
Lemma nan_add_r x : fadd64 x S754_nan = S754_nan. Proof. destruct x; reflexivity. Qed.
Lemma fsum_nan l s : fsum_of l s -> In S754_nan l -> s = S754_nan.
Proof.
  induction 1 as [|x|l1 l2 a b _ IH1 _ IH2|l1 l2 a _ IH]; intros HI.
  - destruct HI.
  - destruct HI as [E|[]]. auto.
  - apply in_app_iff in HI as [HI|HI]; [rewrite (IH1 HI); reflexivity|rewrite (IH2 HI); apply nan_add_r].
  - apply IH. apply in_app_iff in HI. apply in_app_iff. tauto.
Qed.
Lemma zero_div y : zn (fdiv64 (S754_zero false) y) \/ fdiv64 (S754_zero false) y = S754_zero true.
Proof. destruct y as [[]|[]| |[] ? ?]; cbn; unfold zn; auto. Qed.
Lemma not_detected eps x : fleb f_zero eps = true -> zn x \/ x = S754_zero true -> fltb eps x = false.
Proof.
  intros He [[-> | ->] | ->].
  - now apply fle_not_lt.
  - destruct eps; reflexivity.
  - destruct eps as [[]|[]| |[] ? ?]; cbn in *; try reflexivity; discriminate.
Qed.

Section Detect.
  Context {X : Type} (dx : X) (fsum : list flt -> flt).
  Hypothesis HS : forall l, fsum_of l (fsum l).
  Lemma map2_same (l : list flt) : Forall zn (map2 (fun new old => let d := fsub64 new old in fmul64 d d) l l).
  Proof. induction l; cbn; constructor; auto. apply zn_sq, sub_self. Qed.
  Lemma no_false_alarm eps f (pop : list (X * list flt)) J : fleb f_zero eps = true -> (forall i, In i J -> up_to_date f (nth i pop (dx, []))) -> change_detected dx fsum eps f pop J = false.
  Proof.
    intros He HJ. unfold change_detected. apply not_detected; [exact He|].
    assert (Z : zn (fsum (squares dx f pop J))).
    { eapply fsum_zn; [apply HS|]. unfold squares. apply Forall_forall. intros x Hx. apply in_flat_map in Hx as (i & Hi & Hx).
      assert (U := HJ i Hi). unfold up_to_date in U. unfold dd, dind in Hx. rewrite <- U in Hx. pose proof (map2_same (snd (nth i pop (dx, [])))) as M. rewrite Forall_forall in M. auto. }
    unfold delta. destruct Z as [-> | ->].
    - apply zero_div.
    - left. right. reflexivity.
  Qed.
  Lemma masked_sum eps f (pop : list (X * list flt)) J : In S754_nan (squares dx f pop J) -> change_detected dx fsum eps f pop J = false.
  Proof. intros H. unfold change_detected, delta. rewrite (fsum_nan _ _ (HS _) H). cbn. destruct eps; reflexivity. Qed.
End Detect.

(** C99: a problem that has not changed at the drawn individuals never triggers the re-start: for every objective function, every population (infinite and NaN values included), every draw,
    every threshold eps >= 0 and every order in which the floating point sum is taken *)
Theorem C99_no_false_alarm : forall (X : Type) (dx : X) fsum eps f (pop : list (X * list flt)) J, (forall l, fsum_of l (fsum l)) -> fleb f_zero eps = true ->
  (forall i, In i J -> up_to_date f (nth i pop (dx, []))) -> change_detected dx fsum eps f pop J = false.
Proof. intros X dx fsum eps f pop J HS. now apply no_false_alarm. Qed.
Print Assumptions C99_no_false_alarm.

(** C99: one drawn individual with an objective that is the same infinity before and after, or not a number before or after, hides every change: the mean is not a number *)
Theorem C99_masked : forall (X : Type) (dx : X) fsum eps f (pop : list (X * list flt)) J i k a b, (forall l, fsum_of l (fsum l)) -> In i J ->
  nth_error (snd (nth i pop (dx, []))) k = Some a -> nth_error (f (fst (nth i pop (dx, [])))) k = Some b ->
  isnan a = true \/ isnan b = true \/ (a = b /\ (a = f_inf \/ a = f_ninf)) -> change_detected dx fsum eps f pop J = false.
Proof.
  intros X dx fsum eps f pop J i k a b HS Hi Ka Kb HN. apply masked_sum; [exact HS|]. unfold squares. apply in_flat_map. exists i. split; [exact Hi|].
  unfold dd, dind. generalize dependent k. generalize (f (fst (nth i pop (dx, [])))) as l. generalize (snd (nth i pop (dx, []))) as l'.
  induction l' as [|x l' IH]; intros l k Ka Kb; [destruct k; discriminate|]. destruct l as [|y l]; [destruct k; discriminate|]. destruct k as [|k]; cbn in Ka, Kb.
  - injection Ka as ->. injection Kb as ->. left. destruct HN as [H | [H | [-> [-> | ->]]]]; [destruct a; try discriminate; destruct b; reflexivity|destruct b; try discriminate; reflexivity|reflexivity|reflexivity].
  - right. eapply IH; eauto.
Qed.
Print Assumptions C99_masked.

(** ** change detection, exact arithmetic *)
Local Open Scope Q_scope.
Lemma sum_nonneg l : Forall (fun x => 0 <= x) l -> 0 <= fold_right Qplus 0 l.
Proof. induction 1; cbn [fold_right]; lra. Qed.
Lemma sum_ge l x : Forall (fun x => 0 <= x) l -> In x l -> x <= fold_right Qplus 0 l.
Proof. induction 1 as [|y l Hy Hl IH]; intros Hx; [destruct Hx|]. cbn [fold_right]. pose proof (sum_nonneg _ Hl). destruct Hx as [-> |Hx]; [lra|specialize (IH Hx); lra]. Qed.
Lemma sum_le l c : Forall (fun x => x <= c) l -> fold_right Qplus 0 l <= inject_Z (Z.of_nat (length l)) * c.
Proof.
  induction 1 as [|y l Hy Hl IH]; [change (0 <= 0 * c); lra|]. cbn [fold_right length]. rewrite Nat2Z.inj_succ, <- Z.add_1_r, inject_Z_plus. change (inject_Z 1) with 1. lra.
Qed.
Lemma sq_pos a : 0 <= a * a.
Proof. destruct a as [p q]. unfold Qle, Qmult; cbn. pose proof (Z.square_nonneg p). rewrite Z.mul_1_r. exact H. Qed.
Lemma sq_zero a : a * a == 0 -> a == 0.
Proof. intros H. destruct (Qmult_integral _ _ H); auto. Qed.
Lemma in_map2 {A B C} (g : A -> B -> C) l1 l2 x : In x (map2 g l1 l2) <-> exists k a b, nth_error l1 k = Some a /\ nth_error l2 k = Some b /\ x = g a b.
Proof.
  revert l2. induction l1 as [|a l1 IH]; intros l2; [split; [intros []|intros (k & ? & ? & E & _); destruct k; discriminate]|].
  destruct l2 as [|b l2]; [split; [intros []|intros (k & ? & ? & _ & E & _); destruct k; discriminate]|]. cbn. rewrite IH. split.
  - intros [<- |(k & a' & b' & H)]; [exists 0%nat, a, b; auto|exists (S k), a', b'; auto].
  - intros (k & a' & b' & H1 & H2 & ->). destruct k as [|k]; cbn in *; [injection H1 as ->; injection H2 as ->; auto|right; exists k, a', b'; auto].
Qed.
Definition value (M : list (list Q)) (i k : nat) : option Q := match nth_error M i with Some r => nth_error r k | None => None end.
Lemma in_squares new old x : In x (squares_q new old) <-> exists i k a b, value new i k = Some a /\ value old i k = Some b /\ x = (a - b) * (a - b).
Proof.
  unfold squares_q. rewrite in_concat. split.
  - intros (l & Hl & Hx). apply in_map2 in Hl as (i & r & r' & H1 & H2 & ->). apply in_map2 in Hx as (k & a & b & H3 & H4 & ->). exists i, k, a, b. unfold value. now rewrite H1, H2.
  - intros (i & k & a & b & H1 & H2 & ->). unfold value in *. destruct (nth_error new i) as [r|] eqn:E1; [|discriminate]. destruct (nth_error old i) as [r'|] eqn:E2; [|discriminate].
    exists (map2 (fun a b => (a - b) * (a - b)) r r'). split; apply in_map2; [exists i, r, r'; auto|exists k, a, b; auto].
Qed.
Lemma detected_iff eps new old : change_detected_q eps new old = true <-> eps < delta_q new old.
Proof. unfold change_detected_q. rewrite Qlt_alt. destruct (eps ?= delta_q new old); split; intros; congruence || reflexivity. Qed.
(** C99, exact arithmetic, the drawn individuals have a common objective: with the default eps = 0 a change is detected exactly if some objective of some drawn individual has changed; with any eps
    it is not detected if every squared difference is at most eps, and it is detected if one squared difference exceeds eps times the number of values compared *)
Theorem C99_detects : forall eps new old, (exists i k a b, value new i k = Some a /\ value old i k = Some b) ->
  (change_detected_q 0 new old = true <-> exists i k a b, value new i k = Some a /\ value old i k = Some b /\ ~ a == b) /\
  ((forall i k a b, value new i k = Some a -> value old i k = Some b -> (a - b) * (a - b) <= eps) -> change_detected_q eps new old = false) /\
  ((exists i k a b, value new i k = Some a /\ value old i k = Some b /\ eps * inject_Z (Z.of_nat (length (squares_q new old))) < (a - b) * (a - b)) -> change_detected_q eps new old = true).
Proof.
  intros eps new old (i0 & k0 & a0 & b0 & V1 & V2). set (sq := squares_q new old). set (n := inject_Z (Z.of_nat (length sq))).
  assert (NE : In ((a0 - b0) * (a0 - b0)) sq) by (apply in_squares; eauto 8).
  assert (Hn : 0 < n). { unfold n. destruct sq as [|s sq']; [destruct NE|]. cbn [length]. change 0 with (inject_Z 0). rewrite <- Zlt_Qlt. lia. }
  assert (NN : Forall (fun x => 0 <= x) sq). { apply Forall_forall. intros x Hx. apply in_squares in Hx as (? & ? & ? & ? & _ & _ & ->). apply sq_pos. }
  assert (DI : forall e, e < delta_q new old <-> e * n < fold_right Qplus 0 sq).
  { intros e. unfold delta_q. fold sq n. split; intros H.
    - apply (Qmult_lt_r _ _ n Hn) in H. assert (E : fold_right Qplus 0 sq / n * n == fold_right Qplus 0 sq) by (field; lra). lra.
    - apply Qlt_shift_div_l; auto. }
  assert (DF : forall e, change_detected_q e new old = false <-> fold_right Qplus 0 sq <= e * n).
  { intros e. rewrite <- not_true_iff_false, detected_iff, DI. split; intros H; [now apply Qnot_lt_le|now apply Qle_not_lt]. }
  split; [|split].
  - rewrite detected_iff, DI. split.
    + intros H. destruct (Exists_dec (fun x => ~ x == 0) sq) as [E|E]. { intros x. destruct (Qeq_dec x 0) as [E|E]; [right|left]; auto. }
      * apply Exists_exists in E as (x & Hx & Nx). apply in_squares in Hx as (i & k & a & b & H1 & H2 & ->). exists i, k, a, b. repeat split; auto. intros E. apply Nx. rewrite E. ring.
      * exfalso. assert (Z : fold_right Qplus 0 sq <= 0). { pose proof (sum_le sq 0) as L. fold n in L. assert (Forall (fun x => x <= 0) sq); [|specialize (L H0); lra].
          apply Forall_forall. intros x Hx. destruct (Qlt_le_dec 0 x) as [P|P]; [|exact P]. exfalso. apply E, Exists_exists. exists x. split; auto. lra. } lra.
    + intros (i & k & a & b & H1 & H2 & NQ). assert (Hx : In ((a - b) * (a - b)) sq) by (apply in_squares; eauto 8). pose proof (sum_ge _ _ NN Hx) as G. pose proof (sq_pos (a - b)) as P.
      destruct (Qeq_dec ((a - b) * (a - b)) 0) as [Z|Z]; [exfalso; apply NQ; apply sq_zero in Z; lra|]. lra.
  - intros H. apply DF. rewrite Qmult_comm. apply sum_le. apply Forall_forall. intros x Hx. apply in_squares in Hx as (i & k & a & b & H1 & H2 & ->). eauto.
  - intros (i & k & a & b & H1 & H2 & H). apply detected_iff, DI. eapply Qlt_le_trans; [exact H|]. apply sum_ge; auto. apply in_squares; eauto 8.
Qed.
Print Assumptions C99_detects.
(** C99: the number of individuals drawn is at least one and at most the population *)
Theorem C99_samples : forall N perc, (0 < N)%nat -> 0 < perc -> perc <= 1 -> (1 <= n_samples N perc <= N)%nat.
Proof.
  intros N perc HN P0 P1. unfold n_samples. set (q := inject_Z (Z.of_nat N) * perc).
  assert (HNq : 0 < inject_Z (Z.of_nat N)) by (change 0 with (inject_Z 0); rewrite <- Zlt_Qlt; lia).
  assert (Q0 : 0 < q) by (unfold q; apply Qmult_lt_0_compat; auto).
  assert (Q1 : q <= inject_Z (Z.of_nat N)). { unfold q. setoid_replace (inject_Z (Z.of_nat N)) with (inject_Z (Z.of_nat N) * 1) at 2 by ring. rewrite Qmult_comm, (Qmult_comm _ 1). apply Qmult_le_compat_r; [exact P1|lra]. }
  pose proof (Qle_ceiling q) as C1. assert (C2 : (Qceiling q <= Z.of_nat N)%Z) by (rewrite <- (Qceiling_Z (Z.of_nat N)); apply Qceiling_resp_le; exact Q1).
  assert (C3 : (0 < Qceiling q)%Z) by (rewrite Zlt_Qlt; change (inject_Z 0) with 0; lra). lia.
Qed.
Print Assumptions C99_samples.
