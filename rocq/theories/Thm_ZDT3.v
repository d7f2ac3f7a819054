From Coq Require Import Reals List Lra Lia Psatz.
From Verif Require Import ListAux M_NSGA3R M_ZDT S_Bench Thm_Bench Thm_Bench2 Thm_ZDT.
Import ListNotations.
Local Open Scope R_scope.

Lemma sin_ub9 a : 0 <= a <= 4 -> sin a <= a - a^3/6 + a^5/120 - a^7/5040 + a^9/362880.
Proof.
  intros [H1 H2]. pose proof (proj2 (pre_sin_bound a 1 H1 H2)) as H. eapply Rle_trans; [exact H|]. right. unfold sin_approx. cbn [Nat.add Nat.mul sum_f_R0]. unfold sin_term. cbn [Nat.add Nat.mul].
  assert (HS : forall n, INR (fact (S n)) = (INR n + 1) * INR (fact n)) by (intros n; change (fact (S n)) with (S n * fact n)%nat; rewrite mult_INR, S_INR; ring).
  rewrite !HS. cbn [fact]. rewrite !S_INR. cbn [INR]. field.
Qed.
Definition zdt3_a : R := 6183967944/10000000000.
Definition zdt3_b : R := 4538821041/10000000000.
Lemma zdt3_order : 1 - sqrt zdt3_b - zdt3_b * sin (10 * PI * zdt3_b) < 1 - sqrt zdt3_a - zdt3_a * sin (10 * PI * zdt3_a).
Proof.
  pose proof PI_ub as PU. pose proof PI_lb as PL.
  assert (HA : sin (10 * PI * zdt3_a) <= (5463099991932/10000000000000)).
  { replace (10 * PI * zdt3_a) with (183967944/1000000000 * PI + 2 * INR 3 * PI) by (unfold zdt3_a; cbn [INR]; lra). rewrite sin_period.
    apply Rle_trans with (sin (5779523413867/10000000000000)); [apply sin_incr_1; lra|]. eapply Rle_trans; [apply sin_ub9; lra|]. lra. }
  assert (HB : (9925721055950/10000000000000) <= sin (10 * PI * zdt3_b)).
  { replace (10 * PI * zdt3_b) with (PI / 2 - - (38821041/1000000000 * PI) + 2 * INR 2 * PI) by (unfold zdt3_b; cbn [INR]; lra). rewrite sin_period, Rtrigo1.sin_shift, cos_neg.
    apply Rle_trans with (cos (1219598972146/10000000000000)); [eapply Rle_trans; [|apply cos_lb6; lra]; lra|apply cos_decr_1; lra]. }
  assert (HRa : sqrt zdt3_a <= (7863820918613/10000000000000)). { apply Rsqr_incr_0_var; [|lra]. rewrite Rsqr_sqrt by (unfold zdt3_a; lra). unfold Rsqr, zdt3_a. lra. }
  assert (HRb : (6737077289893/10000000000000) <= sqrt zdt3_b). { apply Rsqr_incr_0_var; [|apply sqrt_pos]. rewrite Rsqr_sqrt by (unfold zdt3_b; lra). unfold Rsqr, zdt3_b. lra. }
  unfold zdt3_a, zdt3_b in *. lra.
Qed.
Lemma linspace_first a b n : (1 <= n)%nat -> In a (linspace a b n).
Proof. intros H. destruct n as [|[|n]]; [lia|now left|]. cbn [linspace]. apply in_map_iff. exists 0%nat. split; [cbn; ring|apply in_seq; lia]. Qed.
Lemma linspace_last a b n : (2 <= n)%nat -> In b (linspace a b n).
Proof.
  intros Hn. destruct n as [|[|n]]; try lia. cbn [linspace]. set (k := S (S n)). apply in_map_iff.
  exists (k - 1)%nat. split; [|apply in_seq; unfold k; lia]. assert (INR (k - 1) <> 0) by (apply not_0_INR; unfold k; lia). field. auto.
Qed.
(** C86: but the reported front of ZDT3 is not a set of non-dominated points: the last point of the third region dominates the first one of the fourth *)
Theorem C86_zdt3_refuted : forall n_points, (10 <= n_points)%nat -> exists p q, In p (zdt3_front n_points) /\ In q (zdt3_front n_points) /\ pareto_dom p q.
Proof.
  intros n Hn. assert (H2 : (2 <= n / 5)%nat) by (apply Nat.div_le_lower_bound; lia).
  exists [zdt3_b; 1 - sqrt zdt3_b - zdt3_b * sin (10 * PI * zdt3_b)], [zdt3_a; 1 - sqrt zdt3_a - zdt3_a * sin (10 * PI * zdt3_a)]. split; [|split].
  - apply in_flat_map. exists (4093136748/10000000000, 4538821041/10000000000). split; [right; right; now left|]. apply in_map_iff. exists zdt3_b. split; auto. cbn [fst snd]. apply linspace_last. auto.
  - apply in_flat_map. exists (6183967944/10000000000, 6525117038/10000000000). split; [right; right; right; now left|]. apply in_map_iff. exists zdt3_a. split; auto. cbn [fst snd]. apply linspace_first. lia.
  - apply dom2. pose proof zdt3_order. unfold zdt3_a, zdt3_b in *. lra.
Qed.
