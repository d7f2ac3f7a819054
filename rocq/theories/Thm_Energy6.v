(** * C118: what the energy is *)
From Coq Require Import List Arith Bool Reals Lra Lia.
From Verif Require Import ListAux M_NSGA3R M_Energy Thm_Energy3.
Import ListNotations.
Local Open Scope R_scope.

(** the distance of points i and j, not below the overflow threshold *)
Definition apart (d : nat) (X : list (list R)) (i j : nat) : R := Rmax (eps_dist d) (norm (map2 Rminus (nth i X []) (nth j X []))).
Lemma dist_max d a b : dist d a b = Rmax (eps_dist d) (norm (map2 Rminus a b)).
Proof. unfold dist. destruct (Rlt_dec _ _); [rewrite Rmax_left|rewrite Rmax_right]; lra. Qed.
Lemma map_nth_seq {A B} (f : A -> B) (l : list A) d : map f l = map (fun i => f (nth i l d)) (seq 0 (length l)).
Proof.
  induction l as [|a l IH]; auto. cbn [length seq map nth]. f_equal. rewrite <- seq_shift, map_map. exact IH.
Qed.
Lemma energy_pairs d X : energy_sum d X = rsum (map (fun i => rsum (map (fun j => 1 / apart d X i j ^ d) (seq (S i) (length X - S i)))) (seq 0 (length X))).
Proof.
  induction X as [|a X IH]; auto. cbn [energy_sum length seq map].
  cbn [rsum fold_right]. rewrite IH. change (S (length X) - 1)%nat with (length X - 0)%nat. rewrite Nat.sub_0_r. unfold rsum. cbn [fold_right]. f_equal.
  - rewrite <- seq_shift, map_map, (map_nth_seq _ X []). f_equal. apply map_ext. intros j. unfold apart. cbn [nth]. now rewrite dist_max.
  - rewrite <- (seq_shift (length X) 0), map_map. f_equal. apply map_ext. intros i. change (S (length X) - S (S i))%nat with (length X - S i)%nat. rewrite <- (seq_shift _ (S i)), map_map. reflexivity.
Qed.
Lemma pairs_count n : INR (n_pairs (S n)) = INR (S n) * INR n / 2.
Proof.
  induction n as [|n IH]; [cbn; field|]. change (n_pairs (S (S n))) with (S n + n_pairs (S n))%nat. rewrite plus_INR, IH, !S_INR. field.
Qed.
(** C118: the energy is the logarithm of the mean of 1 / distance^d over the n (n - 1) / 2 pairs of points *)
Theorem C118_mean : forall d X, (2 <= length X)%nat -> let n := length X in
  exp (log_energy d X) = rsum (map (fun i => rsum (map (fun j => 1 / apart d X i j ^ d) (seq (S i) (n - S i)))) (seq 0 n)) / (INR n * (INR n - 1) / 2).
Proof.
  intros d X HX n. rewrite <- energy_pairs. unfold log_energy. pose proof (energy_sum_pos d X HX) as Hp. unfold n; clear n. revert HX Hp. generalize (length X) as n. intros n HX Hp. destruct n as [|[|m]]; [lia|lia|]. rewrite pairs_count.
  assert (H1 : 0 < INR (S (S m)) * INR (S m) / 2) by (pose proof (lt_0_INR (S m) ltac:(lia)); pose proof (lt_0_INR (S (S m)) ltac:(lia)); assert (0 < INR (S (S m)) * INR (S m)) by (apply Rmult_lt_0_compat; auto); lra).
  rewrite exp_plus, exp_Ropp, !exp_ln by auto. replace (INR (S (S m)) - 1) with (INR (S m)) by (rewrite (S_INR (S m)); ring). unfold Rdiv at 2. rewrite Rmult_comm. reflexivity.
Qed.
