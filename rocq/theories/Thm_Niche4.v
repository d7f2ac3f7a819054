(** * C117: the sort numbers the individuals *)
From Coq Require Import List Arith Bool ZArith QArith Lia Permutation Sorted.
From Verif Require Import ListAux P_Perm M_Niche Thm_Niche Thm_Niche2.
Import ListNotations.
Local Open Scope nat_scope.
(** C117: after the sort the rank of an individual is its position, and its values are those of an individual of the population: nobody before it is worse *)
Theorem C117_ranks : forall pop k, k < length pop -> let s := fitness_survival pop in length s = length pop /\ ni_rank (nth k s nini0) = Some k /\
  (exists a, In a pop /\ ni_x (nth k s nini0) = ni_x a /\ ni_f (nth k s nini0) = ni_f a /\ ni_cv (nth k s nini0) = ni_cv a) /\
  forall j, j < k -> no_worse (nth j s nini0) (nth k s nini0).
Proof.
  intros pop k Hk s. assert (HP := ni_sort_perm pop). assert (HL : length (ni_sort pop) = length pop) by (symmetry; now apply Permutation_length).
  assert (Hs : forall i, i < length pop -> nth i s nini0 = set_rank i (nth i (ni_sort pop) nini0)).
  { intros i Hi. unfold s, fitness_survival. rewrite (nth_map2 _ _ _ _ nini0 0 nini0) by (rewrite ?seq_length; lia). now rewrite seq_nth by auto. }
  split; [apply sorted_pop|]. rewrite Hs by auto. split; [reflexivity|]. split.
  - exists (nth k (ni_sort pop) nini0). split; [|auto]. eapply Permutation_in; [apply Permutation_sym, HP|]. apply nth_In. lia.
  - intros j Hj. rewrite Hs by lia. pose proof (ni_sort_sorted pop) as HS. exact (StronglySorted_nth no_worse (ni_sort pop) nini0 j k HS Hj ltac:(lia)).
Qed.
