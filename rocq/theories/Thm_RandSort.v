(** * C32, C33: randomised sorting and stochastic ranking *)
From Coq Require Import List Arith Bool Lia Permutation QArith.
From Verif Require Import Flt ListAux NpSort M_RandSort P_RandSort.
Import ListNotations.
Local Open Scope nat_scope.

(** ** specification: [I] lists every index once, values in ascending (descending) order *)
Definition sorts_ascending (A : list flt) (I : list nat) : Prop :=
  Permutation I (seq 0 (length A)) /\
  forall p q, p < q -> q < length A -> fltb (nth (nth q I 0) A f_nan) (nth (nth p I 0) A f_nan) = false.
Definition sorts_descending (A : list flt) (I : list nat) : Prop :=
  Permutation I (seq 0 (length A)) /\
  forall p q, p < q -> q < length A -> fltb (nth (nth p I 0) A f_nan) (nth (nth q I 0) A f_nan) = false.

(** ** C32 *)
(** quicksort with arbitrary pivots *)
Theorem C32_quicksort : forall piv A, vec_ok A -> sorts_ascending A (quicksort piv A).
Proof.
  intros piv A HA. unfold quicksort. split.
  - symmetry. apply (quicksort_rec_within (length A) piv A (seq 0 (length A)) 0 (length A)). now rewrite seq_length.
  - intros p q Hpq Hq.
    refine (quicksort_rec_sorted (length A) piv A HA (seq 0 (length A)) 0 (length A) _ _ _ p q _ Hpq Hq); try lia.
    + now rewrite seq_length.
    + intros i Hi. apply in_seq in Hi. lia.
Qed.
(** with NaN values it is still a permutation *)
Theorem C32_quicksort_permutation : forall piv A, Permutation (quicksort piv A) (seq 0 (length A)).
Proof.
  intros piv A. unfold quicksort. symmetry.
  apply (quicksort_rec_within (length A) piv A (seq 0 (length A)) 0 (length A)). now rewrite seq_length.
Qed.
(** the public function, both methods and both orders, for every random permutation and every sorting routine meeting numpy's contract *)
Theorem C32_randomized_argsort : forall asort A m (descending : bool) P piv, asort_ok asort -> (m = Quicksort -> vec_ok A) ->
  Permutation P (seq 0 (length A)) ->
  (if descending then sorts_descending else sorts_ascending) A (randomized_argsort asort A m descending P piv).
Proof.
  intros asort A m descending P piv HS HA HP.
  assert (H : sorts_ascending A (randomized_argsort asort A m false P piv)).
  { destruct m; [|apply C32_quicksort; auto]. unfold randomized_argsort.
    destruct (shuffled_argsort fltb f_nan A P (asort (gather f_nan A P)) HP (HS _)) as [H1 H2]. split; auto.
    intros p q Hpq Hq. apply H2; auto. now rewrite (perm_seq_length _ _ H1). }
  destruct descending; auto. destruct H as [H1 H2].
  change (randomized_argsort asort A m true P piv) with (rev (randomized_argsort asort A m false P piv)).
  pose proof (perm_seq_length _ _ H1) as HL. split.
  - rewrite <- H1. symmetry. apply Permutation_rev.
  - intros p q Hpq Hq. rewrite !rev_nth by lia. apply H2; lia.
Qed.
Example C32_case : let A := [fz 5; fz 9; fz 0; fz 0; fz (-2)] in
  vec_ok A /\ quicksort (fun _ _ => 0) A = [4; 3; 2; 0; 1] /\ quicksort (fun l r => l + r) A = [4; 3; 2; 0; 1] /\
  randomized_argsort np_argsort A Numpy true [4; 2; 0; 1; 3] (fun _ _ => 0) = [1; 0; 3; 2; 4].
Proof. split; [repeat constructor|]. vm_compute. auto. Qed.

(** ** C33 *)
Theorem C33_permutation : forall f phi pr I0 u,
  (forall I, I0 = Some I -> Permutation I (seq 0 (length f))) ->
  Permutation (stochastic_ranking f phi pr I0 u) (seq 0 (length f)).
Proof.
  intros f phi pr I0 u H. unfold stochastic_ranking.
  assert (HP : Permutation (match I0 with None => seq 0 (length f) | Some J => J end) (seq 0 (length f))) by (destruct I0; auto).
  rewrite <- passes_perm; auto. symmetry. now apply perm_seq_length.
Qed.

Lemma sr_sorted f phi pr I0 u (gt : nat -> nat -> bool) :
  (forall I, I0 = Some I -> Permutation I (seq 0 (length f))) ->
  (forall a b, a < length f -> b < length f -> gt a b = true -> gt b a = false) ->
  (forall a b c, a < length f -> b < length f -> c < length f -> gt a b = false -> gt b c = false -> gt a c = false) ->
  (forall i j a b, a < length f -> b < length f -> sr_greater f phi pr (u i j) a b = gt a b) ->
  forall p q, p < q -> q < length f -> gt (nth p (stochastic_ranking f phi pr I0 u) 0) (nth q (stochastic_ranking f phi pr I0 u) 0) = false.
Proof.
  intros HP Ha Ht HC p q Hpq Hq. unfold stochastic_ranking.
  apply passes_sorted with (ok := fun a => a < length f); auto.
  - assert (HP' : Permutation (match I0 with None => seq 0 (length f) | Some J => J end) (seq 0 (length f))) by (destruct I0; auto).
    pose proof (perm_seq_length _ _ HP') as HL. split; auto.
    intros k Hk. apply (perm_seq_In _ _ _ HP'). apply nth_In. lia.
  - intros p' q' Hpq' Hq' Hn. lia.
Qed.

Lemma vec_ok_nth A i : vec_ok A -> i < length A -> isnan (nth i A f_nan) = false.
Proof. intros H Hi. unfold vec_ok in H. rewrite Forall_forall in H. apply H, nth_In; auto. Qed.

(** comparison probability 0 (a random number is never negative): feasible ones first, by objective; then infeasible ones by violation *)
Theorem C33_pr_zero : forall f phi pr I0 u, vec_ok f -> vec_ok phi -> length phi = length f ->
  (forall I, I0 = Some I -> Permutation I (seq 0 (length f))) ->
  (forall i, i < length phi -> fleb f_zero (nth i phi f_nan) = true) ->
  (pr <= 0)%Q -> (forall i j, 0 <= u i j)%Q ->
  let R := stochastic_ranking f phi pr I0 u in
  let F := fun k => nth (nth k R 0) f f_nan in let V := fun k => nth (nth k R 0) phi f_nan in
  forall p q, p < q -> q < length f ->
    fltb (V q) (V p) = false /\ (feqb (V p) f_zero = true -> feqb (V q) f_zero = true -> fltb (F q) (F p) = false).
Proof.
  intros f phi pr I0 u Hf Hphi HL HI Hpos Hpr Hu. cbv zeta. intros p q Hpq Hq.
  set (gt := fun a b => if feqb (nth a phi f_nan) f_zero && feqb (nth b phi f_nan) f_zero then fltb (nth b f f_nan) (nth a f f_nan)
                        else fltb (nth b phi f_nan) (nth a phi f_nan)).
  assert (H : gt (nth p (stochastic_ranking f phi pr I0 u) 0) (nth q (stochastic_ranking f phi pr I0 u) 0) = false).
  { apply sr_sorted; auto.
    - intros a b Ha Hb. unfold gt. rewrite (andb_comm (feqb (nth b phi f_nan) f_zero)).
      destruct (feqb (nth a phi f_nan) f_zero && feqb (nth b phi f_nan) f_zero); apply flt_asym.
    - intros a b c Ha Hb Hc.
      pose proof (vec_ok_nth f a Hf Ha) as N1. pose proof (vec_ok_nth f b Hf Hb) as N2. pose proof (vec_ok_nth f c Hf Hc) as N3.
      rewrite <- HL in Ha, Hb, Hc.
      pose proof (vec_ok_nth phi a Hphi Ha) as N4. pose proof (vec_ok_nth phi b Hphi Hb) as N5. pose proof (vec_ok_nth phi c Hphi Hc) as N6.
      pose proof (Hpos a Ha) as Pa. pose proof (Hpos b Hb) as Pb. pose proof (Hpos c Hc) as Pc. unfold gt.
      destruct (feqb (nth a phi f_nan) f_zero) eqn:Ea, (feqb (nth b phi f_nan) f_zero) eqn:Eb, (feqb (nth c phi f_nan) f_zero) eqn:Ec; cbn [andb]; intros H1 H2.
      + apply fle_not_lt. eapply fle_trans; [apply nlt_le; [| |exact H1]|apply nlt_le; [| |exact H2]]; auto.
      + apply fle_not_lt. eapply fle_trans; [apply feq_le; exact Ea|exact Pc].
      + exfalso. apply nlt_le in H2; auto. rewrite (fle_antisym (nth b phi f_nan) f_zero) in Eb; [discriminate| |auto].
        eapply fle_trans; [exact H2|apply feq_le; auto].
      + apply fle_not_lt. eapply fle_trans; [apply nlt_le; [| |exact H1]|apply nlt_le; [| |exact H2]]; auto.
      + exfalso. apply nlt_le in H1; auto. rewrite (fle_antisym (nth a phi f_nan) f_zero) in Ea; [discriminate| |auto].
        eapply fle_trans; [exact H1|apply feq_le; auto].
      + apply fle_not_lt. eapply fle_trans; [apply nlt_le; [| |exact H1]|apply nlt_le; [| |exact H2]]; auto.
      + apply fle_not_lt. eapply fle_trans; [apply nlt_le; [| |exact H1]|apply nlt_le; [| |exact H2]]; auto.
      + apply fle_not_lt. eapply fle_trans; [apply nlt_le; [| |exact H1]|apply nlt_le; [| |exact H2]]; auto.
    - intros i j a b Ha Hb. unfold sr_greater, gt. replace (negb (Qle_bool pr (u i j))) with false; auto.
      symmetry. apply negb_false_iff, Qle_bool_iff. apply Qle_trans with 0%Q; auto. }
  unfold gt in H.
  cbv beta. set (a := nth p (stochastic_ranking f phi pr I0 u) 0) in *. set (b := nth q (stochastic_ranking f phi pr I0 u) 0) in *.
  destruct (feqb (nth a phi f_nan) f_zero) eqn:Ea, (feqb (nth b phi f_nan) f_zero) eqn:Eb; cbn [andb] in H; split; auto; try (intros; congruence).
  apply fle_not_lt. eapply fle_trans; [apply feq_le; exact Ea|]. apply feq_le. now rewrite feq_sym.
Qed.

(** all solutions feasible: sorted by objective whatever the random numbers *)
Theorem C33_feasible : forall f phi pr I0 u, vec_ok f ->
  (forall I, I0 = Some I -> Permutation I (seq 0 (length f))) ->
  (forall i, i < length f -> feqb (nth i phi f_nan) f_zero = true) ->
  sorts_ascending f (stochastic_ranking f phi pr I0 u).
Proof.
  intros f phi pr I0 u Hf HI H0. split; [now apply C33_permutation|]. intros p q Hpq Hq.
  refine (sr_sorted f phi pr I0 u (fun a b => fltb (nth b f f_nan) (nth a f f_nan)) HI _ _ _ p q Hpq Hq).
  - intros a b _ _. apply flt_asym.
  - intros a b c Ha Hb Hc H1 H2.
    apply fle_not_lt. eapply fle_trans; [apply nlt_le; [| |exact H1]|apply nlt_le; [| |exact H2]]; apply vec_ok_nth; auto.
  - intros i j a b Ha Hb. unfold sr_greater. rewrite !H0 by auto. cbn [andb]. now rewrite orb_true_r.
Qed.
(** comparison probability 1 (random numbers are below 1): violations are ignored *)
Theorem C33_pr_one : forall f phi pr I0 u, vec_ok f ->
  (forall I, I0 = Some I -> Permutation I (seq 0 (length f))) ->
  (1 <= pr)%Q -> (forall i j, u i j < 1)%Q ->
  sorts_ascending f (stochastic_ranking f phi pr I0 u).
Proof.
  intros f phi pr I0 u Hf HI Hpr Hu. split; [now apply C33_permutation|]. intros p q Hpq Hq.
  refine (sr_sorted f phi pr I0 u (fun a b => fltb (nth b f f_nan) (nth a f f_nan)) HI _ _ _ p q Hpq Hq).
  - intros a b _ _. apply flt_asym.
  - intros a b c Ha Hb Hc H1 H2.
    apply fle_not_lt. eapply fle_trans; [apply nlt_le; [| |exact H1]|apply nlt_le; [| |exact H2]]; apply vec_ok_nth; auto.
  - intros i j a b Ha Hb. unfold sr_greater. replace (negb (Qle_bool pr (u i j))) with true; auto.
    symmetry. apply negb_true_iff. apply not_true_iff_false. rewrite Qle_bool_iff. apply Qlt_not_le. apply Qlt_le_trans with 1%Q; auto.
Qed.
Example C33_case : let f := [fz 3; fz 1; fz 2; fz 0] in let phi := [fz 0; fz 5; fz 0; fz 1] in
  stochastic_ranking f phi 0 None (fun _ _ => 1 # 2) = [2; 0; 3; 1] /\
  stochastic_ranking f phi (9 # 20) None (fun i j => if (i + j) mod 2 =? 0 then 1 # 4 else 3 # 4) = [2; 3; 0; 1] /\
  stochastic_ranking f phi 1 (Some [3; 0; 2; 1]) (fun _ _ => 1 # 2) = [3; 1; 2; 0].
Proof. vm_compute. auto. Qed.
Print Assumptions C32_randomized_argsort.
Print Assumptions C33_pr_zero.
Print Assumptions C33_feasible.
