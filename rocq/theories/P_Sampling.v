(** * Proofs for M_Sampling *)
From Coq Require Import List Arith Bool ZArith QArith Lia Lqa Permutation.
From Verif Require Import Flt ListAux M_Sampling S_Sampling S_Bounds P_Perm P_Bounds.
Import ListNotations.
Local Open Scope nat_scope.

Lemma matrix_shape {A} n m (f : nat -> nat -> A) : shape n m (matrix n m f).
Proof.
  unfold matrix. split; [now rewrite map_length, seq_length|]. intros row Hr. apply in_map_iff in Hr. destruct Hr as (i & <- & _).
  now rewrite map_length, seq_length.
Qed.
Lemma matrix_entry {A} (d : A) n m f i j : i < n -> j < m -> entry d (matrix n m f) i j = f i j.
Proof. intros. unfold entry, matrix. rewrite nth_map_seq0 by auto. now rewrite nth_map_seq0. Qed.

Lemma sequence_some {A} (l : list (option A)) (d : A) : (forall i, i < length l -> exists a, nth i l None = Some a) ->
  exists r, sequence l = Some r /\ length r = length l /\ forall i, i < length l -> nth i l None = Some (nth i r d).
Proof.
  induction l as [|o l IH]; intros H; simpl.
  - exists []. repeat split; auto. simpl; intros; lia.
  - destruct (H 0 ltac:(simpl; lia)) as [a Ha]. simpl in Ha. subst o.
    destruct IH as (r & Hr & HL & Hn). { intros i Hi. apply (H (S i)). simpl; lia. }
    exists (a :: r). rewrite Hr. simpl. repeat split; auto. intros [|i] Hi; auto. simpl in *. apply Hn. lia.
Qed.

Lemma integers_spec low high u : (low < high)%Z -> exists v, integers low high u = Some v /\ (low <= v < high)%Z.
Proof.
  intros H. unfold integers. rewrite (proj2 (Z.ltb_lt _ _) H). eexists; split; eauto.
  pose proof (Z.mod_pos_bound u (high - low) ltac:(lia)). lia.
Qed.
Lemma integers_reach low high v : (low <= v < high)%Z -> integers low high (v - low) = Some v.
Proof.
  intros H. unfold integers. rewrite (proj2 (Z.ltb_lt low high)) by lia. f_equal. rewrite Z.mod_small; lia.
Qed.

Lemma integer_sampling_spec n m xl xu U : (forall j, j < m -> (nth j xl 0 <= nth j xu 0)%Z) ->
  exists X, integer_sampling n m xl xu U = Some X /\ shape n m X /\
    forall i j, i < n -> j < m -> integers (nth j xl 0%Z) (nth j xu 0%Z + 1) (U i j) = Some (entry 0%Z X i j).
Proof.
  intros HB. unfold integer_sampling.
  set (rowf := fun i => sequence (map (fun j => integers (nth j xl 0%Z) (nth j xu 0%Z + 1) (U i j)) (seq 0 m))).
  assert (Hrow : forall i, exists r, rowf i = Some r /\ length r = m /\
     forall j, j < m -> integers (nth j xl 0%Z) (nth j xu 0%Z + 1) (U i j) = Some (nth j r 0%Z)).
  { intros i. destruct (sequence_some (map (fun j => integers (nth j xl 0%Z) (nth j xu 0%Z + 1) (U i j)) (seq 0 m)) 0%Z) as (r & Hr & HL & Hn).
    - rewrite map_length, seq_length. intros j Hj. rewrite nth_map_seq0 by auto.
      destruct (integers_spec (nth j xl 0%Z) (nth j xu 0%Z + 1) (U i j)) as (v & Hv & _); [specialize (HB j Hj); lia|eauto].
    - rewrite map_length, seq_length in *. exists r. repeat split; auto. intros j Hj. rewrite <- Hn by auto. now rewrite nth_map_seq0. }
  destruct (sequence_some (map rowf (seq 0 n)) []) as (X & HX & HL & Hn).
  { rewrite map_length, seq_length. intros i Hi. rewrite nth_map_seq0 by auto. destruct (Hrow i) as (r & ? & _). eauto. }
  rewrite map_length, seq_length in *. exists X. split; auto. split.
  - split; auto. intros row Hin. apply In_nth with (d := []) in Hin. destruct Hin as (i & Hi & <-). rewrite HL in Hi.
    specialize (Hn i Hi). rewrite nth_map_seq0 in Hn by auto. destruct (Hrow i) as (r & Hr & Hl & _). congruence.
  - intros i j Hi Hj. specialize (Hn i Hi). rewrite nth_map_seq0 in Hn by auto. destruct (Hrow i) as (r & Hr & Hl & Hv).
    unfold entry. rewrite Hn in Hr. injection Hr as ->. apply Hv; auto.
Qed.

(** ** Latin hypercube *)
Section LHS.
  Variable asort : list Q -> list nat.
  Hypothesis asort_perm : forall l, Permutation (asort l) (seq 0 (length l)).
  Local Open Scope Q_scope.

  Lemma lhs_entry n m smooth U R i j : (i < n)%nat -> (j < m)%nat ->
    entry 0 (lhs_unit asort n m smooth U R) i j =
    (inject_Z (Z.of_nat (nth i (asort (map (fun i => U i j) (seq 0 n))) 0%nat) + 1) - (if smooth then R i j else 1 # 2)) / inject_Z (Z.of_nat n).
  Proof. intros. unfold lhs_unit. now rewrite matrix_entry. Qed.

  (** index [i] of column [j] lies in the stratum given by its argsort value *)
  Lemma lhs_unit_stratum n m smooth U R i j xl xu s : (i < n)%nat -> (j < m)%nat -> (smooth = true -> unit (R i j)) -> xl < xu ->
    nth i (asort (map (fun i => U i j) (seq 0 n))) 0%nat = s ->
    in_stratum xl xu n s (xl + entry 0 (lhs_unit asort n m smooth U R) i j * (xu - xl)).
  Proof.
    intros Hi Hj HR HB Hs. rewrite lhs_entry by auto. rewrite Hs. unfold in_stratum.
    set (r := if smooth then R i j else 1 # 2).
    assert (Hr : 0 <= r /\ r < 1). { unfold r. destruct smooth; [apply HR; auto|lra]. }
    rewrite !inject_Z_plus. change (inject_Z 1) with 1.
    set (N := inject_Z (Z.of_nat n)). set (k := inject_Z (Z.of_nat s)).
    assert (HN : 0 < N). { unfold N. change 0 with (inject_Z 0). rewrite <- Zlt_Qlt. lia. }
    set (w := (xu - xl) / N). assert (Hw : 0 < w). { unfold w. apply Qlt_shift_div_l; lra. }
    assert (E : (k + 1 - r) / N * (xu - xl) == (k + 1 - r) * w) by (unfold w; field; lra).
    rewrite E. assert (E2 : (k + 1 - r) * w == k * w + (1 - r) * w) by ring. assert (E3 : (k + 1) * w == k * w + w) by ring.
    rewrite E2, E3. assert (0 < (1 - r) * w). { setoid_replace 0 with (0 * w) by ring. apply Qmult_lt_compat_r; lra. }
    assert ((1 - r) * w <= 1 * w). { apply Qmult_le_compat_r; lra. }
    lra.
  Qed.

  (** strata are disjoint *)
  Lemma strata_disjoint xl xu n s t x : xl < xu -> (0 < n)%nat -> in_stratum xl xu n s x -> in_stratum xl xu n t x -> s = t.
  Proof.
    unfold in_stratum. intros HB Hn [A1 A2] [B1 B2].
    set (N := inject_Z (Z.of_nat n)) in *. assert (HN : 0 < N). { unfold N. change 0 with (inject_Z 0). rewrite <- Zlt_Qlt. lia. }
    set (w := (xu - xl) / N) in *. assert (Hw : 0 < w). { unfold w. apply Qlt_shift_div_l; lra. }
    assert (L1 : inject_Z (Z.of_nat s) * w < inject_Z (Z.of_nat t + 1) * w) by lra.
    assert (L2 : inject_Z (Z.of_nat t) * w < inject_Z (Z.of_nat s + 1) * w) by lra.
    apply Qmult_lt_r in L1, L2; auto. rewrite <- Zlt_Qlt in L1, L2. lia.
  Qed.

  Lemma lhs_unit_one_per_stratum n m smooth U R j xl xu s : (j < m)%nat -> (s < n)%nat -> xl < xu ->
    (forall i j, (i < n)%nat -> (j < m)%nat -> unit (R i j)) ->
    exists! i, (i < n)%nat /\ in_stratum xl xu n s (xl + entry 0 (lhs_unit asort n m smooth U R) i j * (xu - xl)).
  Proof.
    intros Hj Hs HB HR.
    set (P := asort (map (fun i => U i j) (seq 0 n))).
    assert (HP : Permutation P (seq 0 n)). { unfold P. pose proof (asort_perm (map (fun i => U i j) (seq 0 n))) as H. now rewrite map_length, seq_length in H. }
    assert (HPL : length P = n) by (rewrite (Permutation_length HP); apply seq_length).
    assert (Hin : In s P). { apply Permutation_in with (seq 0 n); [now symmetry|]. apply in_seq; lia. }
    apply In_nth with (d := 0%nat) in Hin. destruct Hin as (i & Hi & Hnth). rewrite HPL in Hi.
    exists i. split.
    - split; auto. apply lhs_unit_stratum; auto.
    - intros i' [Hi' Hst].
      assert (Hst2 : in_stratum xl xu n (nth i' P 0%nat) (xl + entry 0 (lhs_unit asort n m smooth U R) i' j * (xu - xl)))
        by (apply lhs_unit_stratum; auto).
      assert (Hn0 : (0 < n)%nat) by lia. assert (E := strata_disjoint _ _ _ _ _ _ HB Hn0 Hst Hst2).
      assert (ND : NoDup P). { apply Permutation_NoDup with (seq 0 n); [now symmetry|apply seq_NoDup]. }
      rewrite NoDup_nth in ND. apply ND; try lia. rewrite Hnth. exact E.
  Qed.

  Lemma lhs_unit_box n m smooth U R i j : (i < n)%nat -> (j < m)%nat -> (forall i j, (i < n)%nat -> (j < m)%nat -> unit (R i j)) ->
    0 < entry 0 (lhs_unit asort n m smooth U R) i j /\ entry 0 (lhs_unit asort n m smooth U R) i j <= 1.
  Proof.
    intros Hi Hj HR.
    set (P := asort (map (fun i => U i j) (seq 0 n))).
    assert (HP : Permutation P (seq 0 n)). { unfold P. pose proof (asort_perm (map (fun i => U i j) (seq 0 n))) as H. now rewrite map_length, seq_length in H. }
    assert (HPL : length P = n) by (rewrite (Permutation_length HP); apply seq_length).
    assert (Hs : (nth i P 0 < n)%nat). { assert (In (nth i P 0%nat) (seq 0 n)) by (apply (Permutation_in _ HP), nth_In; lia). apply in_seq in H. lia. }
    destruct (lhs_unit_stratum n m smooth U R i j 0 1 _ Hi Hj (fun _ => HR i j Hi Hj) ltac:(lra) eq_refl) as [A B].
    fold P in A, B. set (e := entry 0 (lhs_unit asort n m smooth U R) i j) in *.
    set (N := inject_Z (Z.of_nat n)) in *. assert (HN : 0 < N). { unfold N. change 0 with (inject_Z 0). rewrite <- Zlt_Qlt. lia. }
    assert (H1 : (1 - 0) / N * N == 1) by (field; lra). set (w := (1 - 0) / N) in *.
    assert (Hw : 0 < w). { unfold w. apply Qlt_shift_div_l; lra. }
    assert (0 <= inject_Z (Z.of_nat (nth i P 0%nat)) * w). { apply Qmult_le_0_compat; [|lra]. change 0 with (inject_Z 0). rewrite <- Zle_Qle. lia. }
    assert (inject_Z (Z.of_nat (nth i P 0%nat) + 1) * w <= N * w). { apply Qmult_le_compat_r; [|lra]. unfold N. rewrite <- Zle_Qle. lia. }
    lra.
  Qed.
End LHS.

(** the criterion loop *)
Lemma lhs_best_spec criterion cand n_iter :
  exists k, k < Nat.max 1 n_iter /\ lhs_best criterion cand n_iter = cand k /\
    (isnan (criterion (cand 0)) = false -> isnan (criterion (cand k)) = false /\
       forall l, l < Nat.max 1 n_iter -> fltb (criterion (cand k)) (criterion (cand l)) = false).
Proof.
  unfold lhs_best.
  assert (H : forall js X s (done : list nat), s = criterion X -> (exists k, In k done /\ X = cand k /\
       (isnan (criterion (cand 0)) = false -> isnan (criterion X) = false /\ forall l, In l done -> fltb (criterion X) (criterion (cand l)) = false)) ->
     exists k, In k (done ++ js) /\
       fst (fold_left (fun st j => let '(X, score) := st in if fltb score (criterion (cand j)) then (cand j, criterion (cand j)) else (X, score)) js (X, s)) = cand k /\
       (isnan (criterion (cand 0)) = false -> isnan (criterion (cand k)) = false /\ forall l, In l (done ++ js) -> fltb (criterion (cand k)) (criterion (cand l)) = false)).
  { induction js as [|j js IH]; intros X s done Hs (k & Hk & HX & Hbest); simpl.
    - exists k. rewrite app_nil_r. repeat split; auto; try (subst X; apply Hbest; auto).
    - destruct (fltb s (criterion (cand j))) eqn:E.
      + destruct (IH (cand j) (criterion (cand j)) (done ++ [j]) eq_refl) as (k' & H1 & H2 & H3).
        { exists j. split; [apply in_or_app; right; left; auto|]. split; auto. intros Hnn. destruct (Hbest Hnn) as [B1 B2].
          assert (Nj : isnan (criterion (cand j)) = false). { destruct (criterion (cand j)); auto. subst s. destruct (criterion X) as [[]|[]| |[] ? ?]; discriminate. }
          split; auto. intros l Hl. apply in_app_or in Hl. destruct Hl as [Hl|[<-|[]]]; [|apply flt_irrefl].
          specialize (B2 l Hl). destruct (fltb (criterion (cand j)) (criterion (cand l))) eqn:E2; auto.
          subst s. rewrite (flt_trans _ _ _ E E2) in B2. discriminate. }
        rewrite <- app_assoc in H1, H3. exists k'. auto.
      + destruct (IH X s (done ++ [j]) Hs) as (k' & H1 & H2 & H3).
        { exists k. split; [apply in_or_app; left; auto|]. split; auto. intros Hnn. destruct (Hbest Hnn) as [B1 B2]. split; auto.
          intros l Hl. apply in_app_or in Hl. destruct Hl as [Hl|[<-|[]]]; auto. now subst s. }
        rewrite <- app_assoc in H1, H3. exists k'. auto. }
  destruct (H (seq 1 (n_iter - 1)) (cand 0) (criterion (cand 0)) [0] eq_refl) as (k & H1 & H2 & H3).
  { exists 0. split; [left; auto|]. split; auto. intros Hn. split; auto. intros l [<-|[]]. apply flt_irrefl. }
  exists k. split; [|split; auto].
  - simpl in H1. destruct H1 as [<-|H1]; [lia|]. apply in_seq in H1. lia.
  - intros Hn. destruct (H3 Hn) as [B1 B2]. split; auto. intros l Hl. apply B2. simpl. destruct l; [auto|right; apply in_seq; lia].
Qed.
