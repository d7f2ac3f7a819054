(** * C27: samplings return the requested number of points of the domain. *)
From Coq Require Import List Arith Bool ZArith QArith Lia Lqa Permutation.
From Coq Require Import Floats.SpecFloat.
From Verif Require Import Flt ListAux M_Bounds M_Sampling S_Sampling S_Bounds P_Perm P_Bounds P_Sampling.
Import ListNotations.
Local Open Scope nat_scope.

Theorem C27_float : forall n m xl xu U, (forall j, j < m -> (nth j xl 0 <= nth j xu 0)%Q) ->
  (forall i j, i < n -> j < m -> unit (U i j)) ->
  exists X, float_sampling n m (Some (xl, xu)) U = Some X /\ shape n m X /\
    forall i j, i < n -> j < m -> inQ (nth j xl 0%Q) (nth j xu 0%Q) (entry 0%Q X i j).
Proof.
  intros n m xl xu U HB HU. unfold float_sampling.
  rewrite (proj2 (forallb_forall _ _)).
  2: { intros j Hj. apply in_seq in Hj. apply Qle_bool_iff. apply HB. lia. }
  eexists; split; [reflexivity|]. split; [apply matrix_shape|].
  intros i j Hi Hj. rewrite matrix_entry by auto. destruct (HU i j Hi Hj) as [U1 U2]. pose proof (HB j Hj) as HBj.
  pose proof (scale_range (U i j) (nth j xu 0 - nth j xl 0)%Q U1 U2 ltac:(lra)) as [S1 S2].
  assert (E := Qmult_comm (U i j) (nth j xu 0 - nth j xl 0)%Q). rewrite E in S1, S2. split; lra.
Qed.
(** an upper bound below the lower bound is rejected *)
Theorem C27_float_bad_bounds : forall n m xl xu U j, j < m -> (nth j xu 0 < nth j xl 0)%Q -> float_sampling n m (Some (xl, xu)) U = None.
Proof.
  intros n m xl xu U j Hj H. unfold float_sampling.
  destruct (forallb _ _) eqn:E; auto. rewrite forallb_forall in E. assert (Hin : In j (seq 0 m)) by (apply in_seq; lia). specialize (E j Hin).
  apply Qle_bool_iff in E. lra.
Qed.
Example C27_float_case : exists X, float_sampling 2 2 (Some ([0; -(1)]%Q, [4; -(1)]%Q)) (fun i j => (1 # 2)%Q) = Some X /\ map (map Qred) X = [[2; -(1)]; [2; -(1)]]%Q.
Proof. eexists; split; vm_compute; reflexivity. Qed.

(** in binary64 the difference of the bounds may overflow, and the sampled "point" is infinite *)
Theorem C27_float_overflow_refuted : let big := S754_finite false 9007199254740991 971 in let xl := opp big in
  ~ in_box xl big (float_sample_b64 xl big f_half) /\ fleb xl big = true.
Proof. split; [|vm_compute; auto]. unfold in_box. vm_compute. intros [? ?]. discriminate. Qed.

Theorem C27_binary : forall n m U, shape n m (binary_sampling n m U) /\
  forall i j, i < n -> j < m -> entry false (binary_sampling n m U) i j = true <-> (U i j < 1 # 2)%Q.
Proof.
  intros. split; [apply matrix_shape|]. intros i j Hi Hj. unfold binary_sampling. rewrite matrix_entry by auto.
  apply (Qltb_iff (U i j) (1 # 2)).
Qed.
Example C27_binary_case : binary_sampling 1 2 (fun _ j => if Nat.eqb j 0 then 0%Q else (1 # 2)%Q) = [[true; false]]. Proof. reflexivity. Qed.

(** integer sampling: inside the box for all random numbers; every integer point of the box (in particular both bounds) can be drawn; empty
    boxes are rejected *)
Theorem C27_integer : forall n m xl xu, (forall j, j < m -> (nth j xl 0 <= nth j xu 0)%Z) ->
  (forall U, exists X, integer_sampling n m xl xu U = Some X /\ shape n m X /\
     forall i j, i < n -> j < m -> (nth j xl 0 <= entry 0 X i j <= nth j xu 0)%Z) /\
  (forall T, (forall i j, i < n -> j < m -> (nth j xl 0 <= T i j <= nth j xu 0)%Z) ->
     exists U X, integer_sampling n m xl xu U = Some X /\ forall i j, i < n -> j < m -> entry 0%Z X i j = T i j).
Proof.
  intros n m xl xu HB. split.
  - intros U. destruct (integer_sampling_spec n m xl xu U HB) as (X & HX & HS & He). exists X. repeat split; auto.
    + apply HS. + apply HS.
    + specialize (He i j H H0). destruct (integers_spec (nth j xl 0%Z) (nth j xu 0%Z + 1) (U i j)) as (v & Hv & ?); [specialize (HB j H0); lia|].
      rewrite He in Hv. injection Hv as ->. lia.
    + specialize (He i j H H0). destruct (integers_spec (nth j xl 0%Z) (nth j xu 0%Z + 1) (U i j)) as (v & Hv & ?); [specialize (HB j H0); lia|].
      rewrite He in Hv. injection Hv as ->. lia.
  - intros T HT. exists (fun i j => (T i j - nth j xl 0)%Z).
    destruct (integer_sampling_spec n m xl xu (fun i j => (T i j - nth j xl 0)%Z) HB) as (X & HX & HS & He). exists X. split; auto.
    intros i j Hi Hj. specialize (He i j Hi Hj). specialize (HT i j Hi Hj).
    rewrite integers_reach in He by lia. congruence.
Qed.
Example C27_integer_case : integer_sampling 3 2 [0; -2]%Z [1; 3]%Z (fun i j => Z.of_nat (5 * i + j)) = Some [[0; -1]; [1; -2]; [0; 3]]%Z.
Proof. reflexivity. Qed.

Theorem C27_permutation : forall n m perm, (forall i, i < n -> Permutation (perm i) (seq 0 m)) ->
  shape n m (permutation_sampling n perm) /\ forall row, In row (permutation_sampling n perm) -> Permutation row (seq 0 m).
Proof.
  intros n m perm H. unfold permutation_sampling.
  assert (Hp : forall row, In row (map perm (seq 0 n)) -> Permutation row (seq 0 m)).
  { intros row Hr. apply in_map_iff in Hr. destruct Hr as (i & <- & Hi). apply in_seq in Hi. apply H. lia. }
  split; auto. split; [now rewrite map_length, seq_length|]. intros row Hr. rewrite (Permutation_length (Hp row Hr)). apply seq_length.
Qed.
Example C27_permutation_case : permutation_sampling 2 (fun i => if Nat.eqb i 0 then [2; 0; 1] else [1; 2; 0]) = [[2; 0; 1]; [1; 2; 0]]. Proof. reflexivity. Qed.

(** Latin hypercube sampling (smooth or not, with or without criterion and for any number of iterations): in the box, and for every variable
    and each of the n strata of its interval exactly one sample lies in that stratum.  [asort] is any argsort. *)
Theorem C27_lhs : forall asort, (forall l, Permutation (asort l) (seq 0 (length l))) ->
  forall n m xl xu smooth criterion n_iter draws,
  (forall j, j < m -> (nth j xl 0 < nth j xu 0)%Q) ->
  (forall k i j, i < n -> j < m -> unit (snd (draws k) i j)) ->
  let X := sampling_lhs asort n m xl xu smooth criterion n_iter draws in
  shape n m X /\
  (forall i j, i < n -> j < m -> inQ (nth j xl 0%Q) (nth j xu 0%Q) (entry 0%Q X i j)) /\
  (forall j s, j < m -> s < n -> exists! i, i < n /\ in_stratum (nth j xl 0%Q) (nth j xu 0%Q) n s (entry 0%Q X i j)).
Proof.
  intros asort HA n m xl xu smooth criterion n_iter draws HB HD. cbv zeta.
  set (cand := fun k => lhs_unit asort n m smooth (fst (draws k)) (snd (draws k))).
  assert (Hk : exists k, match criterion with Some c => lhs_best c cand n_iter | None => cand 0 end = cand k).
  { destruct criterion as [c|]; [|now exists 0]. destruct (lhs_best_spec c cand n_iter) as (k & _ & H & _). eauto. }
  destruct Hk as [k Hk]. 
  assert (EX : sampling_lhs asort n m xl xu smooth criterion n_iter draws = matrix n m (fun i j => (nth j xl 0 +
     entry 0 (match criterion with Some c => lhs_best c cand n_iter | None => cand 0%nat end) i j * (nth j xu 0 - nth j xl 0))%Q)) by reflexivity.
  rewrite Hk in EX. rewrite EX. clear EX Hk.
  split; [apply matrix_shape|]. split.
  - intros i j Hi Hj. rewrite matrix_entry by auto.
    destruct (lhs_unit_box asort HA n m smooth (fst (draws k)) (snd (draws k)) i j Hi Hj (HD k)) as [B1 B2]. fold (cand k) in B1, B2.
    set (e := entry 0%Q (cand k) i j) in *. pose proof (HB j Hj) as Hb. set (w := (nth j xu 0 - nth j xl 0)%Q) in *.
    assert (0 < w)%Q by (unfold w; lra).
    assert (0 * w <= e * w)%Q by (apply Qmult_le_compat_r; lra). assert (e * w <= 1 * w)%Q by (apply Qmult_le_compat_r; lra).
    split; unfold w in *; lra.
  - intros j s Hj Hs.
    destruct (lhs_unit_one_per_stratum asort HA n m smooth (fst (draws k)) (snd (draws k)) j _ _ s Hj Hs (HB j Hj) (HD k)) as (i & [Hi Hst] & Hu).
    exists i. split.
    + split; auto. now rewrite matrix_entry.
    + intros i' [Hi' Hst']. apply Hu. split; auto. now rewrite matrix_entry in Hst' by auto.
Qed.
(** the criterion loop returns a best candidate: one of the max(1, n_iter) generated ones, with maximal score *)
Theorem C27_lhs_criterion : forall criterion cand n_iter, exists k, k < Nat.max 1 n_iter /\ lhs_best criterion cand n_iter = cand k /\
  (isnan (criterion (cand 0)) = false ->
   forall l, l < Nat.max 1 n_iter -> fltb (criterion (cand k)) (criterion (cand l)) = false).
Proof.
  intros criterion cand n_iter. destruct (lhs_best_spec criterion cand n_iter) as (k & H1 & H2 & H3). exists k. repeat split; auto.
  intros Hn. apply H3; auto.
Qed.
Example C27_lhs_case : let asort := fun l => if Nat.eqb (length l) 3 then [2; 0; 1] else seq 0 (length l) in
  map (map Qred) (sampling_lhs asort 3 1 [0%Q] [6%Q] true None 1 (fun _ => (fun i j => 0%Q, fun i j => (1 # 2)%Q))) = [[5%Q]; [1%Q]; [3%Q]].
Proof. reflexivity. Qed.

(** in binary64 the last stratum's point may lie above the upper bound: xl = -1, xu = 3 * 2^-54, one sample, random number 0 *)
Theorem C27_lhs_rounding_refuted : let xl := fz (-1) in let xu := S754_finite false 6755399441055744 (-105) in
  fleb xl xu = true /\ fltb xu (lhs_sample_b64 1 0 xl xu f_zero) = true.
Proof. vm_compute. auto. Qed.
(** while the same bounds are respected by random sampling, also for the largest random number 1 - 2^-53 *)
Example C27_float_same_bounds : let xl := fz (-1) in let xu := S754_finite false 6755399441055744 (-105) in
  let r := S754_finite false 9007199254740991 (-53) in in_box xl xu (float_sample_b64 xl xu r).
Proof. vm_compute. auto. Qed.
Print Assumptions C27_float.
Print Assumptions C27_integer.
Print Assumptions C27_lhs.
