(** * C109, continued: the linear and the polynomial value function *)
From Coq Require Import List ZArith Bool QArith Qabs Lqa Lia Arith Permutation.
From Verif Require Import ListAux M_VF Thm_VF.
Import ListNotations.
Local Open Scope nat_scope.

Lemma vdot_mono : forall a b x, Forall (fun w => 0 <= w)%Q x -> below_or_equal a b -> (vdot a x <= vdot b x)%Q.
Proof.
  intros a b x Hx H. revert x Hx. induction H as [|u v a b Huv H IH]; intros [|w x] Hx; cbn [vdot]; try lra.
  inversion Hx; subst. specialize (IH x ltac:(auto)).
  assert ((u * w <= v * w)%Q) by (apply Qmult_le_compat_r; auto). lra.
Qed.

Lemma below_neg a b : below_or_equal a b -> below_or_equal (negrow b) (negrow a).
Proof. intros H. induction H; cbn; constructor; auto. lra. Qed.

(** An accepted linear fit: the weights are non-negative with sum 1; all points ranked differently, a better rank is worth at least epsilon more; with ties, still
    never less, as long as (n - 2) delta <= 1; points of equal rank differ by at most (n - 1) delta epsilon.  And the function respects Pareto dominance
    everywhere, not only at the rated points. *)
Theorem C109_linear P ranks J delta eps_max x ep : length P = length ranks -> is_argsort Z.ltb 0%Z ranks J -> (0 <= delta)%Q ->
  linear_fit P ranks J delta eps_max x ep = true ->
  (Forall (fun w => 0 <= w)%Q x /\ fold_right Qplus 0%Q x == 1)%Q /\
  (forall i j, i < length P -> j < length P ->
     let v k := linear_vf (nth k P []) x in
     ((nth i ranks 0 < nth j ranks 0)%Z -> (NoDup ranks -> (v j + ep <= v i)%Q) /\ (delta * qn (length P - 2) <= 1 -> v j <= v i)%Q) /\
     (nth i ranks 0%Z = nth j ranks 0%Z -> Qabs (v i - v j) <= delta * ep * qn (length P - 1))%Q) /\
  (forall f g, below_or_equal f g -> linear_vf (negrow g) x <= linear_vf (negrow f) x)%Q.
Proof.
  intros Hl HJ Hd H. unfold linear_fit in H. rewrite !andb_true_iff in H. destruct H as [[[[H1 H2] H3] H4] H5].
  apply Qeq_bool_iff in H2. apply Qle_bool_iff in H5.
  assert (Hx : Forall (fun w => 0 <= w)%Q x).
  { apply Forall_forall. intros w Hw. rewrite forallb_forall in H3. apply H3 in Hw. unfold in01 in Hw. apply andb_true_iff in Hw as [Hw _]. now apply Qle_bool_iff in Hw. }
  split; [split; [auto|lra]|]. split.
  - intros i j Hi Hj v. destruct (fit_order (list Q) [] (fun p => linear_vf p x) P ranks J delta ep Hl HJ H5 Hd H1 i j Hi Hj) as (A & B & C).
    split; [|exact C]. intros Hlt. split; [intros HN; now apply B|]. intros Hn. specialize (A Hlt). unfold v.
    assert ((0 <= ep * (1 - delta * qn (length P - 2)))%Q) by (apply Qmult_le_0_compat; lra). lra.
  - intros f g Hfg. apply vdot_mono; auto. now apply below_neg.
Qed.

(** ** the polynomial *)
(** the factors, written out: weight of objective i in factor m is x[m M + (i - m mod M)], then twice the offset *)
Definition factor (M : nat) (x p : list Q) (m : nat) : Q :=
  (fold_right Qplus 0 (map (fun i => nth i p 0 * nth (m * M + (i + (M - m)) mod M) x 0) (seq 0 M)) + 2 * nth (M * M + m) x 0)%Q.

Lemma vdot_sum : forall p x, length p = length x -> (vdot p x == fold_right Qplus 0 (map (fun i => nth i p 0 * nth i x 0) (seq 0 (length p))))%Q.
Proof.
  induction p as [|a p IH]; intros [|b x] H; try discriminate; [reflexivity|]. cbn [vdot length seq map fold_right nth].
  rewrite <- seq_shift, map_map. rewrite (IH x) by (cbn in H; lia). reflexivity.
Qed.
Lemma length_roll {A} c (l : list A) : length (roll c l) = length l.
Proof. unfold roll. rewrite app_length, skipn_length, firstn_length. lia. Qed.
Lemma nth_roll {A} (l : list A) c i d : c < length l -> i < length l -> nth i (roll c l) d = nth ((i + (length l - c)) mod length l) l d.
Proof.
  intros Hc Hi. unfold roll. rewrite Nat.mod_small by auto. set (n := length l) in *. set (k := n - c).
  assert (Hs : length (skipn k l) = c) by (rewrite skipn_length; fold n; lia).
  assert (E : nth i (skipn k l ++ firstn k l) d = nth (if i <? c then k + i else i - c) l d).
  { destruct (Nat.ltb_spec i c) as [H|H].
    - rewrite app_nth1 by lia. rewrite <- (firstn_skipn k l) at 2. rewrite app_nth2; rewrite firstn_length; fold n; [|lia].
      f_equal. lia.
    - rewrite app_nth2 by lia. rewrite Hs. rewrite <- (firstn_skipn k l) at 2. rewrite app_nth1; auto. rewrite firstn_length. fold n. lia. }
  rewrite E. f_equal. destruct (Nat.ltb_spec i c) as [H|H].
  - rewrite Nat.mod_small by lia. lia.
  - replace (i + k) with (i - c + 1 * n) by lia. rewrite Nat.mod_add by lia. rewrite Nat.mod_small by lia. reflexivity.
Qed.
Lemma nth_slice {A} (l : list A) s n i d : i < n -> nth i (firstn n (skipn s l)) d = nth (s + i) l d.
Proof.
  intros Hi. destruct (Nat.lt_ge_cases (s + i) (length l)) as [H|H].
  - assert (E : nth i (skipn s l) d = nth (s + i) l d).
    { rewrite <- (firstn_skipn s l) at 2. rewrite app_nth2; rewrite firstn_length; [|lia]. f_equal. lia. }
    rewrite <- E. rewrite <- (firstn_skipn n (skipn s l)) at 2. rewrite app_nth1; auto. rewrite firstn_length, skipn_length. lia.
  - rewrite !nth_overflow; auto; rewrite ?firstn_length, ?skipn_length; lia.
Qed.

Lemma calc_S_factor x p M : length p = M -> length x = M * M + M -> forall m, m < M ->
  (nth m (calc_S p x) 0 == factor M x p m)%Q.
Proof.
  intros Hp Hx m Hm. unfold calc_S. rewrite Hp.
  set (h := fun m => (vdot p (vf_weights M m x) + nth (M * M + m) x 0%Q * 2)%Q).
  rewrite (nth_indep _ 0%Q (h 0)) by (rewrite map_length, seq_length; auto). rewrite (map_nth h), seq_nth by auto. cbn [Nat.add]. unfold h, factor.
  assert (Hs : length (firstn M (skipn (m * M) x)) = M) by (rewrite firstn_length, skipn_length; nia).
  assert (Hw : length (vf_weights M m x) = M) by (unfold vf_weights; now rewrite length_roll).
  rewrite vdot_sum by lia. rewrite Hp.
  assert (E : map (fun i => nth i p 0 * nth i (vf_weights M m x) 0)%Q (seq 0 M) = map (fun i => nth i p 0 * nth (m * M + (i + (M - m)) mod M) x 0)%Q (seq 0 M)).
  { apply map_ext_in. intros i Hi. apply in_seq in Hi. f_equal. unfold vf_weights. rewrite nth_roll by lia. rewrite Hs.
    apply nth_slice. apply Nat.mod_upper_bound. lia. }
  rewrite E. ring.
Qed.

Lemma prod_mono : forall a b, Forall (fun s => 0 <= s)%Q a -> below_or_equal a b -> (0 <= fold_right Qmult 1 a /\ fold_right Qmult 1 a <= fold_right Qmult 1 b)%Q.
Proof.
  intros a b Ha H. induction H as [|u v a b Huv H IH]; cbn [fold_right]; [lra|]. inversion Ha; subst.
  destruct (IH ltac:(auto)) as [I1 I2]. split; [now apply Qmult_le_0_compat|].
  apply Qle_trans with (v * fold_right Qmult 1 a)%Q; [now apply Qmult_le_compat_r|].
  rewrite !(Qmult_comm v). apply Qmult_le_compat_r; auto. lra.
Qed.

Lemma F2_len {A B} (R : A -> B -> Prop) a b : Forall2 R a b -> length a = length b.
Proof. intros H. induction H; cbn; auto. Qed.

Lemma In_roll {A} c (l : list A) a : In a (roll c l) -> In a l.
Proof. unfold roll. set (k := length l - c mod length l). rewrite in_app_iff. intros [H|H]; rewrite <- (firstn_skipn k l); apply in_app_iff; auto. Qed.

(** An accepted polynomial fit: the function is the product of the M factors, each with non-negative weights summing to 1, non-negative at every rated point; the ranks
    are respected as for the linear one; a point at least as good in all objectives as some rated point is worth at least as much. *)
Theorem C109_poly P ranks J delta eps_max M x ep : length P = length ranks -> is_argsort Z.ltb 0%Z ranks J -> (0 <= delta)%Q ->
  Forall (fun p => length p = M) P -> length x = M * M + M -> poly_fit P ranks J delta eps_max M x ep = true ->
  (forall p, length p = M -> poly_vf p x == fold_right Qmult 1 (map (factor M x p) (seq 0 M)))%Q /\
  (forall m i, m < M -> i < M -> (0 <= nth (m * M + (i + (M - m)) mod M) x 0)%Q) /\
  (forall m, m < M -> (fold_right Qplus 0 (map (fun i => nth (m * M + i) x 0) (seq 0 M)) == 1)%Q) /\
  (forall i m, i < length P -> m < M -> (0 <= factor M x (nth i P []) m)%Q) /\
  (forall i j, i < length P -> j < length P ->
     let v k := poly_vf (nth k P []) x in
     ((nth i ranks 0 < nth j ranks 0)%Z -> (NoDup ranks -> (v j + ep <= v i)%Q) /\ (delta * qn (length P - 2) <= 1 -> v j <= v i)%Q) /\
     (nth i ranks 0%Z = nth j ranks 0%Z -> Qabs (v i - v j) <= delta * ep * qn (length P - 1))%Q) /\
  (forall i q, i < length P -> below_or_equal (nth i P []) q -> (poly_vf (nth i P []) x <= poly_vf q x)%Q).
Proof.
  intros Hl HJ Hd HM Hx H. unfold poly_fit in H. rewrite !andb_true_iff in H. destruct H as [[[[[H1 H2] H3] H4] H5] H6].
  apply Qle_bool_iff in H6.
  assert (Hw : forall k, k < M * M -> (0 <= nth k x 0)%Q).
  { intros k Hk. rewrite forallb_forall in H4. assert (Hin : In (nth k x 0%Q) (firstn (M * M) x)).
    { change (nth k x 0%Q) with (nth (0 + k) x 0%Q). rewrite <- (nth_slice x 0 (M * M) k 0%Q) by auto. cbn [skipn]. apply nth_In. rewrite firstn_length. nia. }
    apply H4 in Hin. unfold in01 in Hin. apply andb_true_iff in Hin as [Hin _]. now apply Qle_bool_iff in Hin. }
  assert (HS : forall p, length p = M -> Forall2 Qeq (calc_S p x) (map (factor M x p) (seq 0 M))).
  { intros p Hp. assert (L : length (calc_S p x) = M) by (unfold calc_S; rewrite map_length, seq_length; auto).
    assert (G : forall n, n <= M -> Forall2 Qeq (firstn n (calc_S p x)) (map (factor M x p) (seq 0 n))).
    { induction n as [|n IH]; intros Hn; [constructor|]. rewrite seq_S, map_app.
      assert (E : firstn (S n) (calc_S p x) = firstn n (calc_S p x) ++ [nth n (calc_S p x) 0%Q]).
      { clear -L Hn. revert n L Hn. generalize (calc_S p x) as l. intros l n L Hn. assert (Hn' : n < length l) by lia. clear L Hn.
        revert l Hn'. induction n as [|n IH]; intros [|a l] H; cbn in *; try lia; auto. f_equal. apply IH. lia. }
      rewrite E. apply Forall2_app; [apply IH; lia|]. constructor; [|constructor]. apply calc_S_factor; auto. }
    rewrite <- (firstn_all (calc_S p x)), L. apply G. auto. }
  assert (Hpos : forall i, i < length P -> Forall (fun s => 0 <= s)%Q (calc_S (nth i P []) x)).
  { intros i Hi. apply Forall_forall. intros s Hs. rewrite forallb_forall in H1.
    assert (K : qle0 (s * -1) = true).
    { apply H1. apply in_flat_map. exists (nth i P []). split; [|apply in_map_iff; exists s; auto].
      unfold sort_P. destruct (position ranks J i HJ ltac:(lia)) as (p & Hp & E). apply in_map_iff. exists i. split; auto. rewrite <- E. apply nth_In.
      destruct HJ as [K _]. rewrite (Permutation_length K), seq_length. auto. }
    unfold qle0 in K. apply Qle_bool_iff in K. lra. }
  split.
  { intros p Hp. unfold poly_vf. specialize (HS p Hp). induction HS; cbn [fold_right]; [reflexivity|]. now rewrite H, IHHS. }
  split.
  { intros m i Hm Hi. apply Hw. assert ((i + (M - m)) mod M < M) by (apply Nat.mod_upper_bound; lia). nia. }
  split.
  { intros m Hm. rewrite forallb_forall in H3. specialize (H3 m ltac:(apply in_seq; lia)). apply Qeq_bool_iff in H3.
    assert (E : map (fun i => nth (m * M + i) x 0%Q) (seq 0 M) = firstn M (skipn (m * M) x)).
    { assert (Hs : length (firstn M (skipn (m * M) x)) = M) by (rewrite firstn_length, skipn_length; nia).
      apply nth_ext with (d := 0%Q) (d' := 0%Q); [rewrite map_length, seq_length; lia|]. intros n Hn. rewrite map_length, seq_length in Hn.
      rewrite nth_slice by auto. rewrite (nth_indep _ 0%Q (nth (m * M + 0) x 0%Q)) by (rewrite map_length, seq_length; auto).
      rewrite (map_nth (fun i => nth (m * M + i) x 0%Q)), seq_nth by auto. reflexivity. }
    rewrite E. lra. }
  split.
  { intros i m Hi Hm. rewrite Forall_forall in HM. assert (Hp : length (nth i P []) = M) by (apply HM, nth_In; auto).
    rewrite <- (calc_S_factor x (nth i P []) M Hp Hx m Hm). specialize (Hpos i Hi). rewrite Forall_forall in Hpos. apply Hpos, nth_In.
    unfold calc_S. rewrite map_length, seq_length. lia. }
  split.
  { intros i j Hi Hj v. destruct (fit_order (list Q) [] (fun p => poly_vf p x) P ranks J delta ep Hl HJ H6 Hd H2 i j Hi Hj) as (A & B & C).
    split; [|exact C]. intros Hlt. split; [intros HN; now apply B|]. intros Hn. specialize (A Hlt). unfold v.
    assert ((0 <= ep * (1 - delta * qn (length P - 2)))%Q) by (apply Qmult_le_0_compat; lra). lra. }
  { intros i q Hi Hq. unfold poly_vf. apply prod_mono; auto. rewrite Forall_forall in HM. assert (Hp : length (nth i P []) = M) by (apply HM, nth_In; auto).
    unfold calc_S. rewrite <- (F2_len _ _ _ Hq), Hp.
    assert (G : forall l, (forall m, In m l -> m < M) -> below_or_equal
      (map (fun m => (vdot (nth i P []) (vf_weights M m x) + nth (M * M + m) x 0 * 2)%Q) l) (map (fun m => (vdot q (vf_weights M m x) + nth (M * M + m) x 0 * 2)%Q) l)).
    { induction l as [|m l IH]; intros Hlm; cbn [map]; constructor; [|apply IH; intros; apply Hlm; now right].
      assert (vdot (nth i P []) (vf_weights M m x) <= vdot q (vf_weights M m x))%Q; [|lra].
      apply vdot_mono; auto. apply Forall_forall. intros w Hin. unfold vf_weights in Hin. apply In_roll in Hin.
      apply In_nth with (d := 0%Q) in Hin as (k & Hk & <-). rewrite firstn_length in Hk.
      assert (m < M) by (apply Hlm; now left). rewrite nth_slice by lia. apply Hw. nia. }
    apply G. intros m Hm. apply in_seq in Hm. lia. }
Qed.

(** the hypotheses are met: three points, all ranks different, linear and polynomial *)
Example C109_linear_example : linear_fit [[-1; -3]; [-3; -2]; [-2; -2]]%Q [2; 3; 1]%Z [2; 0; 1] (1 # 10) 1000 [1 # 2; 1 # 2] 0 = true /\
  linear_fit [[-1; -3]; [-5; -2]; [-1; -2]]%Q [2; 3; 1]%Z [2; 0; 1] (1 # 10) 1000 [1 # 2; 1 # 2] (1 # 2) = true.
Proof. split; reflexivity. Qed.

(** The rated points F = (1, 3/2), (3/2, 1/2): an accepted polynomial.  The point (4, 4), which both dominate, is worth more than either. *)
Theorem C109_poly_monotone_refuted : exists P ranks J x ep,
  P = map negrow [[1; 3 # 2]; [3 # 2; 1 # 2]]%Q /\ is_argsort Z.ltb 0%Z ranks J /\ length x = 6 /\
  poly_fit P ranks J (1 # 10) 1000 2 x ep = true /\ (0 < ep)%Q /\
  below_or_equal [1; 3 # 2]%Q [4; 4]%Q /\ below_or_equal [3 # 2; 1 # 2]%Q [4; 4]%Q /\
  (poly_vf (negrow [1; 3 # 2]%Q) x < poly_vf (negrow [4; 4]%Q) x)%Q /\ (poly_vf (negrow [3 # 2; 1 # 2]%Q) x < poly_vf (negrow [4; 4]%Q) x)%Q.
Proof.
  exists (map negrow [[1; 3 # 2]; [3 # 2; 1 # 2]]%Q), [2; 1]%Z, [1; 0], [1; 0; 1; 0; 1; 1]%Q, (1 # 4)%Q.
  split; [reflexivity|]. split.
  { split; [apply perm_swap|]. intros [|[|p]] [|[|q]] H1 H2; cbn in *; try lia; reflexivity. }
  split; [reflexivity|]. split; [reflexivity|]. split; [reflexivity|]. split; [repeat constructor; vm_compute; discriminate|].
  split; [repeat constructor; vm_compute; discriminate|]. split; vm_compute; reflexivity.
Qed.

(** With many ties an accepted fit can contradict the ranking: one objective, one point ranked first, twelve ranked second, the last of them worth more. *)
Theorem C109_ties_refuted : exists P ranks J x ep, is_argsort Z.ltb 0%Z ranks J /\ linear_fit P ranks J (1 # 10) 1000 x ep = true /\ (0 < ep)%Q /\
  (nth 0 ranks 0 < nth 12 ranks 0)%Z /\ (linear_vf (nth 0 P []) x < linear_vf (nth 12 P []) x)%Q.
Proof.
  exists ([[0]; [-10 # 10]; [-9 # 10]; [-8 # 10]; [-7 # 10]; [-6 # 10]; [-5 # 10]; [-4 # 10]; [-3 # 10]; [-2 # 10]; [-1 # 10]; [0]; [1 # 10]]%Q),
    (1 :: repeat 2 12)%Z, (seq 0 13), [1%Q], 1%Q.
  split.
  { split; [apply Permutation_refl|]. intros p q Hp Hq. cbn [length] in Hq. rewrite seq_length in Hq. rewrite !seq_nth by lia. cbn [Nat.add].
    do 13 (destruct q as [|q]; [do 13 (destruct p as [|p]; [first [lia | reflexivity]|]); lia|]). lia. }
  split; [reflexivity|]. split; [reflexivity|]. split; [reflexivity|]. vm_compute. reflexivity.
Qed.

(** the comparator says whether a point is worth more (1), less (-1) or the same (0) as the second-ranked one *)
Theorem C109_comparator {A} (vf : A -> Q) p2 p :
  (vf_comparator vf p2 p = 1%Z <-> vf p2 < vf p)%Q /\ (vf_comparator vf p2 p = (-1)%Z <-> vf p < vf p2)%Q /\ (vf_comparator vf p2 p = 0%Z <-> vf p == vf p2)%Q.
Proof.
  unfold vf_comparator. destruct (Qle_bool (vf p2) (vf p)) eqn:E1.
  - apply Qle_bool_iff in E1. destruct (Qle_bool (vf p) (vf p2)) eqn:E2.
    + apply Qle_bool_iff in E2. repeat split; intros; try discriminate; try lra.
    + assert (~ (vf p <= vf p2)%Q) by (rewrite <- Qle_bool_iff; congruence). repeat split; intros; try discriminate; try lra.
  - assert (~ (vf p2 <= vf p)%Q) by (rewrite <- Qle_bool_iff; congruence). repeat split; intros; try discriminate; try lra.
Qed.
