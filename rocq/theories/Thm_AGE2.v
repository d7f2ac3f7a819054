(** * C95: AGE-MOEA, the corner solutions and the greedy scores of the first front *)
From Coq Require Import List Arith Bool Lia Permutation QArith Lqa.
From Verif Require Import ListAux M_RefDirs2 Thm_RefDirs2 M_AGE.
Import ListNotations.
Local Open Scope Q_scope.

Lemma qle_false a b : Qle_bool a b = false -> b < a.
Proof. intros H. apply Qnot_le_lt. intros K. apply Qle_bool_iff in K. congruence. Qed.

(** ** the two smallest *)
Lemma ins2_spec u v x : u <= v -> let '(a, b) := ins2 (u, v) x in a <= b /\ exists r, Permutation [a; b; r] [u; v; x] /\ b <= r.
Proof.
  intros H. unfold ins2. cbn [fst snd]. destruct (Qle_bool u x) eqn:E1; [destruct (Qle_bool v x) eqn:E2|].
  - split; [exact H|]. exists x. split; [reflexivity|]. now apply Qle_bool_iff.
  - apply qle_false in E2. apply Qle_bool_iff in E1. split; [exact E1|]. exists v. split; [repeat constructor|lra].
  - apply qle_false in E1. split; [lra|]. exists v. split; [|exact H]. eapply perm_trans; [apply perm_swap|]. apply perm_skip. apply perm_swap.
Qed.
Lemma fold_ins2 l : forall u v, u <= v -> let '(a, b) := fold_left ins2 l (u, v) in a <= b /\ exists r, Permutation (a :: b :: r) (u :: v :: l) /\ Forall (Qle b) r.
Proof.
  induction l as [|x l IH]; intros u v H.
  - cbn. split; [exact H|]. exists []. auto.
  - cbn [fold_left]. pose proof (ins2_spec u v x H) as S1. destruct (ins2 (u, v) x) as [a b]. destruct S1 as [Hab (r & P1 & Hr)]. specialize (IH a b Hab). destruct (fold_left ins2 l (a, b)) as [a' b']. destruct IH as [H' (rs & P2 & Hrs)].
    split; [exact H'|]. exists (r :: rs). split.
    + apply perm_trans with (a :: b :: r :: l).
      * apply perm_trans with (r :: a' :: b' :: rs); [apply (Permutation_app_comm [a'; b'] [r]) || idtac|].
        { eapply perm_trans; [apply perm_skip, perm_swap|]. apply perm_swap. }
        eapply perm_trans; [apply perm_skip, P2|]. eapply perm_trans; [apply perm_swap|]. apply perm_skip, perm_swap.
      * apply (Permutation_app_tail l P1).
    + constructor; [|exact Hrs]. assert (Hb' : b' <= b).
      { assert (In b (a' :: b' :: rs)) by (eapply Permutation_in; [symmetry; exact P2|right; now left]). assert (In a (a' :: b' :: rs)) by (eapply Permutation_in; [symmetry; exact P2|now left]).
        destruct (Qlt_le_dec b b') as [L|L]; [|exact L]. exfalso.
        assert (B : forall y, In y rs -> b' <= y) by now apply Forall_forall.
        (* both a and b are below b', but only a' is *)
        assert (F : length (filter (fun y => negb (Qle_bool b' y)) (a' :: b' :: rs)) = length (filter (fun y => negb (Qle_bool b' y)) (a :: b :: l))).
        { clear - P2. revert P2. generalize (a' :: b' :: rs) (a :: b :: l). intros l1 l2 P. induction P as [|x l1 l2 P IHP|x y l0|l1 l2 l3 P1 I1 P2 I2]; [reflexivity| | |congruence].
          - cbn [filter]. destruct (negb _); cbn [length]; congruence.
          - cbn [filter]. destruct (negb (Qle_bool b' x)), (negb (Qle_bool b' y)); reflexivity. }
        assert (N : filter (fun y => negb (Qle_bool b' y)) rs = []).
        { clear - B. induction rs as [|z rs IH]; [reflexivity|]. cbn [filter]. assert (E : Qle_bool b' z = true) by (apply Qle_bool_iff, B; now left). rewrite E. cbn [negb]. apply IH. intros y Hy. apply B. now right. }
        cbn [filter] in F. rewrite N in F. assert (E1 : Qle_bool b' b' = true) by (apply Qle_bool_iff; lra). rewrite E1 in F. cbn [negb] in F.
        assert (E2 : Qle_bool b' b = false) by (apply not_true_iff_false; intros K; apply Qle_bool_iff in K; lra). assert (E3 : Qle_bool b' a = false) by (apply not_true_iff_false; intros K; apply Qle_bool_iff in K; lra).
        rewrite E2, E3 in F. cbn [negb length] in F. destruct (negb (Qle_bool b' a')); cbn [length] in F; lia. }
      lra.
Qed.
(** C95: the score is the sum of the two smallest distances *)
Theorem C95_two_smallest : forall l, (2 <= length l)%nat -> exists a b r, Permutation (a :: b :: r) l /\ a <= b /\ Forall (Qle b) r /\ two_smallest l == a + b.
Proof.
  intros [|a [|b l]] H; cbn [length] in H; try lia. cbn [two_smallest].
  assert (K : forall u v, u <= v -> Permutation [u; v] [a; b] -> exists a' b' r, Permutation (a' :: b' :: r) (a :: b :: l) /\ a' <= b' /\ Forall (Qle b') r /\ (let '(x, y) := fold_left ins2 l (u, v) in x + y) == a' + b').
  { intros u v Huv P. pose proof (fold_ins2 l u v Huv) as S1. destruct (fold_left ins2 l (u, v)) as [a' b']. destruct S1 as [H1 (r & P1 & H2)]. exists a', b', r. split; [|split; [exact H1|split; [exact H2|reflexivity]]].
    eapply perm_trans; [exact P1|]. apply (Permutation_app_tail l P). }
  destruct (Qle_bool a b) eqn:E; [apply K; [now apply Qle_bool_iff|reflexivity]|apply K; [apply qle_false in E; lra|apply perm_swap]].
Qed.
Lemma two_smallest_snoc l x : (2 <= length l)%nat -> two_smallest (l ++ [x]) <= two_smallest l.
Proof.
  destruct l as [|a [|b l]]; cbn [length]; intros H; try lia. change ((a :: b :: l) ++ [x]) with (a :: b :: (l ++ [x])). cbn [two_smallest]. rewrite fold_left_app. cbn [fold_left].
  assert (S1 := fold_ins2 l (fst (if Qle_bool a b then (a, b) else (b, a))) (snd (if Qle_bool a b then (a, b) else (b, a)))).
  destruct (Qle_bool a b) eqn:E; cbn [fst snd] in S1;
  [apply Qle_bool_iff in E; specialize (S1 E)|apply qle_false in E; specialize (S1 ltac:(lra))].
  all: destruct (fold_left ins2 l _) as [u v]; destruct S1 as [Huv _]; unfold ins2; cbn [fst snd];
    destruct (Qle_bool u x) eqn:E1; [destruct (Qle_bool v x) eqn:E2; [lra|apply qle_false in E2; lra]|apply qle_false in E1; lra].
Qed.

(** ** the greedy loop *)
Lemma take_out {A} (l : list A) i d : (i < length l)%nat -> Permutation (nth i l d :: (firstn i l ++ skipn (S i) l)) l.
Proof.
  revert i. induction l as [|x l IH]; intros i H; cbn [length] in H; [lia|]. destruct i as [|i]; [reflexivity|].
  change (nth (S i) (x :: l) d) with (nth i l d). change (firstn (S i) (x :: l)) with (x :: firstn i l). change (skipn (S (S i)) (x :: l)) with (skipn (S i) l). cbn [app].
  eapply perm_trans; [apply perm_swap|]. apply perm_skip, IH. lia.
Qed.
Definition greedy_ok (D : nat -> nat -> Q) (sel : list nat) (picks : list (nat * Q)) : Prop :=
  forall l1 b v l2, picks = l1 ++ (b, v) :: l2 -> v = two_smallest (map (fun s => D s b) (sel ++ map fst l1)) /\
    forall b' v', In (b', v') l2 -> two_smallest (map (fun s => D s b') (sel ++ map fst l1)) <= v.
Lemma greedy_spec D : forall k sel rem, k = length rem -> Permutation (map fst (greedy D k sel rem)) rem /\ greedy_ok D sel (greedy D k sel rem) /\
  ((2 <= length sel)%nat -> forall l1 b v b' v' l2, greedy D k sel rem = l1 ++ (b, v) :: (b', v') :: l2 -> v' <= v).
Proof.
  induction k as [|k IH]; intros sel rem E.
  { destruct rem; [|discriminate]. split; [constructor|]. split; [intros [|? l1] b v l2 K; discriminate|]. intros _ [|? l1] b v b' v' l2 K; discriminate. }
  cbn [greedy]. assert (NE : map (gap D sel) rem <> []) by (destruct rem; [discriminate|discriminate]). destruct (argmaxQ_spec _ NE) as (i & Ei & Hi & Hmax). rewrite Ei. rewrite map_length in Hi.
  set (best := nth i rem 0%nat). set (rem' := firstn i rem ++ skipn (S i) rem). pose proof (take_out rem i 0%nat Hi) as PT. fold best rem' in PT.
  assert (Lr : k = length rem') by (pose proof (Permutation_length PT) as L; cbn [length] in L; lia). destruct (IH (sel ++ [best]) rem' Lr) as (P1 & G1 & M1). clear IH.
  assert (Emax : forall x, In x rem -> gap D sel x <= gap D sel best).
  { intros x Hx. rewrite Forall_forall in Hmax. specialize (Hmax (gap D sel x)). rewrite (nth_indep _ _ (gap D sel 0%nat)) in Hmax by (rewrite map_length; lia). rewrite map_nth in Hmax. apply Hmax. now apply in_map. }
  assert (Inr : forall b' v', In (b', v') (greedy D k (sel ++ [best]) rem') -> In b' rem).
  { intros b' v' H. apply (Permutation_in _ PT). right. apply (Permutation_in _ P1). apply in_map_iff. exists (b', v'). auto. }
  split; [|split].
  - cbn [map fst]. eapply perm_trans; [apply perm_skip, P1|exact PT].
  - intros l1 b v l2 K. destruct l1 as [|p l1].
    + cbn [app] in K. injection K as <- <- <-. cbn [map]. rewrite app_nil_r. split; [reflexivity|]. intros b' v' H. apply (Emax b'), (Inr b' v' H).
    + cbn [app] in K. injection K as <- K. destruct (G1 l1 b v l2 K) as [K1 K2]. rewrite <- app_assoc in K1. cbn [app map fst] in *. split; [exact K1|]. intros b' v' H. specialize (K2 b' v' H). now rewrite <- app_assoc in K2.
  - intros L2 l1 b v b' v' l2 K. destruct l1 as [|p l1].
    + cbn [app] in K. injection K as <- <- K. destruct (G1 [] b' v' l2 K) as [K1 _]. cbn [map] in K1. rewrite app_nil_r in K1. subst v'. rewrite map_app. cbn [map].
      eapply Qle_trans; [apply two_smallest_snoc; now rewrite map_length|]. apply (Emax b'). apply (Inr b' (two_smallest (map (fun s => D s b') (sel ++ [best])))). rewrite K.
      left. f_equal.
    + cbn [app] in K. injection K as <- K. apply (M1 ltac:(rewrite app_length; cbn [length]; lia) l1 b v b' v' l2 K).
Qed.

(** C95: the greedy loop goes through every solution that is not a corner; each pick has the largest gap - the sum of its two smallest distances to those picked before and to the corners - of all
    that are left, and with two or more corners the scores do not increase along the picks *)
Theorem C95_greedy : forall D sel rem, let picks := greedy D (length rem) sel rem in
  Permutation (map fst picks) rem /\
  (forall l1 b v l2, picks = l1 ++ (b, v) :: l2 -> v = two_smallest (map (fun s => D s b) (sel ++ map fst l1)) /\
     forall b' v', In (b', v') l2 -> two_smallest (map (fun s => D s b') (sel ++ map fst l1)) <= v) /\
  ((2 <= length sel)%nat -> forall l1 b v b' v' l2, picks = l1 ++ (b, v) :: (b', v') :: l2 -> v' <= v).
Proof. intros D sel rem. exact (greedy_spec D (length rem) sel rem eq_refl). Qed.
Theorem C95_scores : forall D m n extreme, NoDup extreme ->
  let sc := survival_scores D m n extreme in let rem := filter (fun j => negb (existsb (Nat.eqb j) extreme)) (seq 0 m) in
  length sc = m /\
  ((m < n)%nat -> Forall (fun s => s = Some 0) sc) /\
  ((n <= m)%nat -> forall j, (j < m)%nat -> (In j extreme -> nth j sc None = None) /\
     (~ In j extreme -> exists v, nth j sc None = Some v /\ In (j, v) (greedy D (length rem) extreme rem))).
Proof.
  intros D m n extreme NE sc rem. unfold sc, survival_scores. destruct (Nat.ltb_spec m n) as [H|H].
  - split; [apply repeat_length|]. split; [intros _; apply Forall_forall; intros s Hs; now apply repeat_spec in Hs|lia].
  - fold rem. split; [now rewrite map_length, seq_length|]. split; [lia|]. intros _ j Hj. match goal with |- context [map ?f (seq 0 m)] => set (g := f) end.
    assert (KN : nth j (map g (seq 0 m)) None = g j). { rewrite (nth_indep _ None (g 0%nat)) by (rewrite map_length, seq_length; lia). rewrite map_nth, seq_nth by lia. reflexivity. }
    rewrite KN. unfold g. assert (EI : existsb (Nat.eqb j) extreme = true <-> In j extreme).
    { rewrite existsb_exists. split; [intros (x & Hx & E); apply Nat.eqb_eq in E; now subst|intros K; exists j; split; [exact K|apply Nat.eqb_refl]]. }
    split.
    + intros K. apply EI in K. now rewrite K.
    + intros K. assert (EF : existsb (Nat.eqb j) extreme = false) by (apply not_true_iff_false; intros X; apply EI in X; contradiction). rewrite EF.
      assert (Hrem : In j rem) by (apply filter_In; rewrite EF; split; [apply in_seq; lia|reflexivity]).
      destruct (C95_greedy D extreme rem) as (P & _). cbv zeta in P. apply (Permutation_in _ (Permutation_sym P)) in Hrem. apply in_map_iff in Hrem. destruct Hrem as ([b v] & Eb & Hb). cbn [fst] in Eb. subst b.
      destruct (find (fun p => (fst p =? j)%nat) (greedy D (length rem) extreme rem)) as [[b w]|] eqn:Ef.
      * apply find_some in Ef. destruct Ef as [F1 F2]. cbn [fst] in F2. apply Nat.eqb_eq in F2. subst b. exists w. auto.
      * pose proof (find_none _ _ Ef _ Hb) as F. cbn [fst] in F. rewrite Nat.eqb_refl in F. discriminate.
Qed.

(** ** corner solutions *)
Lemma least_spec f l : forall x0, In (least f x0 l) (x0 :: l) /\ Forall (fun x => f (least f x0 l) <= f x) (x0 :: l).
Proof.
  unfold least. induction l as [|x l IH]; intros x0; cbn [fold_left].
  - split; [now left|]. constructor; [apply Qle_refl|constructor].
  - set (b := if Qle_bool (f x0) (f x) then x0 else x). destruct (IH b) as [H1 H2]. split.
    + destruct H1 as [H1|H1]; [|right; right; exact H1]. rewrite <- H1. unfold b. destruct (Qle_bool _ _); [now left|right; now left].
    + inversion H2 as [|? ? H3 H4]; subst. assert (Hb : f b <= f x0 /\ f b <= f x). { unfold b. destruct (Qle_bool (f x0) (f x)) eqn:E; [apply Qle_bool_iff in E|apply qle_false in E]; split; lra. }
      constructor; [lra|]. constructor; [lra|exact H4].
Qed.
Definition corner_inv (front : list (list Q)) (n : nat) (t : list nat) : Prop :=
  NoDup t /\ (forall i, In i t -> (i < length front)%nat) /\
  forall i, (i < length t)%nat -> forall j, (j < length front)%nat -> ~ In j (firstn i t) -> line_dist (nth (nth i t 0%nat) front []) (axis n i) <= line_dist (nth j front []) (axis n i).
Lemma corner_step_inv front n t : (length t < length front)%nat -> corner_inv front n t -> corner_inv front n (corner_step front n t (length t)) /\ length (corner_step front n t (length t)) = S (length t).
Proof.
  intros HL (H1 & H2 & H3). unfold corner_step. set (av := filter (fun j => negb (existsb (Nat.eqb j) t)) (seq 0 (length front))).
  assert (AV : forall j, In j av <-> (j < length front)%nat /\ ~ In j t).
  { intros j. unfold av. rewrite filter_In, in_seq, negb_true_iff. split.
    - intros [K1 K2]. split; [lia|]. intros K. assert (X : existsb (Nat.eqb j) t = true) by (apply existsb_exists; exists j; split; [exact K|apply Nat.eqb_refl]). congruence.
    - intros [K1 K2]. split; [lia|]. apply not_true_iff_false. intros X. apply existsb_exists in X. destruct X as (x & X1 & X2). apply Nat.eqb_eq in X2. subst x. contradiction. }
  assert (NE : av <> []).
  { intros E. assert (incl (seq 0 (length front)) t). { intros j Hj. destruct (in_dec Nat.eq_dec j t) as [K|K]; [exact K|]. exfalso. assert (In j av) by (apply AV; split; [apply in_seq in Hj; lia|exact K]). rewrite E in H. contradiction. }
    pose proof (NoDup_incl_length (seq_NoDup (length front) 0) H) as L. rewrite seq_length in L. lia. }
  destruct av as [|x0 l] eqn:Ea; [congruence|]. set (f := fun j => line_dist (nth j front []) (axis n (length t))). destruct (least_spec f l x0) as [L1 L2]. set (b := least f x0 l) in *. apply AV in L1. destruct L1 as [L1 L1'].
  split; [|rewrite app_length; cbn [length]; lia]. split; [apply NoDup_app_iff; split; [exact H1|]; split; [apply NoDup_cons; [intros []|constructor]|]; intros x K1 [<-|[]]; contradiction|].
  split; [intros i Hi; apply in_app_iff in Hi; destruct Hi as [Hi|[<-|[]]]; [auto|exact L1]|].
  intros i Hi j Hj Hnj. rewrite app_length in Hi. cbn [length] in Hi. destruct (Nat.lt_ge_cases i (length t)) as [Hlt|Hge].
  - rewrite app_nth1 by exact Hlt. apply H3; auto. intros K. apply Hnj. rewrite firstn_app. apply in_app_iff. now left.
  - assert (i = length t) by lia. subst i. rewrite app_nth2, Nat.sub_diag by lia. cbn [nth]. rewrite firstn_app, Nat.sub_diag, firstn_all, app_nil_r in Hnj. rewrite Forall_forall in L2. apply (L2 j). apply AV. auto.
Qed.
Lemma corner_fold front n : forall k t, (length t + k <= length front)%nat -> corner_inv front n t ->
  corner_inv front n (fold_left (corner_step front n) (seq (length t) k) t) /\ length (fold_left (corner_step front n) (seq (length t) k) t) = (length t + k)%nat.
Proof.
  induction k as [|k IH]; intros t HL HI; [split; [exact HI|cbn; lia]|]. cbn [seq fold_left]. destruct (corner_step_inv front n t ltac:(lia) HI) as [I1 L1]. rewrite <- L1.
  destruct (IH (corner_step front n t (length t)) ltac:(lia) I1) as [I2 L2]. split; [exact I2|]. rewrite L2, L1. lia.
Qed.
(** C95: the corner solutions: as many as objectives, all different, the i-th the one closest to the i-th axis among those not taken for an earlier axis; all solutions if there are not more than objectives *)
Theorem C95_corner_solutions : forall front n,
  ((length front <= n)%nat -> corners front n = seq 0 (length front)) /\
  ((n < length front)%nat -> length (corners front n) = n /\ NoDup (corners front n) /\ (forall i, In i (corners front n) -> (i < length front)%nat) /\
     forall i j, (i < n)%nat -> (j < length front)%nat -> ~ In j (firstn i (corners front n)) ->
       line_dist (nth (nth i (corners front n) 0%nat) front []) (axis n i) <= line_dist (nth j front []) (axis n i)).
Proof.
  intros front n. unfold corners. destruct (Nat.leb_spec (length front) n) as [H|H]; (split; [intros K; try reflexivity; lia|]); intros K; [lia|].
  destruct (corner_fold front n n [] ltac:(cbn; lia)) as [(I1 & I2 & I3) L]. { split; [constructor|]. split; [intros i []|cbn; lia]. }
  cbn [length Nat.add] in *. split; [exact L|]. split; [exact I1|]. split; [exact I2|]. intros i j Hi. apply I3. lia.
Qed.

(** C95: the exponent used is always larger than 0.1 and at most 20 *)
Theorem C95_exponent : forall p, 1 # 10 < clip_p p /\ clip_p p <= 20 /\ forall q, p = Some q -> 1 # 10 < q -> q <= 20 -> clip_p p = q.
Proof.
  intros [q|]; cbn [clip_p].
  - destruct (Qle_bool q (1 # 10)) eqn:E1; [apply Qle_bool_iff in E1|apply qle_false in E1; destruct (Qle_bool q 20) eqn:E2; [apply Qle_bool_iff in E2|apply qle_false in E2]].
    + split; [reflexivity|]. split; [discriminate|]. intros q' K. injection K as <-. intros. lra.
    + split; [exact E1|]. split; [exact E2|]. intros q' K. now injection K as <-.
    + split; [reflexivity|]. split; [discriminate|]. intros q' K. injection K as <-. intros. lra.
  - split; [reflexivity|]. split; [discriminate|]. discriminate.
Qed.

(** the hypotheses are met: three points on a line, two corners and one in the middle *)
Definition ex_front : list (list Q) := [[0; 2]; [1; 1]; [2; 0]; [3 # 2; 1 # 2]].
Definition ex_D (i j : nat) : Q := Qabs.Qabs (nth 0 (nth i ex_front []) 0 - nth 0 (nth j ex_front []) 0).
Theorem C95_scores_example : corners ex_front 2 = [2%nat; 0%nat] /\
  map (option_map Qred) (survival_scores ex_D 4 2 (corners ex_front 2)) = [None; Some 2; None; Some 1].
Proof. vm_compute. split; reflexivity. Qed.
