(** * C109: the value functions of PINSGA2: what an accepted fit guarantees *)
From Coq Require Import List ZArith Bool QArith Qabs Lqa Lia Arith Permutation.
From Verif Require Import ListAux M_VF.
Import ListNotations.
Local Open Scope nat_scope.

(** ** Specification *)
(** componentwise at most, same length *)
Definition below_or_equal (a b : list Q) : Prop := Forall2 Qle a b.
Definition negrow (f : list Q) : list Q := map Qopp f.
(** how often consecutive entries p..q of a list differ / agree *)
Definition changes (r : list Z) (p q : nat) : nat := length (filter (fun t => negb (nth t r 0 =? nth (S t) r 0)%Z) (seq p (q - p))).
Definition repeats (r : list Z) (p q : nat) : nat := length (filter (fun t => (nth t r 0 =? nth (S t) r 0)%Z) (seq p (q - p))).
Definition qn (n : nat) : Q := inject_Z (Z.of_nat n).

Lemma changes_S r p q : p <= q -> changes r p (S q) = changes r p q + (if (nth q r 0 =? nth (S q) r 0)%Z then 0 else 1) /\
                                  repeats r p (S q) = repeats r p q + (if (nth q r 0 =? nth (S q) r 0)%Z then 1 else 0).
Proof.
  intros H. unfold changes, repeats. replace (S q - p) with (S (q - p)) by lia. rewrite seq_S, !filter_app, !app_length.
  replace (p + (q - p)) with q by lia. cbn [filter]. destruct (nth q r 0 =? nth (S q) r 0)%Z; cbn; lia.
Qed.
Lemma qn_S n : (qn (S n) == qn n + 1)%Q.
Proof. unfold qn. rewrite Nat2Z.inj_succ, <- Z.add_1_r, inject_Z_plus. reflexivity. Qed.
Lemma qn_le a b : a <= b -> (qn a <= qn b)%Q.
Proof. intros H. unfold qn. rewrite <- Zle_Qle. lia. Qed.

Lemma ineq_steps v r delta ep : forallb qle0 (ineq_constr v r delta ep) = true -> forall p, S p < length v ->
  if (nth p r 0 =? nth (S p) r 0)%Z then (Qabs (nth p v 0 - nth (S p) v 0) <= delta * ep)%Q else (nth (S p) v 0 + ep <= nth p v 0)%Q.
Proof.
  intros H p Hp. rewrite forallb_forall in H.
  assert (K := H (let diff := (nth p v 0 - nth (S p) v 0)%Q in if (nth p r 0 =? nth (S p) r 0)%Z then (Qabs diff - delta * ep)%Q else (- diff + ep)%Q)).
  unfold qle0 in K. rewrite Qle_bool_iff in K.
  assert (Hin : In (let diff := (nth p v 0 - nth (S p) v 0)%Q in if (nth p r 0 =? nth (S p) r 0)%Z then (Qabs diff - delta * ep)%Q else (- diff + ep)%Q) (ineq_constr v r delta ep)).
  { unfold ineq_constr. apply in_map_iff. exists p. split; [reflexivity|]. apply in_seq. lia. }
  specialize (K Hin). cbv zeta in K. destruct (nth p r 0 =? nth (S p) r 0)%Z; lra.
Qed.

Lemma ineq_bound v r delta ep : forallb qle0 (ineq_constr v r delta ep) = true -> forall p q, p <= q -> q < length v ->
  (nth q v 0 + ep * qn (changes r p q) - delta * ep * qn (repeats r p q) <= nth p v 0)%Q /\
  (changes r p q = 0%nat -> Qabs (nth p v 0 - nth q v 0) <= delta * ep * qn (repeats r p q))%Q.
Proof.
  intros H p q Hpq. induction Hpq as [|q Hpq IH]; intros Hq.
  - unfold changes, repeats. rewrite Nat.sub_diag. cbn [seq filter length]. change (qn 0) with 0%Q. split; [lra|]. intros _.
    setoid_replace (nth p v 0 - nth p v 0)%Q with 0%Q by ring. change (Qabs 0) with 0%Q. lra.
  - destruct (IH ltac:(lia)) as [I1 I2]. pose proof (ineq_steps v r delta ep H q Hq) as HS.
    destruct (changes_S r p q Hpq) as [C1 C2]. rewrite C1, C2.
    destruct (nth q r 0 =? nth (S q) r 0)%Z.
    + rewrite Nat.add_0_r, Nat.add_1_r, qn_S. apply Qabs_Qle_condition in HS. split; [lra|]. intros H0. specialize (I2 H0).
      apply Qabs_Qle_condition in I2. apply Qabs_Qle_condition. lra.
    + rewrite Nat.add_0_r, Nat.add_1_r, qn_S. split; [lra|]. lia.
Qed.

Lemma changes_pos r : forall q p, p <= q -> (forall t, p <= t -> t < q -> (nth t r 0 <= nth (S t) r 0)%Z) -> (nth p r 0 < nth q r 0)%Z -> 1 <= changes r p q.
Proof.
  induction q as [|q IH]; intros p Hp Hs Hlt.
  - assert (p = 0) by lia. subst. lia.
  - destruct (Nat.eq_dec p (S q)) as [->|Hne]; [lia|]. destruct (changes_S r p q ltac:(lia)) as [C _]. rewrite C.
    destruct (Z.eqb_spec (nth q r 0%Z) (nth (S q) r 0%Z)) as [E|E]; [|lia].
    assert (1 <= changes r p q); [|lia]. apply IH; [lia| |lia]. intros t H1 H2. apply Hs; lia.
Qed.
Lemma changes_repeats r p q : p <= q -> changes r p q + repeats r p q = q - p.
Proof.
  intros H. induction H as [|q H IH]; [unfold changes, repeats; rewrite Nat.sub_diag; reflexivity|].
  destruct (changes_S r p q H) as [A B]. rewrite A, B. destruct (nth q r 0 =? nth (S q) r 0)%Z; lia.
Qed.

Section Ranked.
  Variables (A : Type) (d : A) (val : A -> Q).
  (** the values of the points, in the order of the argsort of the ranks *)
  Lemma sorted_nth (P : list A) ranks J p : is_argsort Z.ltb 0%Z ranks J -> length P = length ranks -> p < length P ->
    nth p (map val (sort_P J d P)) 0%Q = val (nth (nth p J 0) P d) /\ nth p (sort_P J 0%Z ranks) 0%Z = nth (nth p J 0) ranks 0%Z.
  Proof.
    intros [HP _] Hl Hp. assert (HJ : length J = length P) by (rewrite (Permutation_length HP), seq_length; auto). unfold sort_P. split.
    - rewrite map_map. rewrite (nth_indep _ 0%Q (val (nth 0 P d))) by (rewrite map_length; lia).
      exact (map_nth (fun i => val (nth i P d)) J 0 p).
    - rewrite (nth_indep _ 0%Z (nth 0 ranks 0%Z)) by (rewrite map_length; lia).
      exact (map_nth (fun i => nth i ranks 0%Z) J 0 p).
  Qed.
  Lemma position ranks J i : is_argsort Z.ltb 0%Z ranks J -> i < length ranks -> exists p, p < length ranks /\ nth p J 0 = i.
  Proof.
    intros [HP _] Hi. assert (Hin : In i J) by (eapply Permutation_in; [symmetry; exact HP|]; apply in_seq; lia).
    apply In_nth with (d := 0) in Hin as (p & Hp & E). exists p. rewrite (Permutation_length HP), seq_length in Hp. auto.
  Qed.
  Lemma sorted_step ranks J t : is_argsort Z.ltb 0%Z ranks J -> S t < length ranks ->
    (nth t (sort_P J 0%Z ranks) 0 <= nth (S t) (sort_P J 0%Z ranks) 0)%Z.
  Proof.
    intros [HP HS] Ht. assert (HJ : length J = length ranks) by (rewrite (Permutation_length HP), seq_length; auto). unfold sort_P.
    assert (G : forall s, s < length ranks -> nth s (map (fun i => nth i ranks 0%Z) J) 0%Z = nth (nth s J 0) ranks 0%Z).
    { intros s Hs. rewrite (nth_indep _ 0%Z (nth 0 ranks 0%Z)) by (rewrite map_length; lia). exact (map_nth (fun i => nth i ranks 0%Z) J 0 s). }
    rewrite !G by lia. specialize (HS t (S t) ltac:(lia) ltac:(lia)). apply Z.ltb_ge in HS. exact HS.
  Qed.

  (** the general guarantee: points of smaller rank are worth more by epsilon for each change of rank, less delta * epsilon for each tie in between *)
  Lemma fit_order (P : list A) ranks J delta ep : length P = length ranks -> is_argsort Z.ltb 0%Z ranks J -> (0 <= ep)%Q -> (0 <= delta)%Q ->
    forallb qle0 (ineq_constr (map val (sort_P J d P)) (sort_P J 0%Z ranks) delta ep) = true ->
    forall i j, i < length P -> j < length P ->
    ((nth i ranks 0 < nth j ranks 0)%Z -> (val (nth j P d) + ep * (1 - delta * qn (length P - 2)) <= val (nth i P d))%Q) /\
    (NoDup ranks -> (nth i ranks 0 < nth j ranks 0)%Z -> (val (nth j P d) + ep <= val (nth i P d))%Q) /\
    (nth i ranks 0%Z = nth j ranks 0%Z -> (Qabs (val (nth i P d) - val (nth j P d)) <= delta * ep * qn (length P - 1))%Q).
  Proof.
    intros Hl HJ He Hd HG i j Hi Hj.
    destruct (position ranks J i HJ ltac:(lia)) as (p & Hp & Ep). destruct (position ranks J j HJ ltac:(lia)) as (q & Hq & Eq).
    destruct (sorted_nth P ranks J p HJ Hl ltac:(lia)) as [Vp Rp]. destruct (sorted_nth P ranks J q HJ Hl ltac:(lia)) as [Vq Rq].
    rewrite Ep in Vp, Rp. rewrite Eq in Vq, Rq.
    set (v := map val (sort_P J d P)) in *. set (r := sort_P J 0%Z ranks) in *.
    assert (HJl : length J = length P) by (destruct HJ as [K _]; rewrite (Permutation_length K), seq_length; auto).
    assert (Lv : length v = length P) by (unfold v, sort_P; rewrite !map_length; auto).
    assert (Hmono : forall a b, a <= b -> b < length P -> (nth a r 0 <= nth b r 0)%Z).
    { intros a b Hab. induction Hab as [|b Hab IH]; intros Hb; [lia|]. etransitivity; [apply IH; lia|]. apply sorted_step; auto. lia. }
    assert (Hde : (0 <= delta * ep)%Q) by (apply Qmult_le_0_compat; auto).
    assert (Hlt : (nth i ranks 0 < nth j ranks 0)%Z -> p < q).
    { intros H. destruct (Nat.lt_ge_cases p q) as [|Hc]; auto. pose proof (Hmono q p Hc ltac:(lia)). lia. }
    split; [|split].
    - intros H. pose proof (Hlt H) as Hpq. destruct (ineq_bound v r delta ep HG p q ltac:(lia) ltac:(lia)) as [B _].
      rewrite Vp, Vq in B.
      assert (C : 1 <= changes r p q). { apply changes_pos; [lia| |lia]. intros t H1 H2. apply sorted_step; auto. lia. }
      pose proof (changes_repeats r p q ltac:(lia)) as CR.
      assert (Q1 : (qn 1 <= qn (changes r p q))%Q) by (apply qn_le; auto).
      assert (Q2 : (qn (repeats r p q) <= qn (length P - 2))%Q) by (apply qn_le; lia).
      assert (Q1' : (ep * 1 <= ep * qn (changes r p q))%Q) by (rewrite !(Qmult_comm ep); apply Qmult_le_compat_r; auto).
      assert (Q2' : (delta * ep * qn (repeats r p q) <= delta * ep * qn (length P - 2))%Q) by (rewrite !(Qmult_comm (delta * ep)); apply Qmult_le_compat_r; auto).
      lra.
    - intros HN H. pose proof (Hlt H) as Hpq. destruct (ineq_bound v r delta ep HG p q ltac:(lia) ltac:(lia)) as [B _].
      rewrite Vp, Vq in B.
      assert (C : 1 <= changes r p q). { apply changes_pos; [lia| |lia]. intros t H1 H2. apply sorted_step; auto. lia. }
      assert (R0 : repeats r p q = 0).
      { unfold repeats. destruct (filter _ (seq p (q - p))) as [|t l] eqn:Ef; auto. exfalso.
        assert (Ht : In t (filter (fun t => (nth t r 0 =? nth (S t) r 0)%Z) (seq p (q - p)))) by (rewrite Ef; now left).
        apply filter_In in Ht as [Ht1 Ht2]. apply in_seq in Ht1. apply Z.eqb_eq in Ht2.
        destruct (sorted_nth P ranks J t HJ Hl ltac:(lia)) as [_ Ra]. destruct (sorted_nth P ranks J (S t) HJ Hl ltac:(lia)) as [_ Rb].
        fold r in Ra, Rb. rewrite Ra, Rb in Ht2.
        assert (HJn : NoDup J) by (destruct HJ as [K _]; eapply Permutation_NoDup; [symmetry; exact K|apply seq_NoDup]).
        assert (Bt : forall s, s < length P -> nth s J 0 < length ranks).
        { intros s Hs. assert (Hin : In (nth s J 0) J) by (apply nth_In; lia). destruct HJ as [K _]. eapply Permutation_in in Hin; [|exact K]. apply in_seq in Hin. lia. }
        apply (proj1 (NoDup_nth ranks 0%Z)) in Ht2; auto; [|apply Bt; lia|apply Bt; lia].
        apply (proj1 (NoDup_nth J 0)) in Ht2; auto; lia. }
      rewrite R0 in B. assert (Q1 : (qn 1 <= qn (changes r p q))%Q) by (apply qn_le; auto).
      assert (Q1' : (ep * 1 <= ep * qn (changes r p q))%Q) by (rewrite !(Qmult_comm ep); apply Qmult_le_compat_r; auto).
      change (qn 0) with 0%Q in B. lra.
    - intros H.
      assert (G : forall a b, a <= b -> b < length P -> nth a r 0%Z = nth b r 0%Z -> (Qabs (nth a v 0 - nth b v 0) <= delta * ep * qn (length P - 1))%Q).
      { intros a b Hab Hb E. destruct (ineq_bound v r delta ep HG a b Hab ltac:(lia)) as [_ B].
        assert (C0 : changes r a b = 0).
        { unfold changes. destruct (filter _ (seq a (b - a))) as [|t l] eqn:Ef; auto. exfalso.
          assert (Ht : In t (filter (fun t => negb (nth t r 0 =? nth (S t) r 0)%Z) (seq a (b - a)))) by (rewrite Ef; now left).
          apply filter_In in Ht as [Ht1 Ht2]. apply in_seq in Ht1. apply negb_true_iff, Z.eqb_neq in Ht2. apply Ht2.
          pose proof (Hmono a t ltac:(lia) ltac:(lia)). pose proof (Hmono t (S t) ltac:(lia) ltac:(lia)). pose proof (Hmono (S t) b ltac:(lia) ltac:(lia)). lia. }
        specialize (B C0). pose proof (changes_repeats r a b Hab) as CR.
        assert (Q2 : (qn (repeats r a b) <= qn (length P - 1))%Q) by (apply qn_le; lia).
        assert (Q2' : (delta * ep * qn (repeats r a b) <= delta * ep * qn (length P - 1))%Q) by (rewrite !(Qmult_comm (delta * ep)); apply Qmult_le_compat_r; auto).
        lra. }
      destruct (Nat.le_ge_cases p q) as [Hc|Hc].
      + specialize (G p q Hc ltac:(lia) ltac:(lia)). now rewrite Vp, Vq in G.
      + specialize (G q p Hc ltac:(lia) ltac:(lia)). rewrite Vp, Vq in G. rewrite Qabs_Qminus. exact G.
  Qed.
End Ranked.
