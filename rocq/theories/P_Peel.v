(** * Generic facts about non-dominated peelings *)
From Coq Require Import List Arith Lia Bool Permutation.
From Verif Require Import Flt ListAux S_Pareto.
Import ListNotations.

(** an equivalent, locally checkable description *)
Definition layered (n : nat) (dom : nat -> nat -> Prop) (fronts : list (list nat)) : Prop :=
  Permutation (concat fronts) (seq 0 n) /\
  (forall k, k < length fronts -> nth k fronts [] <> []) /\
  (forall k k' i j, In i (nth k fronts []) -> In j (nth k' fronts []) -> dom j i -> k' < k) /\
  (forall k i, In i (nth (S k) fronts []) -> exists j, In j (nth k fronts []) /\ dom j i).

Lemma nth_In_lt {A} (ll : list (list A)) k x : In x (nth k ll []) -> k < length ll.
Proof.
  intros H. destruct (Nat.lt_ge_cases k (length ll)) as [Hk|Hk]; auto.
  rewrite nth_overflow in H by auto. destruct H.
Qed.

Lemma concat_NoDup_nth {A} (ll : list (list A)) k k' x :
  NoDup (concat ll) -> In x (nth k ll []) -> In x (nth k' ll []) -> k = k'.
Proof.
  revert k k'. induction ll as [|l ll IH]; intros k k' Hnd H1 H2.
  - destruct k; destruct H1.
  - simpl in Hnd. apply NoDup_app_iff in Hnd as (Hl & Hll & Hd).
    destruct k as [|k], k' as [|k']; simpl in *; auto.
    + exfalso. apply (Hd x H1). apply in_concat_nth. exists k'. split; auto. eapply nth_In_lt; eauto.
    + exfalso. apply (Hd x H2). apply in_concat_nth. exists k. split; auto. eapply nth_In_lt; eauto.
Qed.

Lemma layered_front n dom fronts i : layered n dom fronts -> i < n -> exists k, In i (nth k fronts []).
Proof.
  intros (HP & _) Hi. apply (perm_seq_In _ _ i HP) in Hi. apply in_concat_nth in Hi as (k & _ & H). eauto.
Qed.

Lemma layered_lt n dom fronts i k : layered n dom fronts -> In i (nth k fronts []) -> i < n.
Proof.
  intros (HP & _) Hi. apply (perm_seq_In _ _ i HP). apply in_concat_nth. exists k. split; auto.
  eapply nth_In_lt; eauto.
Qed.

Lemma layered_peeling n dom fronts : layered n dom fronts -> is_peeling n dom fronts.
Proof.
  intros HL. pose proof HL as (HP & HN & HA & HB). split; [auto|]. split; [auto|].
  assert (Hnd : NoDup (concat fronts)) by (eapply perm_seq_NoDup; eauto).
  intros k i Hk. split.
  - intros Hi. split; [eapply layered_lt; eauto|]. split.
    + intros (k' & Hk' & Hi'). assert (k = k') by (eapply concat_NoDup_nth; eauto). lia.
    + intros j Hj Hne Hd. destruct (layered_front _ _ _ j HL Hj) as (k' & Hk').
      apply Hne. exists k'. split; auto. eapply HA; eauto.
  - intros (Hi & Hne & Hmin). destruct (layered_front _ _ _ i HL Hi) as (k' & Hk').
    assert (~ k' < k) by (intros H; apply Hne; exists k'; auto).
    destruct (Nat.eq_dec k k') as [->|Hkk]; auto. exfalso.
    destruct k' as [|k']; [lia|]. destruct (HB _ _ Hk') as (j & Hj & Hd).
    apply (Hmin j); auto.
    + eapply layered_lt; eauto.
    + intros (k'' & Hk'' & Hj''). assert (k' = k'') by (eapply concat_NoDup_nth; eauto). lia.
Qed.

(** two peelings of the same relation have the same fronts (as sets) *)
Lemma peeling_unique n dom f g :
  is_peeling n dom f -> is_peeling n dom g ->
  length f = length g /\ forall k i, In i (nth k f []) <-> In i (nth k g []).
Proof.
  intros (HP1 & HN1 & HF1) (HP2 & HN2 & HF2).
  assert (H : forall k, (k < length f <-> k < length g) /\ forall i, In i (nth k f []) <-> In i (nth k g [])).
  { induction k as [k IH] using lt_wf_ind.
    assert (HE : forall i, in_earlier f k i <-> in_earlier g k i).
    { intros i. split; intros (k' & Hk' & Hi); exists k'; split; auto; apply (IH k' Hk'); auto. }
    assert (HL : k < length f <-> k < length g).
    { assert (G : forall a b, Permutation (concat a) (seq 0 n) -> Permutation (concat b) (seq 0 n) ->
        (forall k', k' < length a -> nth k' a [] <> []) ->
        (forall i, in_earlier a k i <-> in_earlier b k i) -> k < length a -> k < length b).
      { intros a b HPa HPb HNa HEab Hka. destruct (Nat.lt_ge_cases k (length b)) as [|Hkb]; auto. exfalso.
        destruct (nth k a []) as [|i l] eqn:E; [apply (HNa k); auto|].
        assert (Hi : In i (nth k a [])) by (rewrite E; simpl; auto).
        assert (Hin : i < n).
        { apply (perm_seq_In _ _ i HPa). apply in_concat_nth. eauto. }
        apply (perm_seq_In _ _ i HPb) in Hin. apply in_concat_nth in Hin as (k' & Hk' & Hi').
        assert (He : in_earlier b k i) by (exists k'; split; auto; lia).
        apply HEab in He as (k'' & Hk'' & Hi'').
        assert (k'' = k) by (eapply concat_NoDup_nth; eauto; eapply perm_seq_NoDup; eauto). lia. }
      split; apply G; auto. intros i; symmetry; auto. }
    split; auto. intros i. destruct (Nat.lt_ge_cases k (length f)) as [Hk|Hk].
    - rewrite HF1, HF2 by tauto. split; intros (Hi & Hne & Hm); (split; [auto|]; split).
      + now rewrite <- HE.
      + intros j Hj Hnj. apply Hm; auto. now rewrite HE.
      + now rewrite HE.
      + intros j Hj Hnj. apply Hm; auto. now rewrite <- HE.
    - rewrite !nth_overflow by lia. tauto. }
  split; [|intros k i; apply H].
  destruct (Nat.lt_trichotomy (length f) (length g)) as [Hlt|[Heq|Hgt]]; auto.
  - apply H in Hlt. lia.
  - apply H in Hgt. lia.
Qed.

(** minimal elements of a finite non-empty set *)
Lemma minimal_exists (dom : nat -> nat -> Prop) (dec : forall i j, dom i j \/ ~ dom i j) l :
  (forall i, ~ dom i i) -> (forall i j k, dom i j -> dom j k -> dom i k) ->
  l <> [] -> exists x, In x l /\ forall y, In y l -> ~ dom y x.
Proof.
  intros Hirr Htr. induction l as [|x l IH]; intros Hne; [congruence|].
  destruct l as [|x' l'].
  - exists x. split; simpl; auto. intros y [<-|[]]. auto.
  - destruct IH as (m & Hm & Hmin); [discriminate|].
    destruct (dec x m) as [Hd|Hd].
    + exists x. split; [simpl; auto|]. intros y [<-|Hy]; auto. intros Hyx. apply (Hmin y Hy). eauto.
    + exists m. split; [simpl; auto|]. intros y [<-|Hy]; auto.
Qed.

(** renaming the points by a permutation *)
Lemma layered_map n dom fronts I :
  Permutation I (seq 0 n) ->
  layered n (fun p q => dom (nth p I 0) (nth q I 0)) fronts ->
  layered n dom (map (map (fun p => nth p I 0)) fronts).
Proof.
  intros HI HL. pose proof HL as (HP & HN & HA & HB). set (f := fun p => nth p I 0) in *.
  assert (Hnth : forall k, nth k (map (map f) fronts) [] = map f (nth k fronts [])).
  { intros k. exact (map_nth (map f) fronts [] k). }
  split; [|split; [|split]].
  - rewrite <- concat_map. transitivity (map f (seq 0 n)); [now apply Permutation_map|].
    replace (map f (seq 0 n)) with I; auto.
    rewrite <- (perm_seq_length _ _ HI). symmetry. apply (gather_seq 0 I).
  - intros k Hk. rewrite map_length in Hk. rewrite Hnth. specialize (HN k Hk).
    destruct (nth k fronts []); [congruence | discriminate].
  - intros k k' i j Hi Hj Hd. rewrite Hnth in Hi, Hj. apply in_map_iff in Hi as (p & <- & Hp).
    apply in_map_iff in Hj as (q & <- & Hq). eapply HA; eauto.
  - intros k i Hi. rewrite Hnth in Hi. apply in_map_iff in Hi as (p & <- & Hp).
    destruct (HB _ _ Hp) as (q & Hq & Hd). exists (f q). split; auto. rewrite Hnth. now apply in_map.
Qed.

(** ** Insertion layering: points are inserted one by one, dominators first, into a front [k] such that
    front [k] holds no dominator and front [k-1] does. *)
Definition has_dom (dom : nat -> nat -> Prop) (front : list nat) (p : nat) : Prop := exists j, In j front /\ dom j p.

(** append [p] to front [k], creating the front if needed *)
Definition add_to (fronts : list (list nat)) (k p : nat) : list (list nat) :=
  if k <? length fronts then upd fronts k (nth k fronts [] ++ [p]) else fronts ++ [[p]].

Lemma nth_add_to fronts k p k' :
  k <= length fronts ->
  nth k' (add_to fronts k p) [] = if k' =? k then nth k fronts [] ++ [p] else nth k' fronts [].
Proof.
  intros Hk. unfold add_to. destruct (Nat.ltb_spec k (length fronts)) as [H|H].
  - rewrite nth_upd. destruct (Nat.eqb_spec k' k); simpl; auto. rewrite (proj2 (Nat.ltb_lt _ _) H). now subst.
  - assert (k = length fronts) by lia. subst k. destruct (Nat.eqb_spec k' (length fronts)) as [->|Hne].
    + rewrite app_nth2 by lia. rewrite Nat.sub_diag. simpl. now rewrite nth_overflow.
    + destruct (Nat.lt_ge_cases k' (length fronts)); [now rewrite app_nth1|].
      rewrite !nth_overflow; auto; rewrite ?app_length; simpl; lia.
Qed.

Lemma length_add_to fronts k p :
  length (add_to fronts k p) = Nat.max (length fronts) (if k <? length fronts then 0 else S (length fronts)).
Proof.
  unfold add_to. destruct (Nat.ltb_spec k (length fronts)); rewrite ?length_upd, ?app_length; simpl; lia.
Qed.

Lemma concat_upd_app {A} (ll : list (list A)) k x :
  k < length ll -> Permutation (concat (upd ll k (nth k ll [] ++ [x]))) (x :: concat ll).
Proof.
  revert k; induction ll as [|l ll IH]; intros [|k] Hk; simpl in *; try lia.
  - rewrite <- app_assoc. simpl. symmetry. apply Permutation_middle.
  - rewrite IH by lia. symmetry. apply Permutation_middle.
Qed.

Lemma concat_add_to fronts k p : Permutation (concat (add_to fronts k p)) (p :: concat fronts).
Proof.
  unfold add_to. destruct (Nat.ltb_spec k (length fronts)); [now apply concat_upd_app|].
  rewrite concat_app. simpl. symmetry. apply Permutation_cons_append.
Qed.

Section Insertion.
  Variable dom : nat -> nat -> Prop.
  Hypothesis dom_trans : forall i j k, dom i j -> dom j k -> dom i k.
  Hypothesis dom_irrefl : forall i, ~ dom i i.

  (** "front k' holds a dominator of p" is downward closed *)
  Lemma has_dom_down n fronts p k k' :
    layered n dom fronts -> k <= k' -> has_dom dom (nth k' fronts []) p -> has_dom dom (nth k fronts []) p.
  Proof.
    intros HL Hle (j & Hj & Hd). revert j Hj Hd.
    induction Hle as [|k' Hle IH]; intros j Hj Hd; [exists j; auto|].
    destruct HL as (_ & _ & _ & HB). destruct (HB _ _ Hj) as (j' & Hj' & Hd'). eauto.
  Qed.

  Lemma layered_add n fronts k :
    layered n dom fronts -> k <= length fronts ->
    (forall j, j < n -> ~ dom n j) ->
    (k < length fronts -> ~ has_dom dom (nth k fronts []) n) ->
    (forall k0, k = S k0 -> has_dom dom (nth k0 fronts []) n) ->
    layered (S n) dom (add_to fronts k n).
  Proof.
    intros HL Hk Htop Hno Hyes. pose proof HL as (HP & HN & HA & HB).
    assert (Hno' : ~ has_dom dom (nth k fronts []) n).
    { destruct (Nat.lt_ge_cases k (length fronts)) as [H|H]; auto.
      rewrite nth_overflow by auto. intros (j & [] & _). }
    split; [|split; [|split]].
    - rewrite concat_add_to, seq_S, HP. apply Permutation_cons_append.
    - intros k' Hk'. rewrite nth_add_to by auto. destruct (Nat.eqb_spec k' k); [now destruct (nth k fronts [])|].
      apply HN. rewrite length_add_to in Hk'. destruct (Nat.ltb_spec k (length fronts)); lia.
    - intros k1 k2 i j. rewrite !nth_add_to by auto. intros Hi Hj Hd.
      assert (Hi' : In i (nth k1 fronts []) \/ (k1 = k /\ i = n)).
      { destruct (Nat.eqb_spec k1 k) as [->|]; auto. apply in_app_iff in Hi as [Hi|[<-|[]]]; auto. }
      assert (Hj' : In j (nth k2 fronts []) \/ (k2 = k /\ j = n)).
      { destruct (Nat.eqb_spec k2 k) as [->|]; auto. apply in_app_iff in Hj as [Hj|[<-|[]]]; auto. }
      clear Hi Hj. destruct Hi' as [Hi|[-> ->]], Hj' as [Hj|[-> ->]].
      + eapply HA; eauto.
      + exfalso. eapply Htop; [|exact Hd]. eapply layered_lt; eauto.
      + destruct (Nat.lt_ge_cases k2 k) as [|Hge]; auto. exfalso. apply Hno'.
        eapply has_dom_down; eauto. exists j. auto.
      + exfalso. eapply dom_irrefl; eauto.
    - intros k' i. rewrite nth_add_to by auto. destruct (Nat.eqb_spec (S k') k) as [He|Hne].
      + intros Hi. apply in_app_iff in Hi as [Hi|[<-|[]]].
        * rewrite <- He in Hi. destruct (HB _ _ Hi) as (j & Hj & Hd). exists j. split; auto.
          rewrite nth_add_to by auto. destruct (Nat.eqb_spec k' k); [lia|auto].
        * destruct (Hyes k' (eq_sym He)) as (j & Hj & Hd). exists j. split; auto.
          rewrite nth_add_to by auto. destruct (Nat.eqb_spec k' k); [lia|auto].
      + intros Hi. destruct (HB _ _ Hi) as (j & Hj & Hd). exists j. split; auto.
        rewrite nth_add_to by auto. destruct (Nat.eqb_spec k' k) as [->|]; auto. apply in_app_iff; auto.
  Qed.

  (** folding the insertion over [0..n-1] *)
  Lemma layered_fold n (search : list (list nat) -> nat -> nat) :
    (forall i j, i < j -> j < n -> ~ dom j i) ->
    (forall p fronts, p < n -> layered p dom fronts ->
       let k := search fronts p in
       k <= length fronts /\
       (k < length fronts -> ~ has_dom dom (nth k fronts []) p) /\
       (forall k0, k = S k0 -> has_dom dom (nth k0 fronts []) p)) ->
    layered n dom (fold_left (fun fronts p => add_to fronts (search fronts p) p) (seq 0 n) []).
  Proof.
    intros Htop Hs. assert (G : forall q, q <= n ->
      layered q dom (fold_left (fun fronts p => add_to fronts (search fronts p) p) (seq 0 q) [])); [|now apply G].
    induction q as [|q IH]; intros Hq.
    - simpl. split; [auto|]. split; [simpl; lia|]. split; intros [|k]; simpl; try tauto.
    - rewrite seq_S, fold_left_app. simpl. specialize (IH ltac:(lia)).
      destruct (Hs q _ ltac:(lia) IH) as (H1 & H2 & H3).
      apply layered_add; auto.
  Qed.
End Insertion.
