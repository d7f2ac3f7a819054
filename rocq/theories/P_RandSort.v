From Coq Require Import List Arith Bool Lia Permutation QArith.
From Verif Require Import Flt ListAux M_RandSort.
Import ListNotations.
Local Open Scope nat_scope.

Lemma length_swap I a b : length (swap I a b) = length I.
Proof. unfold swap. now rewrite !length_upd. Qed.
Lemma nth_swap I a b k : a < length I -> b < length I ->
  nth k (swap I a b) 0 = if k =? a then nth b I 0 else if k =? b then nth a I 0 else nth k I 0.
Proof.
  intros Ha Hb. unfold swap. destruct (Nat.eqb_spec k b) as [E|E].
  - subst. rewrite nth_upd_eq by now rewrite length_upd. destruct (Nat.eqb_spec b a); subst; auto.
  - rewrite nth_upd_neq by auto. destruct (Nat.eqb_spec k a) as [E'|E'].
    + subst. now rewrite nth_upd_eq.
    + now rewrite nth_upd_neq.
Qed.
Lemma upd_split {A} (l : list A) k v d : k < length l -> l = firstn k l ++ nth k l d :: skipn (S k) l /\ upd l k v = firstn k l ++ v :: skipn (S k) l.
Proof.
  revert k. induction l as [|x l IH]; intros [|k] H; simpl in *; try lia; auto.
  destruct (IH k ltac:(lia)) as [H1 H2]. split; f_equal; auto.
Qed.
Lemma swap_perm I a b : a < length I -> b < length I -> Permutation I (swap I a b).
Proof.
  intros Ha Hb. apply Permutation_nth with (d := 0). split; [now rewrite length_swap|].
  exists (fun k => if k =? a then b else if k =? b then a else k). split; [|split].
  - intros k Hk. destruct (k =? a), (k =? b); auto.
  - intros x y Hx Hy E. destruct (Nat.eqb_spec x a), (Nat.eqb_spec x b), (Nat.eqb_spec y a), (Nat.eqb_spec y b); subst; auto; try lia.
  - intros k Hk. rewrite nth_swap by auto. destruct (k =? a); auto. destruct (k =? b); auto.
Qed.

(** rearranged inside the range [l, r) only *)
Definition within (l r : nat) (I J : list nat) : Prop :=
  length J = length I /\ Permutation I J /\ (forall k, k < l \/ r <= k -> nth k J 0 = nth k I 0) /\
  (forall k, l <= k < r -> exists k', l <= k' < r /\ nth k J 0 = nth k' I 0).
Lemma within_refl l r I : within l r I I.
Proof. split; auto. split; auto. split; auto. intros k Hk. exists k. auto. Qed.
Lemma within_trans l r I J K : within l r I J -> within l r J K -> within l r I K.
Proof.
  intros (L1 & P1 & O1 & R1) (L2 & P2 & O2 & R2). split; [lia|]. split; [now rewrite P1|]. split.
  - intros k Hk. now rewrite O2, O1.
  - intros k Hk. destruct (R2 k Hk) as (k' & Hk' & E). destruct (R1 k' Hk') as (k'' & Hk'' & E'). exists k''. split; auto. congruence.
Qed.
Lemma within_weaken l r l' r' I J : l' <= l -> r <= r' -> within l r I J -> within l' r' I J.
Proof.
  intros Hl Hr (L & P & O & R). split; auto. split; auto. split.
  - intros k Hk. apply O. lia.
  - intros k Hk. destruct (le_lt_dec l k) as [H1|H1]; [destruct (lt_dec k r) as [H2|H2]|].
    + destruct (R k ltac:(lia)) as (k' & ? & ?). exists k'. split; auto. lia.
    + exists k. split; auto. apply O. lia.
    + exists k. split; auto.
Qed.
Lemma within_swap l r I a b : l <= a < r -> l <= b < r -> r <= length I -> within l r I (swap I a b).
Proof.
  intros Ha Hb Hr. split; [apply length_swap|]. split; [apply swap_perm; lia|]. split.
  - intros k Hk. rewrite nth_swap by lia. destruct (Nat.eqb_spec k a), (Nat.eqb_spec k b); auto; lia.
  - intros k Hk. rewrite nth_swap by lia. destruct (k =? a); [exists b; auto|]. destruct (k =? b); [exists a; auto|exists k; auto].
Qed.

Lemma partition_spec A left right pivot I : left <= right -> right <= length I ->
  let '(J, s) := partition_loop A left right pivot I in
  left <= s <= right /\ within left right I J /\
  (forall k, left <= k < s -> fleb (at_ A J k) pivot = true) /\ (forall k, s <= k < right -> fleb (at_ A J k) pivot = false).
Proof.
  intros Hlr Hlen. unfold partition_loop.
  assert (H : forall c, left + c <= right ->
    let '(J, s) := fold_left (fun st j => let '(J, s) := st in if fleb (at_ A J j) pivot then (swap J s j, s + 1) else (J, s)) (seq left c) (I, left) in
    left <= s <= left + c /\ within left right I J /\
    (forall k, left <= k < s -> fleb (at_ A J k) pivot = true) /\ (forall k, s <= k < left + c -> fleb (at_ A J k) pivot = false)).
  { induction c as [|c IH]; intros Hc.
    - simpl. split; [lia|]. split; [apply within_refl|]. split; intros; lia.
    - rewrite seq_S, fold_left_app. specialize (IH ltac:(lia)).
      destruct (fold_left _ (seq left c) (I, left)) as [J s]. destruct IH as (Hs & HW & H1 & H2). simpl.
      destruct (fleb (at_ A J (left + c)) pivot) eqn:E.
      + assert (HLJ : length J = length I) by apply HW.
        assert (Hs1 : s < length J) by lia. assert (Hs2 : left + c < length J) by lia.
        split; [lia|]. split; [eapply within_trans; [exact HW|apply within_swap; lia]|].
        unfold at_ in *. split; intros k Hk; rewrite nth_swap by lia.
        * destruct (Nat.eqb_spec k s); [exact E|]. destruct (Nat.eqb_spec k (left + c)); [lia|]. apply H1. lia.
        * destruct (Nat.eqb_spec k s); [lia|]. destruct (Nat.eqb_spec k (left + c)); [|apply H2; lia].
          apply H2. lia.
      + split; [lia|]. split; auto. split; auto. intros k Hk.
        destruct (Nat.eq_dec k (left + c)); [subst; auto|]. apply H2. lia. }
  specialize (H (right - left) ltac:(lia)). replace (left + (right - left)) with right in H by lia. exact H.
Qed.

Definition sorted_on (A : list flt) (l r : nat) (I : list nat) : Prop :=
  forall p q, l <= p -> p < q -> q < r -> fltb (at_ A I q) (at_ A I p) = false.

Lemma at_nonan A I k : vec_ok A -> (forall i, In i I -> i < length A) -> k < length I -> isnan (at_ A I k) = false.
Proof.
  intros HA HI Hk. unfold at_. unfold vec_ok in HA. rewrite Forall_forall in HA. apply HA, nth_In, HI, nth_In. auto.
Qed.

Lemma quicksort_rec_within fuel piv A : forall I left r, r <= length I -> within left r I (quicksort_rec fuel piv A I left r).
Proof.
  induction fuel as [|fuel IH]; intros I left r Hr; [apply within_refl|]. cbn [quicksort_rec].
  destruct (Nat.ltb_spec (left + 1) r) as [Hlt|Hge]; [|apply within_refl].
  set (index := left + piv left r mod (r - left)).
  assert (Hix : left <= index < r) by (unfold index; pose proof (Nat.mod_upper_bound (piv left r) (r - left)); lia).
  set (I1 := swap I (r - 1) index).
  assert (W1 : within left r I I1) by (apply within_swap; lia).
  assert (L1 : length I1 = length I) by apply W1.
  pose proof (partition_spec A left (r - 1) (at_ A I1 (r - 1)) I1 ltac:(lia) ltac:(lia)) as HP.
  destruct (partition_loop A left (r - 1) (at_ A I1 (r - 1)) I1) as [I2 s]. destruct HP as (Hs & W2 & _ & _).
  assert (L2 : length I2 = length I1) by apply W2.
  assert (W3 : within left r I2 (swap I2 (r - 1) s)) by (apply within_swap; lia).
  assert (L3 : length (swap I2 (r - 1) s) = length I2) by apply W3.
  pose proof (IH (swap I2 (r - 1) s) left s ltac:(lia)) as W4.
  assert (L4 : length (quicksort_rec fuel piv A (swap I2 (r - 1) s) left s) = length I2) by (destruct W4; lia).
  pose proof (IH (quicksort_rec fuel piv A (swap I2 (r - 1) s) left s) (s + 1) r ltac:(lia)) as W5.
  eapply within_trans; [exact W1|]. eapply within_trans; [apply (within_weaken left (r - 1)); [lia|lia|exact W2]|].
  eapply within_trans; [exact W3|]. eapply within_trans; [apply (within_weaken left s); [lia|lia|exact W4]|].
  apply (within_weaken (s + 1) r); [lia|lia|exact W5].
Qed.

Lemma quicksort_rec_sorted fuel piv A : vec_ok A -> forall I left r, r - left <= fuel -> r <= length I -> (forall i, In i I -> i < length A) ->
  sorted_on A left r (quicksort_rec fuel piv A I left r).
Proof.
  intros HA. induction fuel as [|fuel IH]; intros I left r Hf Hr HI.
  { intros p q H1 H2 H3. lia. }
  cbn [quicksort_rec].
  destruct (Nat.ltb_spec (left + 1) r) as [Hlt|Hge]; [|intros p q H1 H2 H3; lia].
  set (index := left + piv left r mod (r - left)).
  assert (Hix : left <= index < r) by (unfold index; pose proof (Nat.mod_upper_bound (piv left r) (r - left)); lia).
  set (I1 := swap I (r - 1) index).
  assert (W1 : within left r I I1) by (apply within_swap; lia).
  assert (L1 : length I1 = length I) by apply W1.
  pose proof (partition_spec A left (r - 1) (at_ A I1 (r - 1)) I1 ltac:(lia) ltac:(lia)) as HP.
  destruct (partition_loop A left (r - 1) (at_ A I1 (r - 1)) I1) as [I2 s]. destruct HP as (Hs & W2 & Hle & Hgt).
  assert (L2 : length I2 = length I1) by apply W2.
  set (I3 := swap I2 (r - 1) s).
  assert (W3 : within left r I2 I3) by (apply within_swap; lia).
  assert (L3 : length I3 = length I2) by apply W3.
  set (pivot := at_ A I1 (r - 1)) in *.
  assert (Epiv : at_ A I2 (r - 1) = pivot).
  { unfold pivot, at_. destruct W2 as (_ & _ & O & _). rewrite O by lia. auto. }
  assert (S1 : forall k, left <= k < s -> fleb (at_ A I3 k) pivot = true).
  { intros k Hk. unfold I3, at_. rewrite nth_swap by lia. destruct (Nat.eqb_spec k (r - 1)); [lia|].
    destruct (Nat.eqb_spec k s); [lia|]. apply Hle. lia. }
  assert (S2 : at_ A I3 s = pivot).
  { unfold I3, at_. rewrite nth_swap by lia. destruct (Nat.eqb_spec s (r - 1)) as [E|E].
    - rewrite E. exact Epiv.
    - rewrite Nat.eqb_refl. exact Epiv. }
  assert (S3 : forall k, s < k < r -> fleb (at_ A I3 k) pivot = false).
  { intros k Hk. unfold I3, at_. rewrite nth_swap by lia. destruct (Nat.eqb_spec k (r - 1)) as [E|E].
    - apply Hgt. lia.
    - destruct (Nat.eqb_spec k s); [lia|]. apply Hgt. lia. }
  set (I4 := quicksort_rec fuel piv A I3 left s).
  pose proof (quicksort_rec_within fuel piv A I3 left s ltac:(lia)) as W4. fold I4 in W4.
  assert (L4 : length I4 = length I3) by apply W4.
  set (I5 := quicksort_rec fuel piv A I4 (s + 1) r).
  pose proof (quicksort_rec_within fuel piv A I4 (s + 1) r ltac:(lia)) as W5. fold I5 in W5.
  assert (WW : Permutation I I5).
  { destruct W1 as (_ & P1 & _), W2 as (_ & P2 & _), W3 as (_ & P3 & _), W4 as (_ & P4 & _), W5 as (_ & P5 & _).
    now rewrite P1, P2, P3, P4, P5. }
  assert (HI3 : forall i, In i I3 -> i < length A).
  { intros i Hi. apply HI. destruct W1 as (_ & P1 & _), W2 as (_ & P2 & _), W3 as (_ & P3 & _).
    apply (Permutation_in i (Permutation_sym (Permutation_trans P1 (Permutation_trans P2 P3)))). auto. }
  assert (HI4 : forall i, In i I4 -> i < length A).
  { intros i Hi. apply HI3. destruct W4 as (_ & P4 & _). apply (Permutation_in i (Permutation_sym P4)). auto. }
  pose proof (IH I3 left s ltac:(lia) ltac:(lia) HI3) as T4. fold I4 in T4.
  pose proof (IH I4 (s + 1) r ltac:(lia) ltac:(lia) HI4) as T5. fold I5 in T5.
  destruct W4 as (_ & _ & O4 & R4). destruct W5 as (_ & P5 & O5 & R5).
  (* values in the final list *)
  assert (V1 : forall k, left <= k < s -> fleb (at_ A I5 k) pivot = true).
  { intros k Hk. unfold at_. rewrite O5 by lia. destruct (R4 k ltac:(lia)) as (k' & Hk' & E). rewrite E. apply (S1 k'). lia. }
  assert (V2 : at_ A I5 s = pivot).
  { unfold at_. rewrite O5, O4 by lia. exact S2. }
  assert (V3 : forall k, s < k < r -> fleb (at_ A I5 k) pivot = false).
  { intros k Hk. destruct (R5 k ltac:(lia)) as (k' & Hk' & E). unfold at_. rewrite E, O4 by lia. apply (S3 k'). lia. }
  assert (HN : forall k, k < length I5 -> isnan (at_ A I5 k) = false).
  { intros k Hk. apply at_nonan; auto. intros i Hi. apply HI. apply (Permutation_in i (Permutation_sym WW)). auto. }
  assert (L5 : length I5 = length I) by (rewrite (Permutation_length WW); auto).
  assert (V3' : forall k, s < k < r -> fltb pivot (at_ A I5 k) = true).
  { intros k Hk. specialize (V3 k Hk). rewrite fle_iff_nlt in V3.
    - now apply negb_false_iff in V3.
    - apply HN. lia.
    - rewrite <- V2. apply HN. lia. }
  intros p q H1 H2 H3.
  destruct (lt_eq_lt_dec q s) as [[Hq|Hq]|Hq].
  - unfold at_. rewrite !O5 by lia. apply (T4 p q); lia.
  - subst q. rewrite V2. apply fle_not_lt. apply V1. lia.
  - destruct (lt_eq_lt_dec p s) as [[Hp|Hp]|Hp].
    + apply flt_asym. eapply fle_lt_trans; [apply V1; lia|apply V3'; lia].
    + subst p. rewrite V2. apply flt_asym. apply V3'. lia.
    + apply (T5 p q); lia.
Qed.

(** ** bubble passes *)
Section Bubble.
  Variable n : nat.
  Variable ok : nat -> Prop.
  Variable gt : nat -> nat -> bool.
  Hypothesis gt_asym : forall a b, ok a -> ok b -> gt a b = true -> gt b a = false.
  Hypothesis gt_trans : forall a b c, ok a -> ok b -> ok c -> gt a b = false -> gt b c = false -> gt a c = false.
  Definition Inv m (I : list nat) := forall p q, p < q -> m <= q -> q < n -> gt (nth p I 0) (nth q I 0) = false.
  Definition okl (I : list nat) := length I = n /\ forall k, k < n -> ok (nth k I 0).
  Lemma okl_swap I a b : a < n -> b < n -> okl I -> okl (swap I a b).
  Proof.
    intros Ha Hb [HL H]. split; [now rewrite length_swap|]. intros k Hk. rewrite nth_swap by lia.
    destruct (k =? a); auto. destruct (k =? b); auto.
  Qed.
  Variable c : nat -> nat -> nat -> bool.
  Hypothesis c_gt : forall j a b, ok a -> ok b -> c j a b = gt a b.
  Definition body := (fun (st : list nat * bool) j => let '(J, sw) := st in
               if c j (nth j J 0) (nth (j + 1) J 0) then (swap J j (j + 1), true) else (J, sw)).
  Lemma pass_inv m I : okl I -> Inv m I -> forall j, j <= n - 1 ->
    let '(J, sw) := fold_left body (seq 0 j) (I, false) in
    okl J /\ Inv m J /\ (forall p, p < j -> gt (nth p J 0) (nth j J 0) = false) /\
    (m - 1 <= j -> forall p, p < m - 1 -> gt (nth p J 0) (nth (m - 1) J 0) = false) /\
    (sw = false -> J = I /\ forall k, k < j -> gt (nth k J 0) (nth (k + 1) J 0) = false).
  Proof.
    intros HO HI. induction j as [|j IH]; intros Hj.
    - simpl. split; auto. split; auto. split; [intros; lia|]. split; [intros; lia|]. intros _. split; auto. intros; lia.
    - rewrite seq_S, fold_left_app. specialize (IH ltac:(lia)). destruct (fold_left body (seq 0 j) (I, false)) as [J sw].
      destruct IH as (H1 & H2 & H3 & H4 & H5). cbn [fold_left plus]. unfold body at 1.
      assert (HLJ : length J = n) by apply H1.
      assert (O : forall k, k < n -> ok (nth k J 0)) by apply H1.
      rewrite c_gt by (apply O; lia). destruct (gt (nth j J 0) (nth (j + 1) J 0)) eqn:E.
      + assert (Hm : j + 1 < m).
        { destruct (le_lt_dec m (j + 1)); auto. rewrite (H2 j (j + 1)) in E by lia. discriminate. }
        split; [apply okl_swap; auto; lia|]. split; [|split; [|split; [|discriminate]]].
        * intros p q Hpq Hq Hqn. rewrite !nth_swap by lia.
          destruct (Nat.eqb_spec q j), (Nat.eqb_spec q (j + 1)); try lia.
          destruct (p =? j) eqn:Ep; [apply Nat.eqb_eq in Ep; apply H2; lia|].
          destruct (p =? j + 1) eqn:Ep'; [apply Nat.eqb_eq in Ep'; apply H2; lia|]. apply H2; lia.
        * intros p Hp. rewrite !nth_swap by lia. destruct (Nat.eqb_spec (S j) j); [lia|].
          destruct (Nat.eqb_spec (S j) (j + 1)); [|lia].
          destruct (Nat.eqb_spec p j); [apply gt_asym; auto; apply O; lia|].
          destruct (Nat.eqb_spec p (j + 1)); [lia|]. apply H3. lia.
        * intros Hm1 p Hp. assert (EQ : m - 1 = S j) by lia. rewrite EQ in *. rewrite !nth_swap by lia.
          destruct (Nat.eqb_spec (S j) j); [lia|].
          destruct (Nat.eqb_spec (S j) (j + 1)); [|lia].
          destruct (Nat.eqb_spec p j); [apply gt_asym; auto; apply O; lia|].
          destruct (Nat.eqb_spec p (j + 1)); [lia|]. apply H3. lia.
      + assert (H3' : forall p, p < S j -> gt (nth p J 0) (nth (S j) J 0) = false).
        { intros p Hp. replace (S j) with (j + 1) by lia. destruct (Nat.eq_dec p j); [subst; auto|].
          apply (gt_trans _ (nth j J 0)); try (apply O; lia); auto. apply H3. lia. }
        split; auto. split; auto. split; auto. split.
        * intros Hm p Hp. destruct (Nat.eq_dec (m - 1) (S j)) as [EQ|NE]; [rewrite EQ in *; auto|]. apply H4; lia.
        * intros Hsw. destruct (H5 Hsw) as [H6 H7]. split; auto. intros k Hk. destruct (Nat.eq_dec k j); [subst; auto|]. apply H7. lia.
  Qed.
  Lemma adjacent_sorted I : okl I -> (forall k, k < n - 1 -> gt (nth k I 0) (nth (k + 1) I 0) = false) -> forall p q, p < q -> q < n -> gt (nth p I 0) (nth q I 0) = false.
  Proof.
    intros [HL HO] H p q Hpq. induction q as [|q IH]; intros Hq; [lia|]. replace (S q) with (q + 1) by lia.
    destruct (Nat.eq_dec p q); [subst; apply H; lia|].
    apply (gt_trans _ (nth q I 0)); try (apply HO; lia); [apply IH|apply H]; lia.
  Qed.
End Bubble.

Lemma body_pass c lam I : sr_pass c lam I = fold_left (body c) (seq 0 (lam - 1)) (I, false).
Proof. reflexivity. Qed.

Lemma passes_sorted n (ok : nat -> Prop) gt (C : nat -> nat -> nat -> nat -> bool) :
  (forall a b, ok a -> ok b -> gt a b = true -> gt b a = false) ->
  (forall a b c, ok a -> ok b -> ok c -> gt a b = false -> gt b c = false -> gt a c = false) ->
  (forall i j a b, ok a -> ok b -> C i j a b = gt a b) ->
  forall k i I, okl n ok I -> Inv n gt k I ->
    forall p q, p < q -> q < n -> gt (nth p (sr_passes C n k i I) 0) (nth q (sr_passes C n k i I) 0) = false.
Proof.
  intros Ha Ht HC. induction k as [|k IH]; intros i I HO HI p q Hpq Hq.
  - simpl. apply HI; lia.
  - cbn [sr_passes]. rewrite body_pass.
    pose proof (pass_inv n ok gt Ha Ht (C i) (HC i) (S k) I HO HI (n - 1) ltac:(lia)) as HP.
    destruct (fold_left (body (C i)) (seq 0 (n - 1)) (I, false)) as [J sw]. destruct HP as (H1 & H2 & H3 & H4 & H5).
    destruct sw.
    + apply (IH (S i) J H1); auto. intros p' q' Hpq' Hq' Hn. destruct (Nat.eq_dec q' k) as [E|E].
      * subst q'. replace (S k - 1) with k in H4 by lia. apply H4; lia.
      * apply H2; lia.
    + destruct (H5 eq_refl) as [-> H6]. apply (adjacent_sorted n ok gt Ht); auto.
Qed.

Lemma pass_perm c lam I : lam = length I -> forall j, j <= lam - 1 -> Permutation I (fst (fold_left (body c) (seq 0 j) (I, false))).
Proof.
  intros HL. induction j as [|j IH]; intros Hj; [reflexivity|]. rewrite seq_S, fold_left_app. specialize (IH ltac:(lia)).
  destruct (fold_left (body c) (seq 0 j) (I, false)) as [J sw]. cbn [fst] in IH. cbn [fold_left plus]. unfold body at 1.
  destruct (c j (nth j J 0) (nth (j + 1) J 0)); cbn [fst]; auto.
  rewrite IH. pose proof (Permutation_length IH). apply swap_perm; lia.
Qed.
Lemma passes_perm C : forall lam k i I, lam = length I -> Permutation I (sr_passes C lam k i I).
Proof.
  intros lam k. induction k as [|k IH]; intros i I HL; [reflexivity|]. cbn [sr_passes]. rewrite body_pass.
  pose proof (pass_perm (C i) lam I HL (lam - 1) ltac:(lia)) as HP.
  destruct (fold_left (body (C i)) (seq 0 (lam - 1)) (I, false)) as [J sw]. cbn [fst] in HP.
  destruct sw; auto. rewrite HP. apply IH. rewrite <- (Permutation_length HP). auto.
Qed.
