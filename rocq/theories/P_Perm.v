(** * Proofs for M_Perm: order crossover and inversion *)
From Coq Require Import List Arith Bool ZArith Lia Permutation.
From Verif Require Import ListAux M_Perm S_Perm.
Import ListNotations.
Local Open Scope nat_scope.

Lemma memZ_In v l : memZ v l = true <-> In v l.
Proof.
  unfold memZ; rewrite existsb_exists. split.
  - intros (x & Hx & E); apply Z.eqb_eq in E; subst; auto.
  - intros HI; exists v; split; auto. apply Z.eqb_refl.
Qed.
Lemma memZ_nIn v l : memZ v l = false <-> ~ In v l.
Proof. rewrite <- memZ_In. destruct (memZ v l); split; congruence. Qed.

Lemma fold_filter {A} (p : A -> bool) (f : nat -> A) l acc :
  fold_left (fun y k => if p (f k) then y ++ [f k] else y) l acc = acc ++ filter p (map f l).
Proof.
  revert acc; induction l as [|k l IH]; intro acc; simpl; [rewrite app_nil_r; auto|].
  rewrite IH. destruct (p (f k)); auto. rewrite <- app_assoc; auto.
Qed.

Lemma nth_skipn {A} (l : list A) s k d : nth k (skipn s l) d = nth (s + k) l d.
Proof. revert l; induction s; intros l; auto. destruct l; simpl; auto. destruct k; auto. Qed.
Lemma nth_firstn {A} (l : list A) s k d : k < s -> nth k (firstn s l) d = nth k l d.
Proof. revert l k; induction s; intros l k H; [lia|]. destruct l; [destruct k; auto|]. destruct k; simpl; auto. apply IHs; lia. Qed.

Lemma nth_map_seq0 {A} (f : nat -> A) n k d : k < n -> nth k (map f (seq 0 n)) d = f k.
Proof.
  intros H. rewrite (nth_indep _ d (f 0)) by (rewrite map_length, seq_length; auto).
  rewrite map_nth, seq_nth; auto.
Qed.

Lemma rotate_map {A} (d : A) (r : list A) s : s < length r ->
  map (fun k => nth ((s + k) mod length r) r d) (seq 0 (length r)) = skipn s r ++ firstn s r.
Proof.
  intros Hs. apply (nth_ext _ _ d d).
  - rewrite map_length, seq_length, app_length, skipn_length, firstn_length. lia.
  - intros k Hk. rewrite map_length, seq_length in Hk. rewrite nth_map_seq0 by auto.
    destruct (Nat.lt_ge_cases (s + k) (length r)).
    + rewrite Nat.mod_small by auto. rewrite app_nth1 by (rewrite skipn_length; lia). rewrite nth_skipn; auto.
    + rewrite app_nth2 by (rewrite skipn_length; lia). rewrite skipn_length, nth_firstn by lia.
      f_equal. replace (s + k) with (k - (length r - s) + 1 * length r) by lia. rewrite Nat.mod_add by lia. apply Nat.mod_small; lia.
Qed.

Lemma skipn_skipn' {A} (l : list A) a b : skipn a (skipn b l) = skipn (b + a) l.
Proof. revert l; induction b; intros l; simpl; auto. destruct l; auto. destruct a; auto. Qed.
Lemma length_slice {A} (l : list A) a b : a <= b <= length l -> length (slice l a b) = b - a.
Proof. intros. unfold slice. rewrite firstn_length, skipn_length. lia. Qed.
Lemma nth_slice {A} (l : list A) a b k d : k < b - a -> nth k (slice l a b) d = nth (a + k) l d.
Proof. intros. unfold slice. rewrite nth_firstn by auto. apply nth_skipn. Qed.
Lemma slice_split {A} (l : list A) a b : a <= b -> l = firstn a l ++ slice l a b ++ skipn b l.
Proof.
  intros H. unfold slice. rewrite <- (firstn_skipn a l) at 1. f_equal.
  rewrite <- (firstn_skipn (b - a) (skipn a l)) at 1. f_equal.
  rewrite skipn_skipn'. f_equal. lia.
Qed.
Lemma In_slice {A} (l : list A) a b x : In x (slice l a b) -> In x l.
Proof.
  unfold slice. intros H.
  assert (In x (skipn a l)). { rewrite <- (firstn_skipn (b - a)). apply in_or_app; auto. }
  rewrite <- (firstn_skipn a l). apply in_or_app; auto.
Qed.
Lemma NoDup_slice {A} (l : list A) a b : NoDup l -> NoDup (slice l a b).
Proof.
  intros H. unfold slice.
  rewrite <- (firstn_skipn a l) in H. apply NoDup_app_iff in H as (_ & H & _).
  rewrite <- (firstn_skipn (b - a) (skipn a l)) in H. apply NoDup_app_iff in H as (H & _ & _). auto.
Qed.

Lemma Permutation_filter_split {A} (p : A -> bool) l : Permutation l (filter p l ++ filter (fun x => negb (p x)) l).
Proof.
  induction l; simpl; auto. destruct (p a); simpl; auto. apply Permutation_cons_app; auto.
Qed.

(** the rest of the receiver in its order *)
Definition ox_order (receiver : list Z) (start : nat) (shift : bool) : list Z :=
  if shift then skipn start receiver ++ firstn start receiver else receiver.

Lemma ox_eq receiver donor start stop shift : start < length receiver ->
  ox receiver donor start stop shift =
  let rest := filter (fun v => negb (memZ v (slice donor start (stop + 1)))) (ox_order receiver start shift) in
  firstn start rest ++ slice donor start (stop + 1) ++ skipn start rest.
Proof.
  intros Hs. unfold ox.
  rewrite (fold_filter (fun v => negb (memZ v (slice donor start (stop + 1))))
             (fun k => nth (if negb shift then k else (start + k) mod length receiver) receiver 0%Z)). cbn [app].
  replace (map _ (seq 0 (length receiver))) with (ox_order receiver start shift); auto.
  unfold ox_order. destruct shift; simpl.
  - symmetry; apply rotate_map; auto.
  - symmetry; apply gather_seq.
Qed.

Lemma ox_order_perm receiver start shift : Permutation (ox_order receiver start shift) receiver.
Proof.
  unfold ox_order; destruct shift; auto. etransitivity; [apply Permutation_app_comm|]. rewrite firstn_skipn; auto.
Qed.

Lemma ox_spec receiver donor start stop shift :
  Permutation receiver donor -> NoDup receiver -> start <= stop < length receiver ->
  let res := ox receiver donor start stop shift in
  Permutation res receiver /\
  (forall p, start <= p <= stop -> nth p res 0%Z = nth p donor 0%Z) /\
  firstn start res ++ skipn (stop + 1) res =
    filter (fun v => negb (memZ v (slice donor start (stop + 1)))) (ox_order receiver start shift).
Proof.
  intros HP HN Hs. cbn zeta. rewrite ox_eq by lia. cbn zeta.
  set (don := slice donor start (stop + 1)). set (rest := filter _ _).
  assert (Hlen : length donor = length receiver) by (symmetry; apply Permutation_length; auto).
  assert (Hld : length don = stop + 1 - start) by (apply length_slice; lia).
  assert (HP2 : Permutation (rest ++ don) receiver).
  { pose proof (ox_order_perm receiver start shift) as HO.
    assert (Permutation (filter (fun v => memZ v don) (ox_order receiver start shift)) don).
    { apply NoDup_Permutation.
      - apply NoDup_filter. eapply Permutation_NoDup; [symmetry; apply HO|auto].
      - apply NoDup_slice. eapply Permutation_NoDup; eauto.
      - intros x. rewrite filter_In, memZ_In. split; [tauto|]. intros Hx; split; auto.
        apply (Permutation_in _ (Permutation_sym HO)). apply (Permutation_in _ (Permutation_sym HP)).
        eapply In_slice; eauto. }
    etransitivity; [|apply HO]. etransitivity; [|symmetry; apply (Permutation_filter_split (fun v => memZ v don))].
    etransitivity; [apply Permutation_app_comm|]. apply Permutation_app; [symmetry; auto|apply Permutation_refl]. }
  assert (Hlr : length rest = length receiver - (stop + 1 - start)).
  { apply Permutation_length in HP2. rewrite app_length, Hld in HP2. lia. }
  assert (Hf : length (firstn start rest) = start) by (rewrite firstn_length; lia).
  split; [|split].
  - etransitivity; [|apply HP2]. rewrite <- (firstn_skipn start rest) at 3. rewrite <- app_assoc.
    apply Permutation_app_head. apply Permutation_app_comm.
  - intros p Hp. rewrite app_nth2, Hf by lia. rewrite app_nth1 by lia.
    unfold don. rewrite nth_slice by lia. f_equal; lia.
  - rewrite firstn_app, Hf, Nat.sub_diag. simpl. rewrite app_nil_r.
    rewrite firstn_firstn, Nat.min_id.
    rewrite app_assoc, skipn_app. rewrite skipn_all2 by (rewrite app_length; lia).
    rewrite app_length, Hf, Hld. replace (stop + 1 - (start + (stop + 1 - start))) with 0 by lia. simpl.
    apply firstn_skipn.
Qed.

(** ** inversion *)
Lemma inversion_length {A} (y : list A) s e : length (inversion_mutation y s e) = length y \/ s > e + 1.
Proof.
  destruct (Nat.le_gt_cases s (e + 1)); [left|right; lia].
  unfold inversion_mutation. rewrite !app_length, rev_length. rewrite (slice_split y s (e + 1)) at 4 by auto.
  rewrite !app_length; auto.
Qed.
Lemma inversion_nth {A} (d : A) (y : list A) s e p : s <= e < length y ->
  nth p (inversion_mutation y s e) d =
  if (s <=? p) && (p <=? e) then nth (s + e - p) y d else nth p y d.
Proof.
  intros H. unfold inversion_mutation.
  assert (Hf : length (firstn s y) = s) by (rewrite firstn_length; lia).
  assert (Hl : length (slice y s (e + 1)) = e + 1 - s) by (apply length_slice; lia).
  destruct (s <=? p) eqn:E1; [apply Nat.leb_le in E1|apply Nat.leb_gt in E1]; simpl.
  - rewrite app_nth2 by lia. rewrite Hf. destruct (p <=? e) eqn:E2; [apply Nat.leb_le in E2|apply Nat.leb_gt in E2].
    + rewrite app_nth1 by (rewrite rev_length; lia). rewrite rev_nth by lia. rewrite Hl, nth_slice by lia. f_equal; lia.
    + rewrite app_nth2 by (rewrite rev_length; lia). rewrite rev_length, Hl, nth_skipn. f_equal; lia.
  - rewrite app_nth1 by lia. apply nth_firstn; lia.
Qed.
Lemma inversion_perm {A} (y : list A) s e : s <= e + 1 -> Permutation (inversion_mutation y s e) y.
Proof.
  intros H. unfold inversion_mutation. rewrite (slice_split y s (e + 1)) at 4 by auto.
  apply Permutation_app_head, Permutation_app_tail. symmetry; apply Permutation_rev.
Qed.
Lemma inversion_involutive {A} (y : list A) s e : s <= e < length y ->
  inversion_mutation (inversion_mutation y s e) s e = y.
Proof.
  intros H. destruct y as [|d y0]; [simpl in H; lia|]. set (y := d :: y0) in *.
  assert (L1 : length (inversion_mutation y s e) = length y) by (destruct (inversion_length y s e); lia).
  apply (nth_ext _ _ d d).
  - destruct (inversion_length (inversion_mutation y s e) s e); lia.
  - intros p _. rewrite inversion_nth by lia.
    destruct ((s <=? p) && (p <=? e)) eqn:E.
    + rewrite inversion_nth by lia. apply andb_true_iff in E as [E1 E2]. apply Nat.leb_le in E1, E2.
      replace (s <=? s + e - p) with true by (symmetry; apply Nat.leb_le; lia).
      replace (s + e - p <=? e) with true by (symmetry; apply Nat.leb_le; lia). cbn [andb]. replace (s + e - (s + e - p)) with p by lia. auto.
    + rewrite inversion_nth, E by lia. auto.
Qed.
