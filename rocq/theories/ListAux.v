(** * List helpers shared by the models and the proofs. *)
From Coq Require Import List Arith Lia Bool Permutation ZArith Sorted.
Import ListNotations.

(** [a[k] = v] on a Python list / numpy vector (no effect when out of range). *)
Fixpoint upd {A} (l : list A) (k : nat) (v : A) : list A :=
  match l, k with
  | [], _ => []
  | _ :: t, O => v :: t
  | x :: t, S k' => x :: upd t k' v
  end.

(** fancy indexing [l[I]] *)
Definition gather {A} (d : A) (l : list A) (I : list nat) : list A := map (fun i => nth i l d) I.

(** [np.where(p)[0]] for a predicate on the indices [0..n-1] *)
Definition where_ (p : nat -> bool) (n : nat) : list nat := filter p (seq 0 n).

(** [np.reshape(l, (n, m))] of a flat list, row-major *)
Fixpoint reshape {A} (n m : nat) (l : list A) : list (list A) :=
  match n with
  | O => []
  | S n' => firstn m l :: reshape n' m (skipn m l)
  end.

Fixpoint map2 {A B C} (f : A -> B -> C) (l : list A) (m : list B) : list C :=
  match l, m with
  | x :: l', y :: m' => f x y :: map2 f l' m'
  | _, _ => []
  end.

(** ** [upd] *)
Lemma length_upd {A} (l : list A) k v : length (upd l k v) = length l.
Proof. revert k; induction l as [|x l IH]; intros [|k]; simpl; auto. Qed.

Lemma nth_upd_eq {A} (l : list A) k v d : k < length l -> nth k (upd l k v) d = v.
Proof. revert k; induction l as [|x l IH]; intros [|k]; simpl; intros; try lia; auto. apply IH; lia. Qed.

Lemma nth_upd_neq {A} (l : list A) k j v d : j <> k -> nth j (upd l k v) d = nth j l d.
Proof.
  revert k j; induction l as [|x l IH]; intros [|k] [|j]; simpl; intros; try lia; auto.
Qed.

Lemma nth_upd {A} (l : list A) k j v d :
  nth j (upd l k v) d = if (j =? k) && (k <? length l) then v else nth j l d.
Proof.
  destruct (Nat.eqb_spec j k) as [->|H]; simpl.
  - destruct (Nat.ltb_spec k (length l)).
    + now apply nth_upd_eq.
    + rewrite !nth_overflow; rewrite ?length_upd; auto; lia.
  - now apply nth_upd_neq.
Qed.

(** ** [map2], [gather], [where_] *)
Lemma length_map2 {A B C} (f : A -> B -> C) l m : length (map2 f l m) = Nat.min (length l) (length m).
Proof. revert m; induction l as [|x l IH]; intros [|y m]; simpl; auto. Qed.

Lemma nth_map2 {A B C} (f : A -> B -> C) l m k d da db :
  k < length l -> k < length m -> nth k (map2 f l m) d = f (nth k l da) (nth k m db).
Proof.
  revert m k; induction l as [|x l IH]; intros [|y m] [|k]; simpl; intros; try lia; auto.
  apply IH; lia.
Qed.

Lemma length_gather {A} (d : A) l I : length (gather d l I) = length I.
Proof. apply map_length. Qed.

Lemma nth_gather {A} (d : A) l I k d' : k < length I -> nth k (gather d l I) d' = nth (nth k I 0) l d.
Proof.
  intros H. unfold gather. rewrite nth_indep with (d' := nth 0 l d) by (now rewrite map_length).
  change (nth 0 l d) with ((fun i => nth i l d) 0). now rewrite map_nth.
Qed.

Lemma gather_seq {A} (d : A) l : gather d l (seq 0 (length l)) = l.
Proof.
  apply nth_ext with (d := d) (d' := d).
  - now rewrite length_gather, seq_length.
  - intros k Hk. rewrite length_gather, seq_length in Hk.
    rewrite nth_gather by (now rewrite seq_length). now rewrite seq_nth.
Qed.

Lemma In_where p n i : In i (where_ p n) <-> i < n /\ p i = true.
Proof. unfold where_. rewrite filter_In, in_seq. intuition lia. Qed.

Lemma NoDup_where p n : NoDup (where_ p n).
Proof. apply NoDup_filter, seq_NoDup. Qed.

(** ** permutations of [seq 0 n] *)
Lemma perm_seq_of_NoDup (l : list nat) n :
  NoDup l -> (forall i, In i l <-> i < n) -> Permutation l (seq 0 n).
Proof.
  intros Hnd Hin. apply NoDup_Permutation; auto using seq_NoDup.
  intros i. rewrite Hin, in_seq. lia.
Qed.

Lemma perm_seq_NoDup (l : list nat) n : Permutation l (seq 0 n) -> NoDup l.
Proof. intros H. eapply Permutation_NoDup; [symmetry; exact H | apply seq_NoDup]. Qed.

Lemma perm_seq_In (l : list nat) n i : Permutation l (seq 0 n) -> (In i l <-> i < n).
Proof.
  intros H. split; intros Hi.
  - eapply Permutation_in in Hi; [|exact H]. apply in_seq in Hi. lia.
  - eapply Permutation_in; [symmetry; exact H|]. apply in_seq. lia.
Qed.

Lemma perm_seq_length (l : list nat) n : Permutation l (seq 0 n) -> length l = n.
Proof. intros H. apply Permutation_length in H. now rewrite seq_length in H. Qed.

Lemma NoDup_bounded_length (l : list nat) n : NoDup l -> (forall i, In i l -> i < n) -> length l <= n.
Proof.
  intros Hnd H. rewrite <- (seq_length n 0). apply NoDup_incl_length; auto.
  intros i Hi. apply in_seq. specialize (H i Hi). lia.
Qed.

Lemma NoDup_full (l : list nat) n :
  NoDup l -> (forall i, In i l -> i < n) -> n <= length l -> forall i, i < n -> In i l.
Proof.
  intros Hnd Hb Hlen i Hi.
  apply (NoDup_length_incl (l := l) (l' := seq 0 n)); auto.
  - now rewrite seq_length.
  - intros j Hj. apply in_seq. specialize (Hb j Hj). lia.
  - apply in_seq. lia.
Qed.

Lemma NoDup_app_iff {A} (l m : list A) :
  NoDup (l ++ m) <-> NoDup l /\ NoDup m /\ (forall x, In x l -> ~ In x m).
Proof.
  induction l as [|x l IH]; simpl.
  - split; [intros H; repeat split; auto; constructor | tauto].
  - rewrite !NoDup_cons_iff, in_app_iff, IH. firstorder (subst; eauto).
Qed.

Lemma NoDup_map_inj {A B} (f : A -> B) (l : list A) :
  (forall x y, In x l -> In y l -> f x = f y -> x = y) -> NoDup l -> NoDup (map f l).
Proof.
  induction l as [|x l IH]; intros Hinj Hnd; [constructor|].
  apply NoDup_cons_iff in Hnd as [Hx Hnd]. simpl. constructor.
  - intros Hin. apply in_map_iff in Hin as (y & Hy & Hiny).
    assert (y = x) by (apply Hinj; simpl; auto). subst. auto.
  - apply IH; auto. intros; apply Hinj; simpl; auto.
Qed.

(** ** reshape *)
Lemma length_reshape {A} n m (l : list A) : length (reshape n m l) = n.
Proof. revert l; induction n; simpl; auto. Qed.

Lemma nth_reshape {A} n m (l : list A) i j d :
  i < n -> j < m -> nth j (nth i (reshape n m l) []) d = nth (i * m + j) l d.
Proof.
  revert l i; induction n as [|n IH]; intros l i Hi Hj; [lia|].
  destruct i as [|i]; simpl.
  - destruct (Nat.lt_ge_cases j (length l)) as [H|H].
    + rewrite <- (firstn_skipn m l) at 2. destruct (Nat.lt_ge_cases j (length (firstn m l))) as [H'|H'].
      * now rewrite app_nth1.
      * rewrite firstn_length in H'. lia.
    + rewrite !nth_overflow; auto. rewrite firstn_length. lia.
  - rewrite IH by lia.
    clear IH. replace (m + i * m + j) with (m + (i * m + j)) by lia. generalize (i * m + j); intros k.
    clear Hj Hi. revert l; induction m as [|m IHm]; intros l; simpl; auto.
    destruct l; simpl; [destruct k; auto | apply IHm].
Qed.

(** ** argsort: any function meeting this contract models numpy's (unstable) argsort.
    [lt] is the strict comparison of the keys. *)
Definition is_argsort {A} (lt : A -> A -> bool) (d : A) (keys : list A) (I : list nat) : Prop :=
  Permutation I (seq 0 (length keys)) /\
  forall p q, p < q -> q < length I -> lt (nth (nth q I 0) keys d) (nth (nth p I 0) keys d) = false.

(** an executable instance: insertion sort of the indices (stable) *)
Fixpoint ins_idx {A} (lt : A -> A -> bool) (d : A) (keys : list A) (i : nat) (l : list nat) : list nat :=
  match l with
  | [] => [i]
  | j :: l' => if lt (nth j keys d) (nth i keys d) || negb (lt (nth i keys d) (nth j keys d))
               then j :: ins_idx lt d keys i l' else i :: l
  end.
Definition argsort {A} (lt : A -> A -> bool) (d : A) (keys : list A) : list nat :=
  fold_left (fun l i => ins_idx lt d keys i l) (seq 0 (length keys)) [].

Lemma ins_idx_perm {A} lt (d : A) keys i l : Permutation (ins_idx lt d keys i l) (i :: l).
Proof.
  induction l as [|j l IH]; simpl; auto.
  destruct (_ || _); auto. rewrite IH. apply perm_swap.
Qed.

Lemma argsort_perm {A} lt (d : A) keys : Permutation (argsort lt d keys) (seq 0 (length keys)).
Proof.
  unfold argsort. rewrite <- (app_nil_r (seq 0 _)) at 2. generalize (@nil nat).
  generalize (seq 0 (length keys)). intros l; induction l as [|i l IH]; intros acc; simpl; auto.
  rewrite IH, ins_idx_perm. symmetry. apply Permutation_middle.
Qed.

Section ArgsortSorted.
  Context {A : Type} (lt : A -> A -> bool) (d : A) (keys : list A).
  Hypothesis lt_asym : forall x y, lt x y = true -> lt y x = false.
  (* strict weak order: "not less" is transitive, on the elements of [keys] *)
  Hypothesis nlt_trans : forall x y z, In x keys -> In y keys -> In z keys ->
    lt y x = false -> lt z y = false -> lt z x = false.

  Let K i := nth i keys d.
  Let le i j := lt (K j) (K i) = false.

  Lemma ins_idx_sorted i l :
    i < length keys -> Forall (fun j => j < length keys) l ->
    StronglySorted le l -> StronglySorted le (ins_idx lt d keys i l).
  Proof.
    intros Hi Hl HS. induction HS as [|j l HS IH Hj]; simpl; [repeat constructor|].
    inversion Hl as [|? ? Hjk Hl']; subst.
    fold (K j) (K i). destruct (lt (K j) (K i) || negb (lt (K i) (K j))) eqn:E.
    - constructor; auto. rewrite ins_idx_perm. constructor; auto.
      apply orb_true_iff in E as [E|E]; unfold le.
      + auto.
      + now apply negb_true_iff.
    - apply orb_false_iff in E as [E1 E2]. apply negb_false_iff in E2.
      constructor; [constructor; auto|]. constructor; [exact E1|].
      rewrite Forall_forall in *. intros k Hk. unfold le.
      eapply nlt_trans with (y := K j); unfold K; try (apply nth_In; auto; fail).
      + exact E1.
      + apply Hj; auto.
  Qed.

  Lemma argsort_sorted : StronglySorted le (argsort lt d keys).
  Proof.
    unfold argsort.
    assert (G : forall l acc, Forall (fun j => j < length keys) l -> Forall (fun j => j < length keys) acc ->
      StronglySorted le acc -> StronglySorted le (fold_left (fun l i => ins_idx lt d keys i l) l acc)).
    { induction l as [|i l IH]; intros acc Hl Ha HS; simpl; auto.
      inversion Hl; subst. apply IH; auto.
      - rewrite ins_idx_perm. constructor; auto.
      - now apply ins_idx_sorted. }
    apply G; try constructor.
    rewrite Forall_forall. intros j Hj. apply in_seq in Hj. lia.
  Qed.

  Lemma argsort_is_argsort : is_argsort lt d keys (argsort lt d keys).
  Proof.
    split; [apply argsort_perm|].
    pose proof argsort_sorted as HS. revert HS. generalize (argsort lt d keys) as I.
    intros I HS. induction HS as [|i I HS IH Hi]; intros p q Hpq Hq; simpl in Hq; [lia|].
    destruct q as [|q]; [lia|]. destruct p as [|p]; simpl.
    - rewrite Forall_forall in Hi. apply Hi. apply nth_In. lia.
    - apply IH; lia.
  Qed.
End ArgsortSorted.

Lemma StronglySorted_nth {A} (R : A -> A -> Prop) l d p q :
  StronglySorted R l -> p < q -> q < length l -> R (nth p l d) (nth q l d).
Proof.
  intros HS. revert p q. induction HS as [|x l HS IH Hx]; intros p q Hpq Hq; simpl in Hq; [lia|].
  destruct q as [|q]; [lia|]. destruct p as [|p]; simpl.
  - rewrite Forall_forall in Hx. apply Hx, nth_In. lia.
  - apply IH; lia.
Qed.

Lemma in_nth_iff {A} (x : A) l d : In x l <-> exists k, k < length l /\ nth k l d = x.
Proof.
  split; [apply In_nth|]. intros (k & Hk & <-). now apply nth_In.
Qed.

Lemma in_concat_nth {A} (x : A) (ll : list (list A)) :
  In x (concat ll) <-> exists k, k < length ll /\ In x (nth k ll []).
Proof.
  rewrite in_concat. split.
  - intros (l & Hl & Hx). apply In_nth with (d := []) in Hl as (k & Hk & <-). eauto.
  - intros (k & Hk & Hx). exists (nth k ll []). split; auto. now apply nth_In.
Qed.

Lemma existsb_nth_iff {A} (p : A -> bool) l d :
  existsb p l = true <-> exists k, k < length l /\ p (nth k l d) = true.
Proof.
  rewrite existsb_exists. split.
  - intros (x & Hx & Hp). apply In_nth with (d := d) in Hx as (k & Hk & <-). eauto.
  - intros (k & Hk & Hp). exists (nth k l d). split; auto. now apply nth_In.
Qed.
