(** * C56 (selection of points with maximum distance), C57 (incremental lattice), C58 (projection onto the simplex) *)
From Coq Require Import List Arith Bool ZArith QArith Qabs Lia Lqa Permutation Sorted.
From Verif Require Import ListAux M_RefDirs M_RefDirs2 S_RefDirs P_RefDirs Thm_RefDirs.
Import ListNotations.
Local Open Scope nat_scope.

(** ** C56 *)
(** the claim: starting from distinct points, and asked for no more points than there are, the selected indices are distinct *)
Theorem C56_distinct_refuted :
  ~ (forall n_points n_select (x : nat -> Q) selected, NoDup selected -> selected <> [] -> Forall (fun i => i < n_points) selected -> n_select <= n_points ->
       (forall i j, i < n_points -> j < n_points -> (x i == x j)%Q -> i = j) ->
       forall r, select_maxdist n_points n_select (fun i j => Qabs (x i - x j)) selected = Some r -> NoDup r).
Proof.
  intros HH. specialize (HH 3 3 (fun i => nth i [1; 3; 2]%Q 0%Q) [0] ltac:(repeat constructor; auto) ltac:(discriminate) ltac:(repeat constructor) ltac:(lia)).
  specialize (HH ltac:(intros i j Hi Hj E; destruct i as [|[|[|i]]]; destruct j as [|[|[|j]]]; try lia; vm_compute in E; discriminate)).
  specialize (HH [0; 1; 0] ltac:(vm_compute; reflexivity)). inversion HH; subst. apply H1. simpl; auto.
Qed.
Print Assumptions C56_distinct_refuted.

Lemma argmaxQ_from_spec l : forall best bi i, let r := argmaxQ_from best bi i l in
  (r = bi /\ Forall (fun x => x <= best)%Q l) \/ (exists q, q < length l /\ r = i + q /\ (best <= nth q l 0)%Q /\ Forall (fun x => x <= nth q l 0)%Q l).
Proof.
  induction l as [|x l IH]; intros best bi i; cbn [argmaxQ_from]; [left; auto|]. destruct (Qle_bool x best) eqn:E.
  - apply Qle_bool_iff in E. destruct (IH best bi (S i)) as [[H1 H2]|(q & Hq & H1 & H2 & H3)]; [left; auto|]. right. exists (S q). cbn [length nth]. split; [lia|]. split; [lia|]. split; auto. constructor; auto. lra.
  - assert (Hx : (best <= x)%Q) by (destruct (Qlt_le_dec best x) as [H|H]; [lra|]; apply Qle_bool_iff in H; congruence).
    destruct (IH x i (S i)) as [[H1 H2]|(q & Hq & H1 & H2 & H3)]; right.
    + exists 0. cbn [length nth]. split; [lia|]. split; [lia|]. split; auto. constructor; [lra|auto].
    + exists (S q). cbn [length nth]. split; [lia|]. split; [lia|]. split; [lra|]. constructor; auto.
Qed.
Lemma argmaxQ_spec l : l <> [] -> exists k, argmaxQ l = Some k /\ k < length l /\ Forall (fun x => x <= nth k l 0)%Q l.
Proof.
  destruct l as [|x l]; [congruence|]. intros _. cbn [argmaxQ]. eexists. split; [reflexivity|].
  destruct (argmaxQ_from_spec l x 0 1) as [[-> H]|(q & Hq & -> & H2 & H3)]; cbn [length nth Nat.add]; (split; [lia|constructor; auto]). lra.
Qed.
(** what holds: the first point added is not yet selected and is a farthest one (distance to the nearest selected point) *)
Theorem C56_first_partial : forall n_points n_select D selected, NoDup selected -> Forall (fun i => i < n_points) selected -> selected <> [] ->
  n_select = S (length selected) -> n_select <= n_points ->
  exists i, select_maxdist n_points n_select D selected = Some (selected ++ [i]) /\ i < n_points /\ ~ In i selected /\
    forall j, j < n_points -> ~ In j selected -> (qmin_list (map (D j) selected) <= qmin_list (map (D i) selected))%Q.
Proof.
  intros n ns D sel HN HF Hne -> Hle. unfold select_maxdist. replace (S (length sel) - length sel) with 1 by lia.
  set (nots := filter (fun i => negb (existsb (Nat.eqb i) sel)) (seq 0 n)). set (dist := map (fun i => qmin_list (map (D i) sel)) (seq 0 n)).
  assert (Hnots : forall i, In i nots <-> i < n /\ ~ In i sel).
  { intros i. unfold nots. rewrite filter_In, in_seq, negb_true_iff. split.
    - intros [H1 H2]. split; [lia|]. intros Hf. assert (existsb (Nat.eqb i) sel = true); [|congruence]. apply existsb_exists. exists i. split; auto. apply Nat.eqb_refl.
    - intros [H1 H2]. split; [lia|]. destruct (existsb (Nat.eqb i) sel) eqn:E; auto. apply existsb_exists in E as (j & Hj & Ej). apply Nat.eqb_eq in Ej. subst. contradiction. }
  assert (Hx : exists i, i < n /\ ~ In i sel).
  { destruct (forallb (fun i => existsb (Nat.eqb i) sel) (seq 0 n)) eqn:E.
    - exfalso. rewrite forallb_forall in E. assert (HI : incl (seq 0 n) sel) by (intros i Hi; apply E in Hi; apply existsb_exists in Hi as (j & Hj & Ej); apply Nat.eqb_eq in Ej; now subst).
      pose proof (NoDup_incl_length (seq_NoDup n 0) HI). rewrite seq_length in H. lia.
    - assert (HC : ~ (forall i, In i (seq 0 n) -> existsb (Nat.eqb i) sel = true)) by (intros Hf; apply forallb_forall in Hf; congruence).
      clear -HC. induction n as [|n IH]; [exfalso; apply HC; intros i []|]. destruct (existsb (Nat.eqb n) sel) eqn:E.
      + destruct IH as (i & Hi & Hs); [|exists i; split; auto]. intros Hf. apply HC. intros i Hi. apply in_seq in Hi. destruct (Nat.eq_dec i n) as [->|Hin]; auto. apply Hf, in_seq. lia.
      + exists n. split; [lia|]. intros Hf. assert (existsb (Nat.eqb n) sel = true); [|congruence]. apply existsb_exists. exists n. split; auto. apply Nat.eqb_refl. }
  assert (Hnn : map (fun i => nth i dist 0%Q) nots <> []).
  { destruct Hx as (i & Hi & Hs). assert (In i nots) by (apply Hnots; auto). destruct nots; [destruct H|discriminate]. }
  cbn [maxdist_go]. destruct (S (length sel) <=? length sel) eqn:E; [apply Nat.leb_le in E; lia|].
  destruct (argmaxQ_spec _ Hnn) as (k & -> & Hk & HM). rewrite map_length in Hk. rewrite app_length. cbn [length]. replace (S (length sel) <=? length sel + 1) with true by (symmetry; apply Nat.leb_le; lia).
  set (i := nth k nots 0). assert (Hi : In i nots) by (apply nth_In; auto). apply Hnots in Hi as [Hi1 Hi2].
  assert (Hd : forall j, j < n -> nth j dist 0%Q = qmin_list (map (D j) sel)).
  { intros j Hj. unfold dist. rewrite (nth_indep _ 0%Q (qmin_list (map (D 0) sel))) by (now rewrite map_length, seq_length). rewrite (map_nth (fun i => qmin_list (map (D i) sel))), seq_nth by auto. reflexivity. }
  exists i. split; auto. split; auto. split; auto. intros j Hj Hs. rewrite Forall_forall in HM. specialize (HM (nth j dist 0%Q)).
  rewrite (nth_indep (map (fun i => nth i dist 0%Q) nots) 0%Q (nth 0 dist 0%Q)) in HM by (now rewrite map_length). rewrite (map_nth (fun i => nth i dist 0%Q)) in HM. fold i in HM. rewrite !Hd in HM by auto. apply HM.
  apply in_map_iff. exists j. split; [now apply Hd|]. apply Hnots; auto.
Qed.
Print Assumptions C56_first_partial.

(** what every step does, for a symmetric distance: the chosen index is, among the current candidates, one whose nearest selected point is
    farthest.  The first candidates are the points not selected; afterwards they are the *positions* of those earlier candidates whose index differs
    from the position of the chosen one - the bug *)
Definition nearest (D : nat -> nat -> Q) (sel : list nat) (j : nat) (q : Q) : Prop := (exists s, In s sel /\ (q == D j s)%Q) /\ forall s, In s sel -> (q <= D j s)%Q.
Inductive farthest_first (D : nat -> nat -> Q) : list nat -> list nat -> list nat -> Prop :=
| ff_stop sel c : farthest_first D sel c []
| ff_step sel c k news : k < length c ->
    (forall j qj q, In j c -> nearest D sel j qj -> nearest D sel (nth k c 0) q -> (qj <= q)%Q) ->
    farthest_first D (sel ++ [nth k c 0]) (filter (fun i => negb (nth i c 0 =? k)) (seq 0 (length c))) news ->
    farthest_first D sel c (nth k c 0 :: news).
Lemma qmin_fold l : forall x, (exists i, i < S (length l) /\ fold_left qmin l x = nth i (x :: l) 0%Q) /\ forall y, In y (x :: l) -> (fold_left qmin l x <= y)%Q.
Proof.
  induction l as [|y l IH]; intros x; cbn [fold_left].
  - split; [exists 0; cbn; auto|]. intros y [<-|[]]. lra.
  - destruct (IH (qmin x y)) as [(i & Hi & E) HM]. split.
    + destruct i as [|i]; cbn [nth] in E.
      * rewrite E. unfold qmin. destruct (Qle_bool x y); [exists 0|exists 1]; cbn [nth length]; split; auto; lia.
      * exists (S (S i)). cbn [nth length] in *. split; [lia|auto].
    + assert (Hq : (fold_left qmin l (qmin x y) <= qmin x y)%Q) by (apply HM; cbn; auto).
      assert (Hxy : (qmin x y <= x)%Q /\ (qmin x y <= y)%Q) by (unfold qmin; destruct (Qle_bool x y) eqn:E'; [apply Qle_bool_iff in E'; split; lra|destruct (Qlt_le_dec y x) as [H|H]; [split; lra|apply Qle_bool_iff in H; congruence]]).
      intros z [<-|[<-|Hz]]; try lra. apply HM; cbn; auto.
Qed.
Lemma nearest_min D sel j : sel <> [] -> nearest D sel j (qmin_list (map (D j) sel)).
Proof.
  destruct sel as [|s sel]; [congruence|]. intros _. cbn [map qmin_list]. destruct (qmin_fold (map (D j) sel) (D j s)) as [(i & Hi & E) HM]. split.
  - rewrite map_length in Hi. exists (nth i (s :: sel) 0). split; [apply nth_In; cbn; lia|]. rewrite E. change (D j s :: map (D j) sel) with (map (D j) (s :: sel)).
    rewrite (nth_indep _ 0%Q (D j 0)) by (rewrite map_length; cbn; lia). rewrite map_nth. reflexivity.
  - intros t Ht. apply HM. change (D j s :: map (D j) sel) with (map (D j) (s :: sel)). now apply in_map.
Qed.
Lemma nearest_unique D sel j p q : nearest D sel j p -> nearest D sel j q -> (p == q)%Q.
Proof. intros [(s & Hs & Es) Hp] [(t & Ht & Et) Hq]. pose proof (Hp t Ht). pose proof (Hq s Hs). lra. Qed.
Lemma filter_length_le_ {A} (f : A -> bool) l : length (filter f l) <= length l.
Proof. induction l as [|x l IH]; cbn; auto. destruct (f x); cbn; lia. Qed.
Lemma positions_eq (c : list nat) k : map fst (filter (fun p => negb (snd p =? k)) (combine (seq 0 (length c)) c)) = filter (fun i => negb (nth i c 0 =? k)) (seq 0 (length c)).
Proof.
  assert (HG : forall c pre, map fst (filter (fun p => negb (snd p =? k)) (combine (seq (length pre) (length c)) c)) = filter (fun i => negb (nth i (pre ++ c) 0 =? k)) (seq (length pre) (length c))).
  { clear c. induction c as [|x c IH]; intros pre; auto. cbn [length seq combine filter map fst snd]. rewrite app_nth2, Nat.sub_diag by lia. cbn [nth]. specialize (IH (pre ++ [x])). rewrite app_length in IH. cbn [length] in IH. rewrite Nat.add_1_r, <- app_assoc in IH. cbn [app] in IH.
    destruct (negb (x =? k)); cbn [map fst]; now rewrite IH. }
  apply (HG c []).
Qed.
Theorem C56_steps_partial : forall n_points n_select D selected r, (forall i j, (D i j == D j i)%Q) -> selected <> [] ->
  select_maxdist n_points n_select D selected = Some r ->
  exists news, r = selected ++ news /\ length news = n_select - length selected /\ Forall (fun i => i < n_points) news /\
    farthest_first D selected (filter (fun i => negb (existsb (Nat.eqb i) selected)) (seq 0 n_points)) news.
Proof.
  intros n ns D sel r Hsym Hne. unfold select_maxdist.
  assert (HG : forall fuel dist sel c r, sel <> [] -> (forall j, j < n -> nearest D sel j (nth j dist 0%Q)) -> length dist = n -> Forall (fun i => i < n) c -> length c <= n ->
    maxdist_go fuel n ns D dist sel c = Some r -> exists news, r = sel ++ news /\ length news = ns - length sel /\ Forall (fun i => i < n) news /\ farthest_first D sel c news).
  { clear sel r Hne. induction fuel as [|fuel IH]; intros dist sel c r Hne HD HL HC Hcl E; cbn [maxdist_go] in E; (destruct (ns <=? length sel) eqn:En; [injection E as <-; apply Nat.leb_le in En; exists []; rewrite app_nil_r; repeat split; auto; [cbn; lia|constructor]|]); [discriminate|].
    apply Nat.leb_gt in En. destruct (argmaxQ (map (fun i => nth i dist 0%Q) c)) as [k|] eqn:Ek; [|discriminate].
    assert (Hcn : map (fun i => nth i dist 0%Q) c <> []) by (intros Hf; rewrite Hf in Ek; discriminate).
    destruct (argmaxQ_spec _ Hcn) as (k' & Ek' & Hk & HM). rewrite Ek' in Ek. injection Ek as ->. rewrite map_length in Hk.
    rewrite positions_eq in E. rewrite Forall_forall in HC. assert (Hsn : nth k c 0 < n) by (apply HC, nth_In; auto).
    assert (Hne' : sel ++ [nth k c 0] <> []) by (destruct sel; discriminate).
    apply (IH _ _ _ _ Hne') in E; [destruct E as (news & -> & Hl & Hb & Hff)| | | |].
    - exists (nth k c 0 :: news). rewrite <- app_assoc. split; auto. rewrite app_length in Hl. cbn [length] in *. split; [lia|]. split; [constructor; auto|].
      constructor; auto. intros j qj q Hj Hqj Hq. rewrite Forall_forall in HM. specialize (HM (nth j dist 0%Q) ltac:(apply in_map_iff; exists j; auto)).
      rewrite (nth_indep (map (fun i => nth i dist 0%Q) c) 0%Q (nth 0 dist 0%Q)) in HM by (rewrite map_length; exact Hk). rewrite (map_nth (fun i => nth i dist 0%Q)) in HM.
      rewrite (nearest_unique D sel j qj _ Hqj (HD j (HC j Hj))), (nearest_unique D sel _ q _ Hq (HD _ Hsn)). exact HM.
    - intros j Hj. rewrite (nth_indep _ 0%Q ((fun j => if Qltb_ (D (nth k c 0) j) (nth j dist 0%Q) then D (nth k c 0) j else nth j dist 0%Q) 0)) by (now rewrite map_length, seq_length).
      rewrite (map_nth (fun j => if Qltb_ (D (nth k c 0) j) (nth j dist 0%Q) then D (nth k c 0) j else nth j dist 0%Q)), seq_nth by auto. cbn [Nat.add]. destruct (HD j Hj) as [(s & Hs & Es) Hmin].
      destruct (Qltb_ (D (nth k c 0) j) (nth j dist 0%Q)) eqn:Eq; unfold Qltb_ in Eq.
      + apply negb_true_iff, not_true_iff_false in Eq. rewrite Qle_bool_iff in Eq. split.
        * exists (nth k c 0). split; [apply in_or_app; cbn; auto|apply Hsym].
        * intros t Ht. apply in_app_or in Ht as [Ht|[<-|[]]]; [pose proof (Hmin t Ht); lra|]. rewrite (Hsym (nth k c 0) j). lra.
      + apply negb_false_iff, Qle_bool_iff in Eq. split.
        * exists s. split; [apply in_or_app; auto|auto].
        * intros t Ht. apply in_app_or in Ht as [Ht|[<-|[]]]; auto. rewrite (Hsym j). lra.
    - now rewrite map_length, seq_length.
    - apply Forall_forall. intros i Hi. apply filter_In in Hi as [Hi _]. apply in_seq in Hi.
      lia.
    - etransitivity; [apply filter_length_le_|]. rewrite seq_length. exact Hcl. }
  intros E. apply (HG _ _ _ _ _ Hne) in E; auto.
  - intros j Hj. rewrite (nth_indep _ 0%Q (qmin_list (map (D 0) sel))) by (now rewrite map_length, seq_length). rewrite (map_nth (fun i => qmin_list (map (D i) sel))), seq_nth by auto. now apply nearest_min.
  - now rewrite map_length, seq_length.
  - apply Forall_forall. intros i Hi. apply filter_In in Hi as [Hi _]. apply in_seq in Hi. lia.
  - etransitivity; [apply filter_length_le_|]. now rewrite seq_length.
Qed.
Print Assumptions C56_steps_partial.
Example C56_steps_case : select_maxdist 4 3 (fun i j => Qabs (inject_Z (Z.of_nat i) - inject_Z (Z.of_nat j))) [0] = Some [0; 3; 2].
Proof. vm_compute. reflexivity. Qed.


(** ** C57: incremental lattice *)
(** contract of np.unique(axis=0) *)
Definition unq_ok (unq : list (list nat) -> list (list nat)) : Prop := forall l, NoDup (unq l) /\ forall x, In x (unq l) <-> In x l.
Section Lat.
  Variables (unq : list (list nat) -> list (list nat)) (n : nat).
  Hypothesis HU : unq_ok unq.
  Hypothesis Hn : 2 <= n.
  Definition edge_row (i : nat) (x : list nat) : Prop := exists c, x = map (Nat.mul n) c /\ length c = n /\ list_sum c = i /\ In 0 c.
  Lemma add_at_length k v r : length (add_at k v r) = length r.
  Proof using. try clear Hn HU. revert k. induction r as [|x r IH]; intros [|k]; cbn; auto. Qed.
  Lemma add_at_sum k v r : k < length r -> list_sum (add_at k v r) = list_sum r + v.
  Proof using. try clear Hn HU. revert k. induction r as [|x r IH]; intros [|k] H; cbn in *; try lia. unfold list_sum in *. rewrite IH by lia. lia. Qed.
  Lemma add_at_map k r : add_at k n (map (Nat.mul n) r) = map (Nat.mul n) (add_at k 1 r).
  Proof using n. try clear Hn HU. revert k. induction r as [|x r IH]; intros [|k]; cbn [add_at map]; auto; f_equal; [lia|apply IH]. Qed.
  Lemma mul_inj a b : map (Nat.mul n) a = map (Nat.mul n) b -> a = b.
  Proof using Hn. revert b. induction a as [|x a IH]; intros [|y b] H; try discriminate; auto. cbn [map] in H. injection H as H1 H2. f_equal; [nia|auto]. Qed.
  Lemma zero_mul c : existsb (Nat.eqb 0) (map (Nat.mul n) c) = true <-> In 0 c.
  Proof using Hn.
    rewrite existsb_exists. split.
    - intros (x & Hx & E). apply Nat.eqb_eq in E. subst x. apply in_map_iff in Hx as (y & E & Hy). destruct y; auto. lia.
    - intros H. exists 0. split; auto. apply in_map_iff. exists 0. split; [lia|auto].
  Qed.
  Lemma dec_one c : 0 < list_sum c -> exists k d, k < length d /\ c = add_at k 1 d.
  Proof using.
    try clear Hn HU.
    induction c as [|x c IH]; intros H; [cbn in H; lia|]. destruct x as [|x].
    - destruct IH as (k & d & Hk & ->); [exact H|]. exists (S k), (0 :: d). cbn. split; [lia|auto].
    - exists 0, (x :: c). cbn. split; [lia|]. f_equal. lia.
  Qed.
  Lemma zero_add k d : In 0 (add_at k 1 d) -> In 0 d.
  Proof using. try clear Hn HU. revert k. induction d as [|x d IH]; intros [|k] H; auto; cbn in *; destruct H as [H|H]; auto; try lia. right. eapply IH; eauto. Qed.
  Lemma lattice_edges_spec i edge : (forall x, In x edge <-> edge_row i x) -> NoDup (lattice_edges unq n edge) /\ forall x, In x (lattice_edges unq n edge) <-> edge_row (S i) x.
  Proof using HU Hn.
    intros HE. unfold lattice_edges. destruct (HU (flat_map (fun k => map (add_at k n) edge) (seq 0 n))) as [U1 U2]. split; [now apply NoDup_filter|].
    intros x. rewrite filter_In, U2, in_flat_map. split.
    - intros [(k & Hk & H) Hz]. apply in_seq in Hk. apply in_map_iff in H as (y & <- & Hy). apply HE in Hy as (c & -> & Hl & Hs & H0). rewrite add_at_map in *.
      exists (add_at k 1 c). split; auto. split; [now rewrite add_at_length|]. split; [rewrite add_at_sum by lia; lia|]. now apply zero_mul.
    - intros (c & -> & Hl & Hs & H0). split; [|now apply zero_mul]. destruct (dec_one c) as (k & d & Hk & ->); [lia|]. exists k. rewrite add_at_length in Hl. split; [apply in_seq; lia|].
      apply in_map_iff. exists (map (Nat.mul n) d). split; [apply add_at_map|]. apply HE. exists d. rewrite add_at_sum in Hs by lia. split; auto. split; auto. split; [lia|]. eapply zero_add; eauto.
  Qed.
  Lemma zeros_only c k : length c = k -> list_sum c = 0 -> c = repeat 0 k.
  Proof using. try clear Hn HU. revert k. induction c as [|x c IH]; intros k <- H; [reflexivity|]. cbn in *. unfold list_sum in *. f_equal; [lia|apply IH; auto; lia]. Qed.
  Lemma sum_zeros k : list_sum (repeat 0 k) = 0.
  Proof using. try clear Hn HU. induction k; cbn; auto. Qed.
  (** a row of the lattice: a common offset j plus n times a composition of p - j that contains a zero *)
  Definition lattice_row (p : nat) (x : list nat) : Prop := exists j c, x = map (fun a => j + n * a) c /\ length c = n /\ j + list_sum c = p /\ In 0 c.
  Lemma lattice_spec p : let '(W, e) := lattice unq n p in
    NoDup W /\ NoDup e /\ (forall x, In x e <-> edge_row p x) /\ (forall x, In x W <-> lattice_row p x) /\ S p <= length W.
  Proof using HU Hn.
    assert (Hz : edge_row 0 (repeat 0 n)).
    { exists (repeat 0 n). split; [|split; [apply repeat_length|split; [apply sum_zeros|]]].
      - clear. generalize n at 1 3. intros k. induction k as [|k IH]; cbn [repeat map]; auto. f_equal; [lia|auto].
      - destruct n as [|m]; [lia|]. left; auto. }
    induction p as [|p IH]; cbn [lattice].
    - split; [repeat constructor; auto|]. split; [repeat constructor; auto|]. split; [|split; [|cbn; lia]]; intros x.
      + split; [intros [<-|[]]; exact Hz|]. intros (c & -> & Hl & Hs & _). rewrite (zeros_only c n Hl Hs). left. clear. generalize n at 1 3. intros k. induction k as [|k IH]; cbn [repeat map]; auto. f_equal; [lia|auto].
      + split.
        * intros [<-|[]]. destruct Hz as (c & E & Hl & Hs & H0). exists 0, c. split; [|auto]. exact E.
        * intros (j & c & -> & Hl & Hs & H0). assert (j = 0) by lia. subst j. rewrite (zeros_only c n Hl) by lia. left. clear. generalize n at 1 3. intros k. induction k as [|k IH]; cbn [repeat map]; auto. f_equal; [lia|auto].
    - destruct (lattice unq n p) as [W e]. destruct IH as (I1 & I2 & I3 & I4 & I5). destruct (lattice_edges_spec p e I3) as [E1 E2]. set (e' := lattice_edges unq n e) in *.
      assert (Hmin : forall x, lattice_row p x -> ~ In 0 (map S x)) by (intros x _ Hf; apply in_map_iff in Hf as (y & E & _); discriminate).
      split; [|split; [auto|split; [auto|split]]].
      + assert (HW : NoDup (map (map S) W)) by (apply FinFun.Injective_map_NoDup; auto; intros a; induction a as [|u a IHa]; intros [|v b] E; try discriminate; auto; cbn [map] in E; injection E as -> E; f_equal; auto).
        assert (HD : forall x, In x (map (map S) W) -> ~ In x e').
        { intros x Hx Hf. apply in_map_iff in Hx as (y & <- & Hy). apply E2 in Hf as (c & E & _ & _ & H0). apply I4 in Hy. apply (Hmin y Hy). rewrite E. apply in_map_iff. exists 0. split; [lia|auto]. }
        clear -HW HD E1. induction (map (map S) W) as [|x X IHX]; [exact E1|]. inversion HW; subst. cbn. constructor; [rewrite in_app_iff; intros [Hf|Hf]; [contradiction|apply (HD x); simpl; auto]|apply IHX; auto; intros y Hy; apply HD; simpl; auto].
      + intros x. rewrite in_app_iff, E2. split.
        * intros [H|H].
          -- apply in_map_iff in H as (y & <- & Hy). apply I4 in Hy as (j & c & -> & Hl & Hs & H0). exists (S j), c. split; [now rewrite map_map|]. split; auto. split; [lia|auto].
          -- destruct H as (c & -> & Hl & Hs & H0). exists 0, c. auto.
        * intros (j & c & -> & Hl & Hs & H0). destruct j as [|j]; [right; exists c; auto|]. left. apply in_map_iff. exists (map (fun a => j + n * a) c). split; [now rewrite map_map|]. apply I4. exists j, c. repeat split; auto; lia.
      + rewrite app_length, map_length. assert (Hne : In (map (Nat.mul n) (S p :: repeat 0 (n - 1))) e').
        { apply E2. exists (S p :: repeat 0 (n - 1)). split; auto. split; [cbn; rewrite repeat_length; lia|]. split; [change (list_sum (S p :: repeat 0 (n - 1))) with (S p + list_sum (repeat 0 (n - 1))); rewrite sum_zeros; lia|].
          right. destruct n as [|[|m]]; try lia. left; auto. }
        destruct e'; [destruct Hne|cbn; lia].
  Qed.
End Lat.

(** C57: with p >= 1 partitions in n >= 2 dimensions the incremental lattice consists of pairwise different points of the simplex: exactly those
    whose coordinates are j/(np) plus multiples of 1/p, for a common j, with some coordinate equal to j/(np) *)
Theorem C57_lattice : forall unq n p, unq_ok unq -> 2 <= n -> 1 <= p ->
  Forall (on_simplex n) (incremental_lattice unq p n) /\
  (forall i j, i < length (incremental_lattice unq p n) -> j < length (incremental_lattice unq p n) -> i <> j ->
     ~ same_point (nth i (incremental_lattice unq p n) []) (nth j (incremental_lattice unq p n) [])) /\
  (forall x, In x (incremental_lattice unq p n) <->
     exists j c, length c = n /\ j + list_sum c = p /\ In 0 c /\ x = map (fun a => inject_Z (Z.of_nat (j + n * a)) / inject_Z (Z.of_nat (n * p)))%Q c).
Proof.
  intros unq n p HU Hn Hp. unfold incremental_lattice. pose proof (lattice_spec unq n HU Hn p) as HL. destruct (lattice unq n p) as [W e]. destruct HL as (H1 & _ & _ & H4 & _). cbn [fst].
  change (fun v => inject_Z (Z.of_nat v) / inject_Z (Z.of_nat (n * p)))%Q with (frac (n * p)).
  assert (Hnp : 0 < n * p) by nia.
  assert (Hsum : forall j c, list_sum (map (fun a => j + n * a) c) = length c * j + n * list_sum c).
  { intros j c. induction c as [|a c IH]; [cbn; lia|]. change (list_sum (map ?f (a :: c))) with (f a + list_sum (map f c)). change (list_sum (a :: c)) with (a + list_sum c). cbn [length]. rewrite IH. nia. }
  split; [|split].
  - apply Forall_map, Forall_forall. intros x Hx. apply H4 in Hx as (j & c & -> & Hl & Hs & H0). specialize (Hsum j c). split; [rewrite map_length, map_length; auto|]. split.
    + apply Forall_map, Forall_forall. intros v Hv. apply frac_range; auto. apply sum_ge_In in Hv. nia.
    + rewrite qsum_frac by auto. rewrite Hsum, Hl. replace (n * j + n * list_sum c) with (n * p) by nia. apply frac_same; auto.
  - intros i j Hi Hj Hij HS. rewrite map_length in Hi, Hj. change (@nil Q) with (map (frac (n * p)) []) in HS. rewrite !map_nth in HS. apply Hij. apply (proj1 (NoDup_nth W []) H1); auto.
    revert HS. generalize (nth i W []) (nth j W []). intros a b. revert b. induction a as [|u a IH]; intros [|v b] HS; [reflexivity|inversion HS|inversion HS|].
    unfold same_point in HS. cbn [map] in HS. inversion HS as [|? ? ? ? E1 E2]; subst. apply frac_inj in E1; auto. apply IH in E2. congruence.
  - intros x. rewrite in_map_iff. split.
    + intros (y & <- & Hy). apply H4 in Hy as (j & c & -> & Hl & Hs & H0). exists j, c. rewrite map_map. auto.
    + intros (j & c & Hl & Hs & H0 & ->). exists (map (fun a => j + n * a) c). rewrite map_map. split; auto. apply H4. exists j, c. auto.
Qed.
Print Assumptions C57_lattice.

(** C57: asking for a number of points: accepted exactly if some number of partitions gives that many (the first such one is taken) *)
Theorem C57_n_points : forall unq n np, unq_ok unq -> 2 <= n ->
  (forall i, check_go unq np n np 0 = Some i -> length (incremental_lattice unq i n) = np) /\
  (check_go unq np n np 0 = None -> forall i, length (incremental_lattice unq i n) <> np).
Proof.
  intros unq n np HU Hn. assert (HM : forall i, length (incremental_lattice unq i n) = length (fst (lattice unq n i))) by (intros; unfold incremental_lattice; apply map_length).
  assert (HS : forall i, length (fst (lattice unq n i)) < length (fst (lattice unq n (S i)))).
  { intros i. pose proof (lattice_spec unq n HU Hn (S i)) as H. cbn [lattice] in *. destruct (lattice unq n i) as [W e]. cbn [fst]. destruct H as (_ & _ & HE & _ & _). rewrite app_length, map_length.
    assert (Hne : In (map (Nat.mul n) (S i :: repeat 0 (n - 1))) (lattice_edges unq n e)).
    { apply HE. exists (S i :: repeat 0 (n - 1)). split; auto. split; [cbn; rewrite repeat_length; lia|]. split; [change (list_sum (S i :: repeat 0 (n - 1))) with (S i + list_sum (repeat 0 (n - 1))); rewrite sum_zeros; lia|].
      right. destruct n as [|[|m]]; try lia. left; auto. }
    destruct (lattice_edges unq n e); [destruct Hne|cbn; lia]. }
  assert (HG : forall i, S i <= length (fst (lattice unq n i))) by (intros i; pose proof (lattice_spec unq n HU Hn i) as H; destruct (lattice unq n i); apply H).
  assert (HMo : forall i j, i < j -> length (fst (lattice unq n i)) < length (fst (lattice unq n j))) by (intros i j H; induction H as [|j H IH]; [apply HS|]; specialize (HS j); lia).
  assert (HC : forall fuel k, np <= fuel + k -> (forall i, i < k -> length (fst (lattice unq n i)) < np) ->
    (forall i, check_go unq fuel n np k = Some i -> length (fst (lattice unq n i)) = np) /\ (check_go unq fuel n np k = None -> forall i, length (fst (lattice unq n i)) <> np)).
  { induction fuel as [|fuel IH]; intros k Hf Hk.
    - cbn [check_go]. specialize (HG k). replace (np <=? length (fst (lattice unq n k))) with true by (symmetry; apply Nat.leb_le; lia).
      destruct (length (fst (lattice unq n k)) =? np) eqn:E; (split; [intros i H; try discriminate|intros H; try discriminate]).
      + injection H as <-. now apply Nat.eqb_eq.
      + apply Nat.eqb_neq in E. intros i Hi. destruct (Nat.lt_trichotomy i k) as [H'|[->|H']]; [specialize (Hk i H'); lia|lia|specialize (HMo k i H'); lia].
    - cbn [check_go]. destruct (np <=? length (fst (lattice unq n k))) eqn:EL.
      + apply Nat.leb_le in EL. destruct (length (fst (lattice unq n k)) =? np) eqn:E; (split; [intros i H; try discriminate|intros H; try discriminate]).
        * injection H as <-. now apply Nat.eqb_eq.
        * apply Nat.eqb_neq in E. intros i Hi. destruct (Nat.lt_trichotomy i k) as [H'|[->|H']]; [specialize (Hk i H'); lia|lia|specialize (HMo k i H'); lia].
      + apply Nat.leb_gt in EL. apply IH; [lia|]. intros i Hi. destruct (Nat.eq_dec i k) as [->|Hne]; auto. apply Hk. lia. }
  destruct (HC np 0 ltac:(lia) ltac:(intros; lia)) as [C1 C2]. split; [intros i Hi; rewrite HM; auto|intros H i; rewrite HM; auto].
Qed.
Print Assumptions C57_n_points.

(** ** C58: projection onto the simplex *)
Lemma Qltb__iff a b : Qltb_ a b = true <-> (a < b)%Q.
Proof. unfold Qltb_. rewrite negb_true_iff. destruct (Qle_bool b a) eqn:E; split; intros H; try discriminate; auto. - apply Qle_bool_iff in E. lra. - destruct (Qlt_le_dec a b) as [H'|H']; auto. apply Qle_bool_iff in H'. congruence. Qed.
Lemma Qltb__false a b : Qltb_ a b = false <-> (b <= a)%Q.
Proof. unfold Qltb_. rewrite negb_false_iff. apply Qle_bool_iff. Qed.
Definition npos (x : list Q) : nat := length (filter (Qltb_ 0) x).
Lemma sub_sum x t : Forall (fun v => 0 <= v)%Q x ->
  (fold_right Qplus 0 (map (fun v => if Qltb_ 0 v then (v - t)%Q else v) x) == fold_right Qplus 0 (filter (Qltb_ 0) x) - inject_Z (Z.of_nat (npos x)) * t)%Q.
Proof.
  unfold npos. induction x as [|v x IH]; intros H; cbn [map fold_right filter]; [cbn; ring|]. inversion H; subst. rewrite (IH H3). destruct (Qltb_ 0 v) eqn:E.
  - cbn [fold_right length]. rewrite Nat2Z.inj_succ. unfold Z.succ. rewrite inject_Z_plus. ring.
  - apply Qltb__false in E. assert (v == 0)%Q by lra. rewrite H0. ring.
Qed.
Lemma step_spec x : (exists v, In v x /\ 0 < v)%Q -> exists y, step_simplex x = Some y /\ length y = length x /\ (fold_right Qplus 0 y == 1)%Q /\
  (npos y <= npos x)%nat /\ (forallb (Qle_bool 0) y = false -> npos y < npos x).
Proof.
  intros (v & Hv & Hp). unfold step_simplex. set (c := clip0 x).
  assert (Hc : Forall (fun v => 0 <= v)%Q c) by (unfold c, clip0; apply Forall_map, Forall_forall; intros u _; destruct (Qltb_ u 0) eqn:E; [lra|now apply Qltb__false]).
  assert (Hcx : filter (Qltb_ 0) c = filter (Qltb_ 0) x).
  { unfold c, clip0. clear. induction x as [|u x IH]; cbn [map filter]; auto. rewrite IH. destruct (Qltb_ u 0) eqn:E; auto. apply Qltb__iff in E. replace (Qltb_ 0 u) with false by (symmetry; apply Qltb__false; lra). reflexivity. }
  assert (Hne : filter (Qltb_ 0) c <> []).
  { rewrite Hcx. assert (In v (filter (Qltb_ 0) x)) by (apply filter_In; split; auto; now apply Qltb__iff). intros E. rewrite E in H. destruct H. }
  destruct (filter (Qltb_ 0) c) as [|s0 sub] eqn:ES; [congruence|]. set (S := s0 :: sub) in *. set (t := ((fold_right Qplus 0 S - 1) / inject_Z (Z.of_nat (length S)))%Q).
  eexists. split; [reflexivity|]. split; [rewrite map_length; unfold c, clip0; apply map_length|].
  assert (HL : npos x = length S) by (unfold npos; now rewrite <- Hcx).
  split; [|].
  - rewrite sub_sum by auto. unfold npos. rewrite ES. fold S. unfold t. field. unfold S. cbn [length]. unfold Qeq; cbn; lia.
  - (* the positive entries of y are among those of c *)
    assert (HG : forall l, Forall (fun v => 0 <= v)%Q l -> let y := map (fun v => if Qltb_ 0 v then (v - t)%Q else v) l in
      npos y <= npos l /\ (forallb (Qle_bool 0) y = false -> npos y < npos l)).
    { clear. unfold npos. induction l as [|u l IH]; intros H; cbn [map filter forallb]; [split; [lia|discriminate]|]. inversion H; subst. destruct (IH H3) as [I1 I2].
      destruct (Qltb_ 0 u) eqn:E.
      - destruct (Qltb_ 0 (u - t)) eqn:E2; cbn [length].
        + split; [lia|]. apply Qltb__iff in E2. replace (Qle_bool 0 (u - t)) with true by (symmetry; apply Qle_bool_iff; lra). cbn [andb]. intros Hf. apply I2 in Hf. lia.
        + split; lia.
      - rewrite E. split; [auto|]. replace (Qle_bool 0 u) with true by (symmetry; apply Qle_bool_iff; lra). cbn [andb]. auto. }
    destruct (HG c Hc) as [G1 G2]. assert (Hnc : npos c = npos x) by (unfold npos; now rewrite ES, <- Hcx). rewrite Hnc in *. split; auto.
Qed.
Lemma pos_of_sum y : (fold_right Qplus 0 y == 1)%Q -> exists v, In v y /\ (0 < v)%Q.
Proof.
  intros H. assert (HC : existsb (Qltb_ 0) y = true).
  { destruct (existsb (Qltb_ 0) y) eqn:E; auto. exfalso. assert (HF : Forall (fun v => v <= 0)%Q y).
    { apply Forall_forall. intros v Hv. destruct (Qltb_ 0 v) eqn:Ev; [|now apply Qltb__false]. assert (existsb (Qltb_ 0) y = true) by (apply existsb_exists; eauto). congruence. }
    assert (fold_right Qplus 0 y <= 0)%Q; [|lra]. clear -HF. induction HF; cbn [fold_right]; lra. }
  apply existsb_exists in HC as (v & Hv & E). exists v. split; auto. now apply Qltb__iff.
Qed.
Lemma project_row_spec fuel : forall x, (exists v, In v x /\ 0 < v)%Q -> npos x <= fuel -> exists y, project_row fuel x = Some y /\ on_simplex (length x) y.
Proof.
  induction fuel as [|fuel IH]; intros x Hx Hf.
  - exfalso. destruct Hx as (v & Hv & Hp). assert (In v (filter (Qltb_ 0) x)) by (apply filter_In; split; auto; now apply Qltb__iff). unfold npos in Hf. destruct (filter (Qltb_ 0) x); [destruct H|cbn in Hf; lia].
  - cbn [project_row]. destruct (step_spec x Hx) as (y & -> & Hl & Hs & H1 & H2). destruct (forallb (Qle_bool 0) y) eqn:E.
    + exists y. split; auto. split; auto. split; auto. rewrite forallb_forall in E. assert (HN : Forall (fun v => 0 <= v)%Q y) by (apply Forall_forall; intros v Hv; apply Qle_bool_iff, E; auto).
      destruct (qsum_ge y HN) as [_ HB]. rewrite Forall_forall in *. intros v Hv. split; [apply HN; auto|]. specialize (HB v Hv). cbn beta in HB. lra.
    + destruct (IH y) as (z & Hz & Hz2); [now apply pos_of_sum|specialize (H2 eq_refl); lia|]. exists z. rewrite <- Hl. auto.
Qed.
(** C58: the loop ends for every row that has a positive entry, and the result is a point of the simplex; rows without a negative entry stay *)
Theorem C58_project : forall X i, i < length X -> let x := nth i X [] in
  ((exists v, In v x /\ v < 0)%Q -> (exists v, In v x /\ 0 < v)%Q -> exists y, nth i (project_simplex X) None = Some y /\ on_simplex (length x) y) /\
  (Forall (fun v => 0 <= v)%Q x -> nth i (project_simplex X) None = Some x).
Proof.
  intros X i Hi x. unfold project_simplex. set (f := fun x => if existsb (fun v => Qltb_ v 0) x then project_row (S (length x)) x else Some x).
  assert (HE : nth i (map f X) None = f x) by (rewrite (nth_indep _ None (f [])) by (now rewrite map_length); apply map_nth). rewrite HE. unfold f. split.
  - intros (v & Hv & Hn) Hp. replace (existsb (fun v => Qltb_ v 0) x) with true by (symmetry; apply existsb_exists; exists v; split; auto; now apply Qltb__iff).
    apply project_row_spec; auto. unfold npos. assert (forall (g : Q -> bool) l, length (filter g l) <= length l) by (intros g l; induction l as [|a l IHl]; cbn; [lia|destruct (g a); cbn; lia]). specialize (H (Qltb_ 0) x). lia.
  - intros H. destruct (existsb (fun v => Qltb_ v 0) x) eqn:E; auto. exfalso. apply existsb_exists in E as (v & Hv & E). apply Qltb__iff in E. rewrite Forall_forall in H. specialize (H v Hv). cbn beta in H. lra.
Qed.
Print Assumptions C58_project.

(** cases *)
Definition unq_demo (l : list (list nat)) : list (list nat) := nodup (list_eq_dec Nat.eq_dec) l.
Example C57_case : unq_ok unq_demo /\ length (incremental_lattice unq_demo 3 3) = 19 /\ check_go unq_demo 19 3 19 0 = Some 3 /\ check_go unq_demo 18 3 18 0 = None.
Proof. split; [|vm_compute; auto]. intros l. split; [apply NoDup_nodup|]. intros x. apply nodup_In. Qed.
Example C58_case : project_simplex [[3 # 2; - (1 # 2); 0]; [1 # 3; 1 # 3; 1 # 3]; [1; 1; -(1#1)]]%Q <> [] /\
  match nth 0 (project_simplex [[3 # 2; - (1 # 2); 0]]%Q) None with Some y => Forall2 Qeq y [1; 0; 0]%Q | None => False end /\
  match nth 0 (project_simplex [[9 # 10; 3 # 10; -(2 # 10)]]%Q) None with Some y => Forall2 Qeq y [8 # 10; 2 # 10; 0]%Q | None => False end.
Proof. vm_compute. split; [discriminate|]. split; repeat constructor. Qed.
