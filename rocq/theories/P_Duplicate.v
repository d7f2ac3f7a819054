(** * Proofs for M_Duplicate *)
From Coq Require Import List Arith Bool ZArith Lia Sorted.
From Verif Require Import ListAux M_Duplicate S_Duplicate.
Import ListNotations.
Local Open Scope nat_scope.

Lemma SS_seq a n : StronglySorted lt (seq a n).
Proof.
  revert a; induction n; intro a; simpl; constructor; auto.
  apply Forall_forall; intros x H; apply in_seq in H; lia.
Qed.
Lemma SS_filter {A} (R : A -> A -> Prop) p l : StronglySorted R l -> StronglySorted R (filter p l).
Proof.
  induction 1; simpl; [constructor|]. destruct (p a); auto. constructor; auto.
  rewrite Forall_forall in *. intros x Hx; apply filter_In in Hx; apply H0; tauto.
Qed.

Section Sel.
  Context {A : Type}.
  Variable d : A.

  Lemma keep_not_where mask (pop : list A) : length mask = length pop ->
    keep_not mask pop = map (fun i => nth i pop d) (where_ (fun i => negb (nth i mask false)) (length pop)).
  Proof.
    unfold where_. revert pop; induction mask as [|m mask IH]; intros [|x pop] H; simpl in *; try discriminate; auto.
    rewrite <- seq_shift.
    assert (E : forall (f : nat -> bool) l, filter f (map S l) = map S (filter (fun i => f (S i)) l)).
    { clear; intros f l; induction l; simpl; auto. destruct (f (S a)); simpl; rewrite IHl; auto. }
    rewrite E. destruct m; simpl; rewrite map_map; rewrite IH by lia; auto.
  Qed.
  Lemma keep_not_map (f : A -> bool) pop : keep_not (map f pop) pop = filter (fun x => negb (f x)) pop.
  Proof. induction pop; simpl; auto. destruct (f a); simpl; rewrite IHpop; auto. Qed.

  Lemma selects_where (pop : list A) p (P : nat -> Prop) :
    (forall i, i < length pop -> (p i = true <-> P i)) ->
    selects d pop (map (fun i => nth i pop d) (where_ p (length pop))) P.
  Proof.
    intros H. exists (where_ p (length pop)). repeat split; auto.
    - apply SS_filter, SS_seq.
    - apply In_where in H0; tauto.
    - apply In_where in H0. destruct H0; apply H; auto.
    - intros [Hi HP]. apply In_where; split; auto. apply H; auto.
  Qed.
  Lemma selects_filter (pop res : list A) P g :
    selects d pop res P -> selects d pop (filter g res) (fun i => P i /\ g (nth i pop d) = true).
  Proof.
    intros (I & HS & HI & ->). exists (filter (fun i => g (nth i pop d)) I). repeat split.
    - apply SS_filter; auto.
    - apply filter_In in H; apply HI; tauto.
    - apply filter_In in H; apply HI; tauto.
    - apply filter_In in H; tauto.
    - intros (H1 & H2 & H3). apply filter_In; split; auto. apply HI; auto.
    - clear. induction I; simpl; auto. destruct (g (nth a pop d)); simpl; rewrite IHI; auto.
  Qed.
  Lemma selects_ext (pop res : list A) P Q :
    selects d pop res P -> (forall i, i < length pop -> (P i <-> Q i)) -> selects d pop res Q.
  Proof.
    intros (I & HS & HI & ->) H. exists I; repeat split; auto.
    - apply HI in H0; tauto.
    - apply HI in H0; apply H; tauto.
    - intros [H1 H2]; apply HI; split; auto; apply H; auto.
  Qed.
  Lemma selects_all (pop : list A) : selects d pop pop (fun _ => True).
  Proof.
    exists (seq 0 (length pop)); repeat split; auto using SS_seq.
    - apply in_seq in H; lia.
    - intros [H _]; apply in_seq; lia.
    - symmetry; apply gather_seq.
  Qed.
End Sel.

Lemma existsb_seq_map {A} (d : A) (f : A -> bool) o :
  existsb (fun j => f (nth j o d)) (seq 0 (length o)) = existsb f o.
Proof.
  apply eq_iff_eq_true. rewrite !existsb_exists. split.
  - intros (j & Hj & H). apply in_seq in Hj. exists (nth j o d); split; auto. apply nth_In; lia.
  - intros (x & Hx & H). apply (In_nth _ _ d) in Hx as (j & Hj & <-). exists j; split; auto. apply in_seq; lia.
Qed.
Lemma map_seq_nth {A B} (d : A) (f : A -> B) l : map (fun i => f (nth i l d)) (seq 0 (length l)) = map f l.
Proof. rewrite <- (map_map (fun i => nth i l d) f). f_equal. apply gather_seq. Qed.

Section Dup.
  Context {A : Type}.
  Variable d : A.
  Variable close : A -> A -> bool.

  Lemma default_other pop o : default_dup d close pop (Some o) = map (fun x => existsb (close x) o) pop.
  Proof.
    unfold default_dup. rewrite <- (map_seq_nth d (fun x => existsb (close x) o)).
    apply map_ext; intro i. apply (existsb_seq_map d (close (nth i pop d))).
  Qed.
  Lemma elementwise_other pop o : elementwise_dup d close pop (Some o) = map (fun x => existsb (close x) o) pop.
  Proof. apply default_other. Qed.

  Lemma dup_args_pointwise strat pop args :
    (forall pop o, strat pop (Some o) = map (fun x => existsb (close x) o) pop) ->
    dup_args strat pop args = filter (fun x => negb (existsb (close x) (concat args))) pop.
  Proof.
    intros Hs. revert pop; induction args as [|a args IH]; intros pop; simpl.
    - induction pop; simpl; auto. f_equal; auto.
    - destruct (0 <? length a) eqn:E.
      + destruct (length pop =? 0) eqn:E2.
        { apply Nat.eqb_eq, length_zero_iff_nil in E2; subst; auto. }
        rewrite Hs, keep_not_map, IH. clear.
        induction pop as [|x pop IHp]; simpl; auto. rewrite existsb_app.
        destruct (existsb (close x) a); simpl; auto. destruct (existsb (close x) (concat args)); simpl; rewrite IHp; auto.
      + destruct a; simpl in *; try discriminate. apply IH.
  Qed.

  Lemma dup_do_selects strat pop args (to_itself : bool) P :
    (forall pop o, strat pop (Some o) = map (fun x => existsb (close x) o) pop) ->
    (forall pop, length (strat pop None) = length pop) ->
    (forall i, i < length pop -> (nth i (strat pop None) false = false <-> P i)) ->
    selects d pop (dup_do strat pop args to_itself)
      (fun i => (to_itself = true -> P i) /\ forall r, In r (concat args) -> close (nth i pop d) r = false).
  Proof.
    intros Ho Hl Hn. unfold dup_do.
    destruct (length pop =? 0) eqn:E.
    { apply Nat.eqb_eq, length_zero_iff_nil in E; subst. eapply selects_ext; [apply selects_all|]. simpl; intros; lia. }
    rewrite dup_args_pointwise by auto.
    eapply selects_ext with (P := fun i => (to_itself = true -> P i) /\ _).
    - apply selects_filter with (P := fun i => to_itself = true -> P i). destruct to_itself.
      + rewrite (keep_not_where d) by auto. apply selects_where. intros i Hi.
        rewrite negb_true_iff, Hn by auto. split; auto.
      + eapply selects_ext; [apply selects_all|]. simpl; intros; split; auto; intros; discriminate.
    - intros i Hi. cbv beta. apply and_iff_compat_l. rewrite negb_true_iff. split.
      + intros H r Hr. destruct (close (nth i pop d) r) eqn:E2; auto. rewrite <- H. symmetry. apply existsb_exists; eauto.
      + intros H. destruct (existsb (close (nth i pop d)) (concat args)) eqn:E2; auto.
        apply existsb_exists in E2 as (r & Hr & E2). rewrite (H r Hr) in E2; discriminate.
  Qed.

  Lemma nth_map_seq {B} (f : nat -> B) n i e : i < n -> nth i (map f (seq 0 n)) e = f i.
  Proof.
    intros H. rewrite (nth_indep _ e (f 0)) by (rewrite map_length, seq_length; auto).
    rewrite map_nth, seq_nth; auto.
  Qed.

  Lemma default_self pop i : i < length pop ->
    (nth i (default_dup d close pop None) false = false <-> forall j, j < i -> close (nth i pop d) (nth j pop d) = false).
  Proof.
    intros Hi. unfold default_dup. rewrite nth_map_seq by auto. split.
    - intros H j Hj. destruct (close (nth i pop d) (nth j pop d)) eqn:E; auto.
      rewrite <- H; symmetry; apply existsb_exists. exists j; split; [apply in_seq; lia|].
      rewrite E, andb_true_r. apply Nat.ltb_lt; auto.
    - intros H. destruct (existsb _ _) eqn:E; auto. apply existsb_exists in E as (j & Hj & E).
      apply andb_true_iff in E as [E1 E2]. apply Nat.ltb_lt in E1. rewrite H in E2; auto; discriminate.
  Qed.
  Lemma elementwise_self pop i : i < length pop ->
    (nth i (elementwise_dup d close pop None) false = false <->
     forall j, i < j < length pop -> close (nth i pop d) (nth j pop d) = false).
  Proof.
    intros Hi. unfold elementwise_dup. rewrite nth_map_seq by auto. split.
    - intros H j Hj. destruct (close (nth i pop d) (nth j pop d)) eqn:E; auto.
      rewrite <- H; symmetry; apply existsb_exists. exists j; split; [apply in_seq; lia|]; auto.
    - intros H. destruct (existsb _ _) eqn:E; auto. apply existsb_exists in E as (j & Hj & E).
      apply in_seq in Hj. rewrite H in E by lia; discriminate.
  Qed.
  Lemma default_length pop : length (default_dup d close pop None) = length pop.
  Proof. unfold default_dup; rewrite map_length, seq_length; auto. Qed.
  Lemma elementwise_length pop : length (elementwise_dup d close pop None) = length pop.
  Proof. unfold elementwise_dup; rewrite map_length, seq_length; auto. Qed.
End Dup.

(** ** hashing *)
Section Hash.
  Context {A : Type}.
  Variable d : A.
  Variable key : A -> Z.
  Definition same a b := Z.eqb (key a) (key b).

  Lemma mem_z_In h H : mem_z h H = true <-> In h H.
  Proof.
    unfold mem_z; rewrite existsb_exists. split.
    - intros (x & Hx & E); apply Z.eqb_eq in E; subst; auto.
    - intros HI; exists h; split; auto. apply Z.eqb_refl.
  Qed.
  Lemma hash_scan_spec pop H i : i < length pop ->
    (nth i (hash_scan key H pop) false = false <->
     ~ In (key (nth i pop d)) H /\ forall j, j < i -> key (nth i pop d) <> key (nth j pop d)).
  Proof.
    revert H i; induction pop as [|x pop IH]; intros H i Hi; simpl in Hi; [lia|]. simpl.
    destruct (mem_z (key x) H) eqn:E.
    - apply mem_z_In in E. destruct i; simpl.
      + split; [discriminate|]. intros [Hn _]; contradiction.
      + rewrite IH by lia. split; intros [H1 H2]; split; auto.
        * intros [|j] Hj; [intro E2; rewrite E2 in H1; contradiction|apply H2; lia].
        * intros j Hj. apply (H2 (S j)); lia.
    - assert (~ In (key x) H) by (rewrite <- mem_z_In, E; discriminate).
      destruct i; simpl.
      + split; auto. intros _; split; auto. intros; lia.
      + rewrite IH by lia. simpl. split; intros [H1 H2]; split; auto.
        * intros [|j] Hj; [intro E2; apply H1; auto|apply H2; lia].
        * intros [E2|E2]; auto. apply (H2 0); [lia|auto].
        * intros j Hj. apply (H2 (S j)); lia.
  Qed.
  Lemma hash_scan_length pop H : length (hash_scan key H pop) = length pop.
  Proof. revert H; induction pop; intros; simpl; auto. destruct (mem_z _ _); simpl; rewrite IHpop; auto. Qed.

  (** selection as a filter on positions *)
  Lemma hash_step pop o :
    selects d pop (keep_not (hash_dup key pop o) pop)
      (fun i => (forall r, In r (match o with Some o => o | None => [] end) -> same (nth i pop d) r = false)
                /\ forall j, j < i -> same (nth i pop d) (nth j pop d) = false).
  Proof.
    unfold hash_dup. rewrite (keep_not_where d) by apply hash_scan_length. apply selects_where.
    intros i Hi. rewrite negb_true_iff, hash_scan_spec by auto. unfold same.
    apply Morphisms_Prop.and_iff_morphism; [|].
    - destruct o as [o|]; simpl; [rewrite <- in_rev|].
      + split.
        * intros H r Hr. apply Z.eqb_neq. intro E; apply H. rewrite E. apply in_map; auto.
        * intros H HI. apply in_map_iff in HI as (r & E & Hr). specialize (H r Hr). apply Z.eqb_neq in H. congruence.
      + split; auto; intros _ r [].
    - split; intros H j Hj; [apply Z.eqb_neq|apply Z.eqb_neq]; auto.
  Qed.

  Lemma hash_scan_distinct pop : forall H, NoDup (map key pop) ->
    keep_not (hash_scan key H pop) pop = filter (fun x => negb (mem_z (key x) H)) pop.
  Proof.
    induction pop as [|x pop IH]; intros H HN; simpl; auto. inversion HN; subst.
    destruct (mem_z (key x) H) eqn:E; simpl; [apply IH; auto|]. f_equal. rewrite IH by auto.
    apply filter_ext_in. intros a Ha. simpl. unfold mem_z; simpl.
    destruct (Z.eqb_spec (key a) (key x)); auto. exfalso; apply H2. rewrite <- e. apply in_map; auto.
  Qed.
  Lemma NoDup_map_filter p (l : list A) : NoDup (map key l) -> NoDup (map key (filter p l)).
  Proof.
    induction l; simpl; intros H; auto. inversion H; subst. destruct (p a); simpl; auto. constructor; auto.
    intro HI; apply H2. apply in_map_iff in HI as (y & E & Hy). apply filter_In in Hy. rewrite <- E; apply in_map; tauto.
  Qed.
  Lemma hash_args pop args : NoDup (map key pop) ->
    dup_args (hash_dup key) pop args = filter (fun x => negb (existsb (same x) (concat args))) pop.
  Proof.
    revert pop; induction args as [|a args IH]; intros pop HN; simpl.
    - clear; induction pop; simpl; auto. f_equal; auto.
    - destruct (0 <? length a) eqn:E.
      + destruct (length pop =? 0) eqn:E2.
        { apply Nat.eqb_eq, length_zero_iff_nil in E2; subst; auto. }
        unfold hash_dup at 2. rewrite hash_scan_distinct by auto. rewrite IH by (apply NoDup_map_filter; auto).
        clear. assert (Hm : forall x, mem_z (key x) (rev (map key a)) = existsb (same x) a).
        { intro x. apply eq_iff_eq_true. rewrite mem_z_In, <- in_rev, in_map_iff, existsb_exists. unfold same.
          split; intros (y & H1 & H2); exists y; rewrite ?Z.eqb_eq in *; auto. }
        induction pop as [|x pop IHp]; simpl; auto. rewrite Hm, existsb_app.
        destruct (existsb (same x) a); simpl; auto. destruct (existsb (same x) (concat args)); simpl; rewrite IHp; auto.
      + destruct a; simpl in *; try discriminate. apply IH; auto.
  Qed.
  Lemma selects_first_NoDup pop res :
    selects d pop res (fun i => forall j, j < i -> same (nth i pop d) (nth j pop d) = false) -> NoDup (map key res).
  Proof.
    intros (I & HS & HI & ->). rewrite map_map. clear -HS HI.
    assert (H : forall i, In i I -> forall j, j < i -> key (nth i pop d) <> key (nth j pop d)).
    { intros i Hi j Hj. apply HI in Hi as [_ Hi]. apply Z.eqb_neq. apply (Hi j Hj). }
    clear HI. induction HS; simpl; constructor; auto.
    - intro HI. apply in_map_iff in HI as (b & E & Hb). rewrite Forall_forall in H0.
      apply (H b (or_intror Hb) a (H0 b Hb)); auto.
    - apply IHHS. intros; apply H; simpl; auto.
  Qed.
  Lemma hash_do_selects pop args :
    selects d pop (dup_do (hash_dup key) pop args true)
      (fun i => (forall j, j < i -> same (nth i pop d) (nth j pop d) = false) /\ forall r, In r (concat args) -> same (nth i pop d) r = false).
  Proof.
    unfold dup_do. destruct (length pop =? 0) eqn:E.
    { apply Nat.eqb_eq, length_zero_iff_nil in E; subst. eapply selects_ext; [apply selects_all|]. simpl; intros; lia. }
    assert (H1 : selects d pop (keep_not (hash_dup key pop None) pop)
                   (fun i => forall j, j < i -> same (nth i pop d) (nth j pop d) = false)).
    { eapply selects_ext; [apply hash_step|]. intros; simpl. split; [tauto|]. intro; split; auto; intros r []. }
    rewrite hash_args by (eapply selects_first_NoDup; eauto).
    eapply selects_ext; [apply selects_filter; exact H1|]. intros i Hi; cbv beta. apply and_iff_compat_l.
    rewrite negb_true_iff. split.
    - intros H r Hr. destruct (same (nth i pop d) r) eqn:E2; auto. rewrite <- H. symmetry. apply existsb_exists; eauto.
    - intros H. destruct (existsb _ (concat args)) eqn:E2; auto.
      apply existsb_exists in E2 as (r & Hr & E2). rewrite (H r Hr) in E2; discriminate.
  Qed.
End Hash.

(** ** consequences of [selects] *)
Section Cons.
  Context {A : Type}.
  Variable d : A.
  Variable close : A -> A -> bool.
  Lemma SS_lt_nth I p q : StronglySorted lt I -> p < q < length I -> nth p I 0 < nth q I 0.
  Proof. intros; apply (StronglySorted_nth lt); auto; lia. Qed.
  Lemma nth_map_I (pop : list A) I p : p < length I -> nth p (map (fun i => nth i pop d) I) d = nth (nth p I 0) pop d.
  Proof.
    intros H. rewrite (nth_indep _ d (nth 0 pop d)) by (rewrite map_length; auto).
    rewrite (map_nth (fun i => nth i pop d)). auto.
  Qed.
  Lemma first_apart pop res (P : nat -> Prop) :
    selects d pop res P -> (forall i, P i -> forall j, j < i -> close (nth i pop d) (nth j pop d) = false) ->
    pairwise_apart d close res.
  Proof.
    intros (I & HS & HI & ->) H p q Hpq. rewrite map_length in Hpq. rewrite !nth_map_I by lia.
    apply H; [|apply SS_lt_nth; auto]. apply HI. apply nth_In; lia.
  Qed.
  Lemma last_apart pop res (P : nat -> Prop) :
    selects d pop res P -> (forall i, P i -> forall j, i < j < length pop -> close (nth i pop d) (nth j pop d) = false) ->
    pairwise_apart d (fun a b => close b a) res.
  Proof.
    intros (I & HS & HI & ->) H p q Hpq. rewrite map_length in Hpq. rewrite !nth_map_I by lia.
    apply H; [apply HI, nth_In; lia|]. split; [apply SS_lt_nth; auto|].
    assert (In (nth q I 0) I) by (apply nth_In; lia). apply HI in H0; tauto.
  Qed.
  Lemma selects_In pop res P x : selects d pop res P -> In x res -> exists i, i < length pop /\ x = nth i pop d /\ P i.
  Proof.
    intros (I & HS & HI & ->) Hx. apply in_map_iff in Hx as (i & <- & Hi). apply HI in Hi. exists i; tauto.
  Qed.
  Lemma selects_In2 pop res (P : nat -> Prop) i : selects d pop res P -> i < length pop -> P i -> In (nth i pop d) res.
  Proof.
    intros (I & HS & HI & ->) Hi HP. apply in_map_iff. exists i; split; auto. apply HI; auto.
  Qed.
End Cons.

(** ** Infill *)
Section Infill.
  Context {A : Type}.
  Variables (mate : nat -> nat -> list A) (elim : list A -> list A -> list A -> list A).

  Lemma infill_loop_count pop n n_max : forall fuel off k,
    length off <= n -> k + fuel = Nat.max 1 n_max -> (k = 0 \/ k < n_max) ->
    let '(off', r) := infill_loop mate elim fuel n_max pop n off k in
    length off' <= n /\ k <= r <= Nat.max 1 n_max /\ (length off' < n -> r = Nat.max 1 n_max).
  Proof.
    induction fuel as [|fuel IH]; intros off k Hl Hk Hlt; cbn [infill_loop].
    - destruct (length off <? n) eqn:E; [apply Nat.ltb_lt in E|apply Nat.ltb_ge in E]; repeat split; lia.
    - destruct (length off <? n) eqn:E; [apply Nat.ltb_lt in E|apply Nat.ltb_ge in E; repeat split; lia].
      set (new := elim _ pop off).
      set (new' := if n <? length off + length new then firstn (n - length off) new else new).
      assert (Hn : length (off ++ new') <= n).
      { rewrite app_length. unfold new'. destruct (n <? length off + length new) eqn:E2.
        - rewrite firstn_length. lia.
        - apply Nat.ltb_ge in E2; lia. }
      destruct (n_max <=? k + 1) eqn:E3; [apply Nat.leb_le in E3; repeat split; lia|apply Nat.leb_gt in E3].
      specialize (IH (off ++ new') (k + 1) Hn ltac:(lia) ltac:(lia)).
      destruct (infill_loop _ _ _ _ _ _ _ _) as [off' r]. destruct IH as (H1 & H2 & H3). repeat split; auto; lia.
  Qed.

  Lemma firstn_In {B} (x : B) k l : In x (firstn k l) -> In x l.
  Proof. revert l; induction k; intros [|y l]; simpl; auto; try tauto. intros [H|H]; auto. Qed.

  (** an invariant kept by appending a prefix of an eliminated batch is kept by the loop *)
  Lemma infill_loop_inv (Inv : list A -> Prop) pop n n_max :
    (forall r k off m, Inv off -> k > 0 -> Inv (off ++ firstn m (elim (mate r k) pop off))) ->
    forall fuel off k, Inv off -> Inv (fst (infill_loop mate elim fuel n_max pop n off k)).
  Proof.
    intros HI. induction fuel as [|fuel IH]; intros off k Ho; simpl.
    - destruct (length off <? n); auto.
    - destruct (length off <? n) eqn:E; auto. apply Nat.ltb_lt in E.
      set (new := elim _ pop off).
      set (new' := if n <? length off + length new then firstn (n - length off) new else new).
      assert (Inv (off ++ new')).
      { unfold new'. destruct (n <? _); [apply HI; auto; lia|].
        rewrite <- (firstn_all new). apply HI; auto; lia. }
      destruct (n_max <=? k + 1); auto.
  Qed.

  Lemma pairwise_apart_app d close l m :
    @pairwise_apart A d close l -> pairwise_apart d close m ->
    (forall x y, In x m -> In y l -> close x y = false) -> pairwise_apart d close (l ++ m).
  Proof.
    intros Hl Hm Hx p q Hpq. rewrite app_length in Hpq.
    destruct (Nat.lt_ge_cases q (length l)).
    - rewrite !app_nth1 by lia. apply Hl; lia.
    - rewrite (app_nth2 _ _ d (n := q)) by lia. destruct (Nat.lt_ge_cases p (length l)).
      + rewrite app_nth1 by lia. apply Hx; apply nth_In; lia.
      + rewrite app_nth2 by lia. apply Hm; lia.
  Qed.
  Lemma nth_firstn_lt (l : list A) k i d : i < k -> nth i (firstn k l) d = nth i l d.
  Proof. revert l i; induction k; intros l i H; [lia|]. destruct l; [destruct i; auto|]. destruct i; simpl; auto. apply IHk; lia. Qed.
  Lemma pairwise_apart_firstn d close l k : @pairwise_apart A d close l -> pairwise_apart d close (firstn k l).
  Proof.
    intros H p q Hpq. rewrite firstn_length in Hpq. rewrite !nth_firstn_lt by lia. apply H; lia.
  Qed.

  Lemma infill_apart d close pop n n_max :
    (forall new off, pairwise_apart d close (elim new pop off) /\
                     forall x, In x (elim new pop off) -> In x new /\ forall r, In r (pop ++ off) -> close x r = false) ->
    let off := fst (infill_do mate elim n_max pop n) in
    pairwise_apart d close off /\ (forall x r, In x off -> In r pop -> close x r = false) /\
    (forall x, In x off -> exists r k, k > 0 /\ In x (mate r k)).
  Proof.
    intros HE. unfold infill_do. simpl.
    pose (Inv := fun off => pairwise_apart d close off /\ (forall x r, In x off -> In r pop -> close x r = false) /\
                            (forall x, In x off -> exists r k, k > 0 /\ In x (mate r k))).
    apply (infill_loop_inv Inv).
    - intros r k off m (H1 & H2 & H3) Hk. destruct (HE (mate r k) off) as [HA HB]. repeat split.
      + apply pairwise_apart_app; auto using pairwise_apart_firstn.
        intros x y Hx Hy. apply firstn_In in Hx. apply HB in Hx as [_ Hx]. apply Hx, in_or_app; auto.
      + intros x y Hx Hy. apply in_app_or in Hx as [Hx|Hx]; auto.
        apply firstn_In in Hx. apply HB in Hx as [_ Hx]. apply Hx, in_or_app; auto.
      + intros x Hx. apply in_app_or in Hx as [Hx|Hx]; auto.
        apply firstn_In in Hx. apply HB in Hx as [Hx _]. eauto.
    - split; [|split]; [intros p q Hpq; simpl in Hpq; lia|intros x r []|intros x []].
  Qed.
End Infill.
