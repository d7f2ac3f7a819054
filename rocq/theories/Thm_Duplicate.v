(** * C20 (duplicate elimination) and C19 (infill) *)
From Coq Require Import List Arith Bool ZArith Lia Sorted.
From Verif Require Import ListAux M_Duplicate S_Duplicate P_Duplicate.
Import ListNotations.
Local Open Scope nat_scope.

(** C20, default variant: the exact result.  A position survives iff it is not close to any earlier member (when compared with itself)
    and not close to any reference point; order is kept. *)
Theorem C20_default : forall (A : Type) (d : A) close pop args to_itself,
  selects d pop (dup_do (default_dup d close) pop args to_itself)
    (fun i => (to_itself = true -> forall j, j < i -> close (nth i pop d) (nth j pop d) = false) /\
              (forall r, In r (concat args) -> close (nth i pop d) r = false)).
Proof.
  intros. apply (dup_do_selects d close (default_dup d close) pop args to_itself
    (fun i => forall j, j < i -> close (nth i pop d) (nth j pop d) = false)).
  - apply default_other.
  - apply default_length.
  - intros; apply default_self; auto.
Qed.

(** C20, element-wise variant: compared with the later members *)
Theorem C20_elementwise : forall (A : Type) (d : A) close pop args to_itself,
  selects d pop (dup_do (elementwise_dup d close) pop args to_itself)
    (fun i => (to_itself = true -> forall j, i < j < length pop -> close (nth i pop d) (nth j pop d) = false) /\
              (forall r, In r (concat args) -> close (nth i pop d) r = false)).
Proof.
  intros. apply (dup_do_selects d close (elementwise_dup d close) pop args to_itself
    (fun i => forall j, i < j < length pop -> close (nth i pop d) (nth j pop d) = false)).
  - apply elementwise_other.
  - apply elementwise_length.
  - intros; apply elementwise_self; auto.
Qed.

(** C20, hash variant: like the default variant with "equal hash" as criterion *)
Theorem C20_hash : forall (A : Type) (d : A) (key : A -> Z) pop args,
  selects d pop (dup_do (hash_dup key) pop args true)
    (fun i => (forall j, j < i -> Z.eqb (key (nth i pop d)) (key (nth j pop d)) = false) /\
              (forall r, In r (concat args) -> Z.eqb (key (nth i pop d)) (key r) = false)).
Proof. intros. exact (hash_do_selects d key pop args). Qed.

(** survivors are pairwise apart, for each variant *)
Theorem C20_pairwise_apart : forall (A : Type) (d : A) close (key : A -> Z) pop args,
  pairwise_apart d close (dup_do (default_dup d close) pop args true) /\
  pairwise_apart d (fun a b => close b a) (dup_do (elementwise_dup d close) pop args true) /\
  NoDup (map key (dup_do (hash_dup key) pop args true)).
Proof.
  intros. split; [|split].
  - eapply first_apart; [apply C20_default|]. intros i [H _]; auto.
  - eapply last_apart; [apply C20_elementwise|]. intros i [H _]; auto.
  - assert (H : pairwise_apart d (fun a b => Z.eqb (key a) (key b)) (dup_do (hash_dup key) pop args true)).
    { eapply first_apart; [apply C20_hash|]. intros i [H _]; auto. }
    revert H. generalize (dup_do (hash_dup key) pop args true). intros l H.
    apply (NoDup_nth _ (key d)). intros p q Hp Hq. rewrite !map_length in *. rewrite !map_nth. intro E.
    destruct (Nat.lt_trichotomy p q) as [L|[L|L]]; auto; exfalso.
    + specialize (H p q ltac:(lia)). apply Z.eqb_neq in H; congruence.
    + specialize (H q p ltac:(lia)). apply Z.eqb_neq in H; congruence.
Qed.

(** with an equivalence as the criterion: every class met by [pop] and by no reference point keeps exactly one representative, the first
    member (default) or the last (element-wise) *)
Definition equivalence {A} (close : A -> A -> bool) : Prop :=
  (forall a, close a a = true) /\ (forall a b, close a b = true -> close b a = true) /\
  (forall a b c, close a b = true -> close b c = true -> close a c = true).

Theorem C20_one_per_class : forall (A : Type) (d : A) close pop args i,
  equivalence close -> i < length pop -> (forall r, In r (concat args) -> close (nth i pop d) r = false) ->
  length (filter (close (nth i pop d)) (dup_do (default_dup d close) pop args true)) = 1 /\
  length (filter (close (nth i pop d)) (dup_do (elementwise_dup d close) pop args true)) = 1.
Proof.
  intros A d close pop args i (Hr & Hs & Ht) Hi Href.
  (* at most one *)
  assert (Hle : forall l, pairwise_apart d close l -> length (filter (close (nth i pop d)) l) <= 1).
  { intros l; induction l as [|x l IH]; intros Hl; simpl; [lia|].
    assert (Hl' : pairwise_apart d close l). { intros p q Hpq. apply (Hl (S p) (S q)). simpl; lia. }
    destruct (close (nth i pop d) x) eqn:E; auto. simpl.
    destruct (filter (close (nth i pop d)) l) as [|y f] eqn:Ef; simpl; auto. exfalso.
    assert (In y (filter (close (nth i pop d)) l)) by (rewrite Ef; simpl; auto).
    apply filter_In in H as [Hy Hc]. apply (In_nth _ _ d) in Hy as (q & Hq & <-).
    specialize (Hl 0 (S q) ltac:(simpl; lia)). simpl in Hl.
    rewrite (Ht (nth q l d) (nth i pop d) x) in Hl; [discriminate| |auto]. apply Hs; auto. }
  assert (Hge : forall l x, In x l -> close (nth i pop d) x = true -> 1 <= length (filter (close (nth i pop d)) l)).
  { intros l x Hx Hc. assert (In x (filter (close (nth i pop d)) l)) by (apply filter_In; auto).
    destruct (filter _ l); [destruct H|simpl; lia]. }
  destruct (C20_pairwise_apart A d close (fun _ => 0%Z) pop args) as (P1 & P2 & _).
  assert (Hfirst : exists k, k < length pop /\ close (nth i pop d) (nth k pop d) = true /\
                             forall j, j < k -> close (nth k pop d) (nth j pop d) = false).
  { clear -Hi Hr Hs Ht. induction i as [i IH] using lt_wf_ind.
    destruct (existsb (fun j => close (nth i pop d) (nth j pop d)) (seq 0 i)) eqn:E.
    - apply existsb_exists in E as (j & Hj & E). apply in_seq in Hj.
      destruct (IH j ltac:(lia) ltac:(lia)) as (k & Hk & Hc & Hf).
      exists k. repeat split; auto. eauto.
    - exists i. repeat split; auto. intros j Hj. destruct (close (nth i pop d) (nth j pop d)) eqn:E2; auto.
      rewrite <- E; symmetry; apply existsb_exists. exists j; split; auto; apply in_seq; lia. }
  assert (Hlast : exists k, k < length pop /\ close (nth i pop d) (nth k pop d) = true /\
                             forall j, k < j < length pop -> close (nth k pop d) (nth j pop d) = false).
  { clear -Hi Hr Hs Ht. remember (length pop - i) as m. revert i Hi Heqm. induction m as [m IH] using lt_wf_ind. intros i Hi Hm.
    destruct (existsb (fun j => close (nth i pop d) (nth j pop d)) (seq (S i) (length pop - S i))) eqn:E.
    - apply existsb_exists in E as (j & Hj & E). apply in_seq in Hj.
      destruct (IH (length pop - j) ltac:(lia) j ltac:(lia) eq_refl) as (k & Hk & Hc & Hf).
      exists k. repeat split; auto. eauto.
    - exists i. repeat split; auto. intros j Hj. destruct (close (nth i pop d) (nth j pop d)) eqn:E2; auto.
      rewrite <- E; symmetry; apply existsb_exists. exists j; split; auto; apply in_seq; lia. }
  assert (Hrefk : forall k, close (nth i pop d) (nth k pop d) = true -> forall r, In r (concat args) -> close (nth k pop d) r = false).
  { intros k Hk r Hr'. destruct (close (nth k pop d) r) eqn:E2; auto. rewrite <- (Href r Hr'). symmetry; eauto. }
  split; apply Nat.le_antisymm.
  - apply Hle; auto.
  - destruct Hfirst as (k & Hk & Hc & Hf). apply (Hge _ (nth k pop d)); [|auto].
    eapply selects_In2; [apply C20_default|auto|]. split; auto.
  - apply Hle. intros p q Hpq. specialize (P2 p q Hpq). cbv beta in P2.
    destruct (close (nth q (dup_do (elementwise_dup d close) pop args true) d) (nth p (dup_do (elementwise_dup d close) pop args true) d)) eqn:E; auto.
    apply Hs in E. congruence.
  - destruct Hlast as (k & Hk & Hc & Hf). apply (Hge _ (nth k pop d)); [|auto].
    eapply selects_In2; [apply C20_elementwise|auto|]. split; auto.
Qed.

(** the reported index lists: surviving positions and removed positions, both increasing, a partition of the input
    (objects are pairwise different: [ident] injective on the population) *)
Theorem C20_indices : forall (A : Type) (d : A) (ident : A -> nat) (pop res : list A) P,
  NoDup (map ident pop) -> selects d pop res P ->
  let '(kept, dropped) := dup_indices d ident pop res in
  StronglySorted lt kept /\ StronglySorted lt dropped /\
  (forall i, In i kept <-> i < length pop /\ P i) /\
  (forall i, In i dropped <-> i < length pop /\ ~ In i kept) /\
  res = map (fun i => nth i pop d) kept.
Proof.
  intros A d ident pop res P HN (I & HS & HI & ->). unfold dup_indices.
  assert (Hin : forall i, i < length pop ->
     (existsb (Nat.eqb (ident (nth i pop d))) (map ident (map (fun i => nth i pop d) I)) = true <-> In i I)).
  { intros i Hi. rewrite existsb_exists, map_map. split.
    - intros (x & Hx & E). apply Nat.eqb_eq in E; subst. apply in_map_iff in Hx as (j & E & Hj).
      assert (j = i); [|subst; auto]. assert (j < length pop) by (apply HI; auto).
      apply (proj1 (NoDup_nth (map ident pop) (ident d)) HN); rewrite ?map_length; auto. rewrite !map_nth; auto.
    - intros H. exists (ident (nth i pop d)); split; [|apply Nat.eqb_refl]. apply in_map_iff; exists i; auto. }
  repeat split.
  - apply SS_filter, SS_seq.
  - apply SS_filter, SS_seq.
  - apply In_where in H; tauto.
  - apply In_where in H as [H1 H2]. apply Hin in H2; auto. apply HI; auto.
  - intros H. apply In_where; split; [tauto|]. apply Hin; [tauto|]. apply HI; auto.
  - apply In_where in H; tauto.
  - intros H'. apply In_where in H as [H1 H2], H' as [_ H3]. rewrite H3 in H2; discriminate.
  - intros [H1 H2]. apply In_where; split; auto. apply negb_true_iff.
    destruct (existsb _ _) eqn:E; auto. exfalso; apply H2. apply In_where; auto.
  - f_equal. assert (E : forall l l' : list nat, StronglySorted lt l -> StronglySorted lt l' -> (forall i, In i l <-> In i l') -> l = l').
    { clear. induction l as [|a l IH]; intros [|b l'] H H' HE; auto.
      - exfalso; apply (HE b); simpl; auto.
      - exfalso; apply (HE a); simpl; auto.
      - inversion H; inversion H'; subst. rewrite Forall_forall in *.
        assert (a = b). { destruct (proj1 (HE a) (or_introl eq_refl)) as [E|E]; auto.
          destruct (proj2 (HE b) (or_introl eq_refl)) as [E'|E']; auto. apply H3 in E'. apply H7 in E. lia. }
        subst. f_equal. apply IH; auto. intros i. specialize (HE i). simpl in HE. split; intro Hi.
        + destruct (proj1 HE (or_intror Hi)) as [E|E]; auto. subst. apply H3 in Hi; lia.
        + destruct (proj2 HE (or_intror Hi)) as [E|E]; auto. subst. apply H7 in Hi; lia. }
    apply E; auto.
    + apply SS_filter, SS_seq.
    + intros i; split; intros Hi.
      * assert (i < length pop) by (apply HI; auto). apply In_where; split; auto. apply Hin; auto.
      * apply In_where in Hi as [H1 H2]. apply Hin; auto.
Qed.

(** the hash variant with its default function hashes the object itself (no [__hash__]/[__eq__] in Individual, so: its identity), and
    therefore keeps two individuals with equal variables: not a duplicate elimination in the sense of C20 *)
Definition hashed_ind := (Z * list Z)%type.    (* (object identity, X) *)
Definition id_key (i : hashed_ind) : Z := fst i.
Theorem C20_hash_default_refuted :
  ~ forall (pop : list hashed_ind), NoDup (map fst pop) ->
      pairwise_apart (0%Z, []) (fun a b => if list_eq_dec Z.eq_dec (snd a) (snd b) then true else false)
                     (dup_do (hash_dup id_key) pop [] true).
Proof.
  intros H. specialize (H [(1%Z, [5%Z]); (2%Z, [5%Z])]).
  assert (N : NoDup (map fst [(1%Z, [5%Z]); (2%Z, [5%Z])])) by (repeat constructor; simpl; intuition discriminate).
  specialize (H N 0 1 ltac:(vm_compute; lia)). vm_compute in H. discriminate.
Qed.

Example C20_example :
  dup_do (default_dup 0 (fun a b => a / 2 =? b / 2)) [4; 7; 5; 6; 1; 9] [[8]] true = [4; 7; 1] /\
  dup_do (elementwise_dup 0 (fun a b => a / 2 =? b / 2)) [4; 7; 5; 6; 1; 9] [[8]] true = [5; 6; 1] /\
  dup_do (hash_dup (fun a => Z.of_nat (a / 2))) [4; 7; 5; 6; 1; 9] [[8]] true = [4; 7; 1].
Proof. repeat split. Qed.
Example C20_equivalence_example : equivalence (fun a b => a / 2 =? b / 2).
Proof.
  repeat split; intros; rewrite ?Nat.eqb_refl in *; auto;
  repeat match goal with H : (_ =? _) = true |- _ => apply Nat.eqb_eq in H end; apply Nat.eqb_eq; congruence.
Qed.

(** ** C19 *)
(** infill.py:54: [eliminate_duplicates.do(_off, pop, off)] *)
Definition elim_of {A : Type} (strat : strategy_t) (new pop off : list A) : list A := dup_do strat new [pop; off] true.

(** budget: never more than requested, at most max(1, n_max_iterations) rounds; short only if all rounds were used; no offspring asked,
    no mating.  Holds for every duplicate elimination [elim]. *)
Theorem C19_budget : forall (A : Type) mate (elim : list A -> list A -> list A -> list A) n_max pop n,
  let '(off, rounds) := infill_do mate elim n_max pop n in
  length off <= n /\ rounds <= Nat.max 1 n_max /\ (length off < n -> rounds = Nat.max 1 n_max) /\ (n = 0 -> rounds = 0).
Proof.
  intros. pose proof (infill_loop_count mate elim pop n n_max (Nat.max 1 n_max) [] 0 ltac:(simpl; lia) eq_refl (or_introl eq_refl)) as H.
  assert (Hz : n = 0 -> snd (infill_do mate elim n_max pop n) = 0).
  { intros ->. unfold infill_do. destruct (Nat.max 1 n_max); reflexivity. }
  unfold infill_do in *. destruct (infill_loop _ _ _ _ _ _ _ _) as [off r]. simpl in Hz. destruct H as (H1 & H2 & H3). repeat split; auto; lia.
Qed.

(** novelty with the default variant (any criterion), the hash variant, and the element-wise variant (symmetric criterion) *)
Theorem C19_novel : forall (A : Type) (d : A) close mate n_max pop n,
  let off := fst (infill_do mate (elim_of (default_dup d close)) n_max pop n) in
  pairwise_apart d close off /\ (forall x r, In x off -> In r pop -> close x r = false) /\
  (forall x, In x off -> exists r k, k > 0 /\ In x (mate r k)).
Proof.
  intros. apply infill_apart. intros new off0. unfold elim_of. split.
  - apply (C20_pairwise_apart A d close (fun _ => 0%Z)).
  - intros x Hx. destruct (selects_In d (fun _ _ => true) _ _ _ x (C20_default A d close new [pop; off0] true) Hx) as (i & Hi & -> & _ & H).
    split; [apply nth_In; auto|]. intros r Hr. apply H. simpl. rewrite app_nil_r. auto.
Qed.
Theorem C19_novel_elementwise : forall (A : Type) (d : A) close mate n_max pop n,
  (forall a b, close a b = close b a) ->
  let off := fst (infill_do mate (elim_of (elementwise_dup d close)) n_max pop n) in
  pairwise_apart d close off /\ (forall x r, In x off -> In r pop -> close x r = false) /\
  (forall x, In x off -> exists r k, k > 0 /\ In x (mate r k)).
Proof.
  intros A d close mate n_max pop n Hsym. apply infill_apart. intros new off0. unfold elim_of. split.
  - destruct (C20_pairwise_apart A d close (fun _ => 0%Z) new [pop; off0]) as (_ & H & _). intros p q Hpq. rewrite Hsym. apply H; auto.
  - intros x Hx. destruct (selects_In d (fun _ _ => true) _ _ _ x (C20_elementwise A d close new [pop; off0] true) Hx) as (i & Hi & -> & _ & H).
    split; [apply nth_In; auto|]. intros r Hr. apply H. simpl. rewrite app_nil_r. auto.
Qed.
Theorem C19_novel_hash : forall (A : Type) (d : A) (key : A -> Z) mate n_max pop n,
  let off := fst (infill_do mate (elim_of (hash_dup key)) n_max pop n) in
  pairwise_apart d (fun a b => Z.eqb (key a) (key b)) off /\ (forall x r, In x off -> In r pop -> key x <> key r) /\
  (forall x, In x off -> exists r k, k > 0 /\ In x (mate r k)).
Proof.
  intros A d key mate n_max pop n.
  destruct (infill_apart mate (elim_of (hash_dup key)) d (fun a b => Z.eqb (key a) (key b)) pop n n_max) as (H1 & H2 & H3).
  - intros new off0. unfold elim_of. split.
    + eapply first_apart; [apply C20_hash|]. intros i [H _]; auto.
    + intros x Hx. destruct (selects_In d (fun _ _ => true) _ _ _ x (C20_hash A d key new [pop; off0]) Hx) as (i & Hi & -> & _ & H).
      split; [apply nth_In; auto|]. intros r Hr. apply H. simpl. rewrite app_nil_r. auto.
  - repeat split; auto. intros x r Hx Hr. apply Z.eqb_neq. apply (H2 x r Hx Hr).
Qed.

(** without duplicates one round suffices: Mating asks for just enough matings *)
Theorem C19_n_matings : forall n c, c > 0 ->
  n <= n_matings n c * c /\ (forall m, n <= m * c -> n_matings n c <= m).
Proof.
  intros n c Hc. unfold n_matings.
  pose proof (Nat.div_mod (n + c - 1) c ltac:(lia)) as E. pose proof (Nat.mod_upper_bound (n + c - 1) c ltac:(lia)) as B. split.
  - rewrite Nat.mul_comm. lia.
  - intros m Hm. assert ((n + c - 1) / c < S m); [|lia]. apply Nat.div_lt_upper_bound; [lia|]. rewrite Nat.mul_comm in Hm. nia.
Qed.
Theorem C19_one_round : forall (A : Type) mate (elim : list A -> list A -> list A -> list A) n_max pop n,
  n > 0 -> (forall new off, elim new pop off = new) -> (forall r k, length (mate r k) >= k) ->
  infill_do mate elim n_max pop n = (firstn n (mate 0 n), 1).
Proof.
  intros A mate elim n_max pop n Hn HE HM. unfold infill_do. destruct (Nat.max 1 n_max) as [|f] eqn:Ef; [lia|]. simpl.
  destruct (0 <? n) eqn:E; [|apply Nat.ltb_ge in E; lia]. rewrite HE. simpl. rewrite Nat.sub_0_r.
  assert (Hf : (if n <? length (mate 0 n) then firstn n (mate 0 n) else mate 0 n) = firstn n (mate 0 n)).
  { destruct (n <? length (mate 0 n)) eqn:E2; auto. apply Nat.ltb_ge in E2. rewrite firstn_all2; auto. }
  rewrite Hf. destruct (n_max <=? 1); auto.
  assert (HL : length (firstn n (mate 0 n)) = n) by (rewrite firstn_length; specialize (HM 0 n); lia).
  destruct f; simpl; rewrite HL, Nat.ltb_irrefl; auto.
Qed.

Example C19_example :
  infill_do (fun r k => map (fun j => 3 * r + j) (seq 0 (k + 1))) (elim_of (default_dup 0 Nat.eqb)) 100 [1; 4] 4 = ([0; 2; 3; 6], 3).
Proof. reflexivity. Qed.
Example C19_example_limit :
  infill_do (fun _ k => seq 0 k) (elim_of (default_dup 0 Nat.eqb)) 7 [1; 4] 4 = ([0; 2; 3], 7).
Proof. reflexivity. Qed.

Print Assumptions C20_default. Print Assumptions C20_elementwise. Print Assumptions C20_hash. Print Assumptions C20_pairwise_apart.
Print Assumptions C20_one_per_class. Print Assumptions C20_indices. Print Assumptions C20_hash_default_refuted.
Print Assumptions C19_budget. Print Assumptions C19_novel. Print Assumptions C19_novel_elementwise. Print Assumptions C19_novel_hash.
Print Assumptions C19_n_matings. Print Assumptions C19_one_round.
