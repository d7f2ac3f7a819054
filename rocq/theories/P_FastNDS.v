(** * Correctness of the fast non-dominated sort *)
From Coq Require Import List ZArith Bool Lia Arith Permutation.
From Verif Require Import Flt ListAux M_Dominator M_NDS S_Pareto P_Peel.
Import ListNotations.

Definition cnt (n : nat) (P : nat -> bool) : nat := length (filter P (seq 0 n)).

Lemma filter_ext_in' {A} (P Q : A -> bool) l : (forall x, In x l -> P x = Q x) -> filter P l = filter Q l.
Proof.
  induction l as [|x l IH]; intros H; simpl; auto. rewrite (H x) by (simpl; auto). rewrite IH; auto.
  intros; apply H; simpl; auto.
Qed.

Lemma cnt_ext n P Q : (forall i, i < n -> P i = Q i) -> cnt n P = cnt n Q.
Proof. intros H. unfold cnt. f_equal. apply filter_ext_in'. intros x Hx. apply H. apply in_seq in Hx. lia. Qed.

Lemma cnt_0 n P : cnt n P = 0 <-> forall i, i < n -> P i = false.
Proof.
  unfold cnt. split.
  - intros H i Hi. destruct (P i) eqn:E; auto. exfalso.
    assert (Hin : In i (filter P (seq 0 n))) by (apply filter_In; split; auto; apply in_seq; lia).
    destruct (filter P (seq 0 n)); [destruct Hin | discriminate].
  - intros H. destruct (filter P (seq 0 n)) as [|x l] eqn:E; auto. exfalso.
    assert (Hin : In x (filter P (seq 0 n))) by (rewrite E; simpl; auto).
    apply filter_In in Hin as [H1 H2]. apply in_seq in H1. rewrite H in H2 by lia. discriminate.
Qed.

Lemma cnt_pos n P : cnt n P <> 0 -> exists i, i < n /\ P i = true.
Proof.
  unfold cnt. intros H. destruct (filter P (seq 0 n)) as [|x l] eqn:E; [simpl in H; congruence|].
  assert (Hin : In x (filter P (seq 0 n))) by (rewrite E; simpl; auto).
  apply filter_In in Hin as [H1 H2]. apply in_seq in H1. exists x. split; auto; lia.
Qed.

Lemma filter_len_or {A} (P Q : A -> bool) l :
  (forall x, In x l -> P x = true -> Q x = false) ->
  length (filter (fun x => P x || Q x) l) = length (filter P l) + length (filter Q l).
Proof.
  induction l as [|x l IH]; intros H; simpl; auto.
  assert (IH' : length (filter (fun x => P x || Q x) l) = length (filter P l) + length (filter Q l))
    by (apply IH; intros; apply H; simpl; auto).
  specialize (H x (or_introl eq_refl)). destruct (P x); simpl.
  - rewrite H by auto. lia.
  - destruct (Q x); simpl; lia.
Qed.

Lemma cnt_or n P Q : (forall x, x < n -> P x = true -> Q x = false) -> cnt n (fun x => P x || Q x) = cnt n P + cnt n Q.
Proof. intros H. apply filter_len_or. intros x Hx. apply H. apply in_seq in Hx. lia. Qed.

Lemma cnt_eqb n i : i < n -> cnt n (fun x => x =? i) = 1.
Proof.
  intros Hi. unfold cnt. replace (filter (fun x => x =? i) (seq 0 n)) with [i]; auto.
  assert (G : forall s k, s <= i < s + k -> filter (fun x => x =? i) (seq s k) = [i]).
  { intros s k; revert s; induction k as [|k IH]; intros s H; [lia|]. simpl.
    destruct (Nat.eqb_spec s i) as [->|Hne].
    - f_equal. assert (filter (fun x => x =? i) (seq (S i) k) = []); auto.
      clear. assert (forall j, i < j -> filter (fun x => x =? i) (seq j k) = []); [|apply H; lia].
      induction k; intros j Hj; simpl; auto. destruct (Nat.eqb_spec j i); [lia|]. apply IHk; lia.
    - apply IH. lia. }
  symmetry. apply G. lia.
Qed.

Lemma nth_repeat' {A} (x d : A) k i : i < k -> nth i (repeat x k) d = x.
Proof. revert i; induction k; intros [|i] H; simpl; auto; try lia. apply IHk; lia. Qed.

  Lemma nth_snoc {A} (l : list A) x k d : nth k (l ++ [x]) d = if k <? length l then nth k l d else if k =? length l then x else d.
  Proof.
    destruct (Nat.ltb_spec k (length l)); [now rewrite app_nth1|].
    rewrite app_nth2 by lia. destruct (Nat.eqb_spec k (length l)) as [->|]; [now rewrite Nat.sub_diag|].
    destruct (k - length l) as [|[|q]] eqn:E; simpl; auto; lia.
  Qed.

  Lemma in_nth_concat {A} (x : A) k ll : In x (nth k ll []) -> In x (concat ll).
  Proof. intros H. apply in_concat_nth. exists k. split; auto. eapply nth_In_lt; eauto. Qed.

Section Fast.
  Variable M : list (list Z).
  Let n := length M.

  (** the relation encoded in the strict upper triangle of the matrix *)
  Definition D (i j : nat) : bool :=
    if i <? j then Z.eqb (entry M i j) 1 else if j <? i then Z.eqb (entry M j i) (-1) else false.

  Definition Inv (P : nat -> nat -> bool) (s : fstate) : Prop :=
    length (fst s) = n /\ length (snd s) = n /\
    (forall i, i < n -> NoDup (nth i (fst s) [])) /\
    (forall i j, i < n -> (In j (nth i (fst s) []) <-> j < n /\ P i j = true)) /\
    (forall j, j < n -> nth j (snd s) 0%Z = Z.of_nat (cnt n (fun i => P i j))).

  Lemma Inv_ext P Q s : (forall a b, a < n -> b < n -> P a b = Q a b) -> Inv P s -> Inv Q s.
  Proof.
    intros H (H1 & H2 & H3 & H4 & H5). split; [auto|]. split; [auto|]. split; [auto|]. split.
    - intros i j Hi. rewrite H4 by auto. split; intros [Hj HP]; (split; [auto|]); rewrite ?H in *; auto.
    - intros j Hj. rewrite H5 by auto. f_equal. apply cnt_ext. intros i Hi. apply H; auto.
  Qed.

  (** adding one pair (a, b) to the relation *)
  Lemma Inv_add P isd nd a b :
    Inv P (isd, nd) -> a < n -> b < n -> P a b = false ->
    Inv (fun x y => P x y || ((x =? a) && (y =? b))) (upd isd a (nth a isd [] ++ [b]), upd nd b (nth b nd 0 + 1)%Z).
  Proof.
    intros (H1 & H2 & H3 & H4 & H5) Ha Hb HP. simpl in *.
    split; [simpl; now rewrite length_upd|]. split; [simpl; now rewrite length_upd|]. cbn [fst snd].
    split; [|split].
    - intros i Hi. rewrite nth_upd. destruct (Nat.eqb_spec i a) as [->|]; simpl; [|auto].
      rewrite (proj2 (Nat.ltb_lt _ _)) by lia.
      apply NoDup_app_iff. split; [auto|]. split; [repeat constructor; simpl; tauto|].
      intros x Hx [<-|[]]. apply H4 in Hx as [_ Hx]; congruence.
    - intros i j Hi. rewrite nth_upd. destruct (Nat.eqb_spec i a) as [->|]; simpl.
      + rewrite (proj2 (Nat.ltb_lt _ _)) by lia. rewrite in_app_iff, H4, orb_true_iff by auto. simpl.
        rewrite Nat.eqb_eq. intuition (subst; auto).
      + rewrite H4, orb_false_r by auto. reflexivity.
    - intros j Hj. rewrite nth_upd. destruct (Nat.eqb_spec j b) as [->|]; simpl.
      + rewrite (proj2 (Nat.ltb_lt _ _)) by lia. rewrite H5 by auto.
        rewrite cnt_or.
        * rewrite (cnt_ext n (fun x => (x =? a) && true) (fun x => x =? a)), cnt_eqb by (auto; intros; apply andb_true_r). lia.
        * intros x Hx Hx2. destruct (Nat.eqb_spec x a) as [->|]; auto. congruence.
      + rewrite H5 by auto. f_equal. apply cnt_ext. intros i Hi. now rewrite andb_false_r, orb_false_r.
  Qed.

  Lemma Inv_pair P s i j :
    Inv P s -> i < j -> j < n -> P i j = false -> P j i = false ->
    Inv (fun x y => P x y || D x y && ((x =? i) && (y =? j) || (x =? j) && (y =? i))) (fast_pair M i s j).
  Proof.
    intros HI Hij Hj P1 P2. destruct s as [isd nd]. unfold fast_pair.
    destruct (Z.eqb (entry M i j) 1) eqn:E1.
    - eapply Inv_ext; [|apply (Inv_add P _ _ i j); auto; lia]. intros a b _ _. cbn beta. f_equal.
      destruct (Nat.eqb_spec a i) as [->|]; destruct (Nat.eqb_spec b j) as [->|]; simpl; auto.
      + unfold D. rewrite (proj2 (Nat.ltb_lt _ _) Hij), E1. reflexivity.
      + destruct (Nat.eqb_spec i j); [lia|]. simpl. now rewrite andb_false_r.
      + destruct (Nat.eqb_spec j i); [lia|]. now rewrite !andb_false_r.
      + destruct (Nat.eqb_spec a j) as [->|]; destruct (Nat.eqb_spec b i) as [->|]; simpl; rewrite ?andb_false_r; auto.
        unfold D. destruct (Nat.ltb_spec j i); [lia|]. rewrite (proj2 (Nat.ltb_lt _ _) Hij).
        apply Z.eqb_eq in E1. rewrite E1. reflexivity.
    - destruct (Z.eqb (entry M i j) (-1)) eqn:E2.
      + eapply Inv_ext; [|apply (Inv_add P _ _ j i); auto; lia]. intros a b _ _. cbn beta. f_equal.
        destruct (Nat.eqb_spec a i) as [->|]; destruct (Nat.eqb_spec b j) as [->|]; simpl.
        * unfold D. rewrite (proj2 (Nat.ltb_lt _ _) Hij), E1.
          destruct (Nat.eqb_spec i j); [lia|]. reflexivity.
        * destruct (Nat.eqb_spec i j); [lia|]. simpl. now rewrite andb_false_r.
        * destruct (Nat.eqb_spec j i); [lia|]. now rewrite !andb_false_r.
        * destruct (Nat.eqb_spec a j) as [->|]; destruct (Nat.eqb_spec b i) as [->|]; simpl; rewrite ?andb_false_r; auto.
          unfold D. destruct (Nat.ltb_spec j i); [lia|]. rewrite (proj2 (Nat.ltb_lt _ _) Hij). now rewrite E2.
      + eapply Inv_ext; [|exact HI]. intros a b _ _. cbn beta.
        destruct (D a b) eqn:ED; [|now rewrite orb_false_r].
        destruct (Nat.eqb_spec a i) as [->|]; destruct (Nat.eqb_spec b j) as [->|]; simpl.
        * unfold D in ED. rewrite (proj2 (Nat.ltb_lt _ _) Hij) in ED. congruence.
        * destruct (Nat.eqb_spec i j); [lia|]. now rewrite orb_false_r.
        * destruct (Nat.eqb_spec j i); [lia|]. now rewrite !andb_false_r, orb_false_r.
        * destruct (Nat.eqb_spec a j) as [->|]; destruct (Nat.eqb_spec b i) as [->|]; simpl; rewrite ?orb_false_r; auto.
          unfold D in ED. destruct (Nat.ltb_spec j i); [lia|]. rewrite (proj2 (Nat.ltb_lt _ _) Hij) in ED. congruence.
  Qed.

  (** pairs processed before (i, l) *)
  Definition proc (i l : nat) (a b : nat) : bool :=
    D a b && ((Nat.min a b <? i) || (Nat.min a b =? i) && (Nat.max a b <? l)).

  Lemma Inv_inner i k : i < n -> i + 1 + k <= n -> forall s, Inv (proc i (i + 1)) s ->
    Inv (proc i (i + 1 + k)) (fold_left (fast_pair M i) (seq (i + 1) k) s).
  Proof.
    intros Hi. induction k as [|k IH]; intros Hk s HI.
    - simpl. now rewrite Nat.add_0_r.
    - rewrite seq_S, fold_left_app. simpl. specialize (IH ltac:(lia) s HI).
      eapply Inv_ext; [|apply (Inv_pair _ _ i (i + 1 + k) IH)]; try lia.
      + intros a b Ha Hb. cbn beta. unfold proc.
        destruct (D a b); simpl; auto.
        repeat match goal with |- context [?x =? ?y] => destruct (Nat.eqb_spec x y) end;
        repeat match goal with |- context [?x <? ?y] => destruct (Nat.ltb_spec x y) end; simpl; auto; lia.
      + unfold proc. destruct (D i (i + 1 + k)); simpl; auto.
        repeat match goal with |- context [?x =? ?y] => destruct (Nat.eqb_spec x y) end;
        repeat match goal with |- context [?x <? ?y] => destruct (Nat.ltb_spec x y) end; simpl; auto; lia.
      + unfold proc. destruct (D (i + 1 + k) i); simpl; auto.
        repeat match goal with |- context [?x =? ?y] => destruct (Nat.eqb_spec x y) end;
        repeat match goal with |- context [?x <? ?y] => destruct (Nat.ltb_spec x y) end; simpl; auto; lia.
  Qed.

  Definition bef (i : nat) (a b : nat) : bool := D a b && (Nat.min a b <? i).

  Lemma D_irrefl a : D a a = false.
  Proof. unfold D. now rewrite !Nat.ltb_irrefl. Qed.

  Lemma Inv_outer1 i s : i < n -> Inv (bef i) s -> Inv (bef (S i)) (fold_left (fast_pair M i) (seq (i + 1) (n - (i + 1))) s).
  Proof.
    intros Hi HI. eapply Inv_ext; [|apply Inv_inner; auto; try lia].
    - intros a b Ha Hb. unfold bef, proc. destruct (D a b); simpl; auto.
      repeat match goal with |- context [?x =? ?y] => destruct (Nat.eqb_spec x y) end;
      repeat match goal with |- context [?x <? ?y] => destruct (Nat.ltb_spec x y) end; simpl; auto; lia.
    - eapply Inv_ext; [|exact HI]. intros a b Ha Hb. unfold bef, proc.
      destruct (Nat.eq_dec a b) as [->|]; [now rewrite D_irrefl|].
      destruct (D a b); simpl; auto.
      repeat match goal with |- context [?x =? ?y] => destruct (Nat.eqb_spec x y) end;
      repeat match goal with |- context [?x <? ?y] => destruct (Nat.ltb_spec x y) end; simpl; auto; lia.
  Qed.

  Definition undominated (i : nat) : bool := forallb (fun j => negb (D j i)) (seq 0 n).

  Lemma undominated_iff i : undominated i = true <-> forall j, j < n -> D j i = false.
  Proof.
    unfold undominated. rewrite forallb_forall. split.
    - intros H j Hj. apply negb_true_iff, H, in_seq. lia.
    - intros H j Hj. apply in_seq in Hj. rewrite H by lia. auto.
  Qed.

  Lemma undominated_cnt i : (cnt n (fun a => D a i) = 0) <-> undominated i = true.
  Proof. rewrite cnt_0, undominated_iff. tauto. Qed.

  Lemma fast_init k : k <= n ->
    let '(s, cur, nr) := fold_left (fast_outer M n) (seq 0 k) (repeat [] n, repeat 0%Z n, [], 0) in
    Inv (bef k) s /\ cur = filter undominated (seq 0 k) /\ nr = length cur.
  Proof.
    induction k as [|k IH]; intros Hk.
    - simpl. split; [|auto]. split; [simpl; now rewrite repeat_length|]. split; [simpl; now rewrite repeat_length|].
      cbn [fst snd]. split; [|split].
      + intros i Hi. rewrite nth_repeat' by auto. constructor.
      + intros i j Hi. rewrite nth_repeat' by auto. unfold bef. simpl. rewrite andb_false_r. intuition discriminate.
      + intros j Hj. rewrite nth_repeat' by auto. symmetry. rewrite (proj2 (cnt_0 n _)); auto.
        intros i Hi. unfold bef. simpl. apply andb_false_r.
    - rewrite seq_S, fold_left_app. simpl. specialize (IH ltac:(lia)).
      destruct (fold_left (fast_outer M n) (seq 0 k) (repeat [] n, repeat 0%Z n, [], 0)) as [[s cur] nr].
      destruct IH as (HI & Hc & Hr). unfold fast_outer.
      pose proof (Inv_outer1 k s ltac:(lia) HI) as HI'.
      set (s' := fold_left (fast_pair M k) (seq (k + 1) (n - (k + 1))) s) in *.
      rewrite filter_app. simpl.
      assert (E : Z.eqb (nth k (snd s') 0%Z) 0 = undominated k).
      { destruct HI' as (_ & _ & _ & _ & H5). rewrite H5 by lia.
        rewrite (cnt_ext n _ (fun a => D a k)).
        - apply eq_true_iff_eq. rewrite <- undominated_cnt, Z.eqb_eq. lia.
        - intros a Ha. unfold bef. destruct (Nat.eq_dec a k) as [->|]; [now rewrite D_irrefl|].
          rewrite (proj2 (Nat.ltb_lt _ _)) by lia. apply andb_true_r. }
      rewrite E. destruct (undominated k); subst; rewrite ?app_length; simpl; rewrite ?app_nil_r; auto.
  Qed.

  (** ** the relaxation pass *)
  Definition occ (j : nat) (l : list nat) : nat := count_occ Nat.eq_dec l j.

  Lemma relax_fold E : forall nd next nr,
    length nd = n -> (forall j, In j E -> j < n) ->
    (forall j, j < n -> (Z.of_nat (occ j E) <= nth j nd 0)%Z) ->
    (forall j, In j next -> j < n /\ nth j nd 0%Z = 0%Z) -> NoDup next ->
    let '(nd', next', nr') := fold_left fast_relax E (nd, next, nr) in
    length nd' = n /\ (forall j, j < n -> (nth j nd' 0 = nth j nd 0 - Z.of_nat (occ j E))%Z) /\
    NoDup next' /\ nr' + length next = nr + length next' /\
    (forall j, In j next' <-> In j next \/ (In j E /\ nth j nd 0%Z = Z.of_nat (occ j E))).
  Proof.
    induction E as [|e E IH]; intros nd next nr Hl HE Hle Hnx Hnd.
    - simpl. split; auto. split; [intros; lia|]. split; auto. split; [lia|]. intros j; tauto.
    - cbn [fold_left]. replace (fast_relax (nd, next, nr) e) with (let nd1 := upd nd e (nth e nd 0 - 1)%Z in if Z.eqb (nth e nd1 0%Z) 0 then (nd1, next ++ [e], nr + 1) else (nd1, next, nr)) by reflexivity. cbv zeta.
      assert (He : e < n) by (apply HE; simpl; auto).
      assert (Hocc : forall j, occ j (e :: E) = (if e =? j then 1 else 0) + occ j E).
      { intros j. unfold occ. simpl. destruct (Nat.eq_dec e j); destruct (Nat.eqb_spec e j); auto; lia. }
      assert (Hu : forall j, j < n -> nth j (upd nd e (nth e nd 0 - 1)%Z) 0%Z
                  = (nth j nd 0 - (if Nat.eqb e j then 1 else 0))%Z).
      { intros j Hj. rewrite nth_upd, (proj2 (Nat.ltb_lt e (length nd))) by lia.
        rewrite (Nat.eqb_sym j e). destruct (Nat.eqb_spec e j) as [->|]; simpl; lia. }
      assert (Hpos : (1 <= nth e nd 0)%Z).
      { specialize (Hle e He). rewrite Hocc, Nat.eqb_refl in Hle. lia. }
      rewrite Hu by auto. rewrite Nat.eqb_refl.
      destruct (Z.eqb_spec (nth e nd 0 - 1)%Z 0%Z) as [Hz|Hz].
      + assert (Hnin : ~ In e next) by (intros H; apply Hnx in H; lia).
        specialize (IH (upd nd e (nth e nd 0 - 1)%Z) (next ++ [e]) (nr + 1)).
        destruct (fold_left fast_relax E _) as [[nd' next'] nr'].
        destruct IH as (K1 & K2 & K3 & K4 & K5).
        * now rewrite length_upd.
        * intros; apply HE; simpl; auto.
        * intros j Hj. rewrite Hu by auto. specialize (Hle j Hj). rewrite Hocc in Hle. destruct (e =? j); lia.
        * intros j Hj. apply in_app_iff in Hj as [Hj|[<-|[]]].
          -- destruct (Hnx j Hj) as [Hjn Hj0]. split; auto. rewrite Hu by auto.
             destruct (Nat.eqb_spec e j) as [->|]; [tauto | lia].
          -- split; auto. rewrite Hu, Nat.eqb_refl by auto. lia.
        * apply NoDup_app_iff. split; auto. split; [repeat constructor; simpl; tauto|].
          intros x Hx [<-|[]]. auto.
        * split; auto. split.
          { intros j Hj. rewrite K2, Hu by auto. rewrite Hocc. destruct (e =? j); lia. }
          split; auto. split; [rewrite app_length in K4; simpl in K4; lia|].
          intros j. rewrite K5, in_app_iff. simpl In. rewrite Hocc.
          assert (Hoe : occ e E = 0).
          { specialize (Hle e He). rewrite Hocc, Nat.eqb_refl in Hle. lia. }
          split.
          -- intros [[H|[<-|[]]]|[H1 H2]]; auto.
             ++ right. split; auto. rewrite Nat.eqb_refl, Hoe. lia.
             ++ right. split; auto. assert (j < n) by (apply HE; simpl; auto). rewrite Hu in H2 by auto. destruct (e =? j); lia.
          -- intros [H|[[<-|H1] H2]]; auto. right. split; auto.
             assert (j < n) by (apply HE; simpl; auto). rewrite Hu by auto. destruct (Nat.eqb_spec e j) as [->|]; lia.
      + specialize (IH (upd nd e (nth e nd 0 - 1)%Z) next nr).
        destruct (fold_left fast_relax E _) as [[nd' next'] nr'].
        destruct IH as (K1 & K2 & K3 & K4 & K5).
        * now rewrite length_upd.
        * intros; apply HE; simpl; auto.
        * intros j Hj. rewrite Hu by auto. specialize (Hle j Hj). rewrite Hocc in Hle. destruct (e =? j); lia.
        * intros j Hj. destruct (Hnx j Hj) as [Hjn Hj0]. split; auto. rewrite Hu by auto.
          destruct (Nat.eqb_spec e j) as [->|]; lia.
        * auto.
        * split; auto. split.
          { intros j Hj. rewrite K2, Hu by auto. rewrite Hocc. destruct (e =? j); lia. }
          split; auto. split; auto.
          intros j. rewrite K5, Hocc. split.
          -- intros [H|[H1 H2]]; auto.
             right. split; [simpl; auto|]. assert (j < n) by (apply HE; simpl; auto). rewrite Hu in H2 by auto. destruct (e =? j); lia.
          -- intros [H|[[<-|H1] H2]]; auto.
             ++ right. rewrite Nat.eqb_refl in H2. split.
                ** destruct (in_dec Nat.eq_dec e E) as [|Hni]; auto. exfalso.
                   apply (count_occ_not_In Nat.eq_dec) in Hni. unfold occ in H2. lia.
                ** rewrite Hu, Nat.eqb_refl by auto. lia.
             ++ right. split; auto. assert (j < n) by (apply HE; simpl; auto). rewrite Hu by auto. destruct (e =? j); lia.
  Qed.

  Lemma fold_flat {A B} (f : B -> A -> B) (g : nat -> list A) l s :
    fold_left (fun st i => fold_left f (g i) st) l s = fold_left f (flat_map g l) s.
  Proof. revert s; induction l as [|x l IH]; intros s; simpl; auto. now rewrite fold_left_app, IH. Qed.

  Lemma occ_flat (isd : nat -> list nat) l j :
    NoDup l -> (forall i, In i l -> NoDup (isd i)) ->
    occ j (flat_map isd l) = length (filter (fun i => existsb (Nat.eqb j) (isd i)) l).
  Proof.
    induction l as [|x l IH]; intros Hnd Hi; simpl; auto.
    unfold occ in *. rewrite count_occ_app. inversion Hnd; subst.
    rewrite IH by (auto; intros; apply Hi; simpl; auto).
    destruct (existsb (Nat.eqb j) (isd x)) eqn:E.
    - simpl. apply existsb_exists in E as (y & Hy & Ey). apply Nat.eqb_eq in Ey as <-.
      assert (count_occ Nat.eq_dec (isd x) j = 1) by (apply NoDup_count_occ'; auto; apply Hi; simpl; auto). lia.
    - assert (count_occ Nat.eq_dec (isd x) j = 0); [|lia].
      apply count_occ_not_In. intros Hin. apply not_true_iff_false in E. apply E.
      apply existsb_exists. exists j. split; auto. apply Nat.eqb_refl.
  Qed.

  Lemma cnt_list l P : NoDup l -> (forall i, In i l -> i < n) ->
    length (filter P l) = cnt n (fun i => P i && existsb (Nat.eqb i) l).
  Proof.
    intros Hnd Hb. unfold cnt. apply Permutation_length. apply NoDup_Permutation.
    - now apply NoDup_filter.
    - apply NoDup_filter, seq_NoDup.
    - intros x. rewrite !filter_In, in_seq, andb_true_iff, existsb_exists. split.
      + intros [H1 H2]. split; [specialize (Hb x H1); lia|]. split; auto. exists x. split; auto. apply Nat.eqb_refl.
      + intros (H1 & H2 & y & Hy & E). apply Nat.eqb_eq in E. subst. auto.
  Qed.

  Variable dom : nat -> nat -> Prop.
  Hypothesis domD : forall i j, i < n -> j < n -> (dom i j <-> D i j = true).
  (** every non-empty set of points has a member no other member dominates: the relation has no cycle *)
  Hypothesis dom_min : forall U, U <> [] -> (forall i, In i U -> i < n) -> exists x, In x U /\ forall y, In y U -> ~ dom y x.

  Definition mem (l : list nat) (i : nat) : bool := existsb (Nat.eqb i) l.
  Lemma mem_iff l i : mem l i = true <-> In i l.
  Proof.
    unfold mem. rewrite existsb_exists. split; [|intros H; exists i; split; auto; apply Nat.eqb_refl].
    intros (y & Hy & E). apply Nat.eqb_eq in E. now subst.
  Qed.

  (** state of the [while] loop: [S] = points of all fronts but the last *)
  Definition WInv (isd : list (list nat)) (nd : list Z) (cur : list nat) (nr : nat) (fronts : list (list nat)) : Prop :=
    length nd = n /\
    (forall i, i < n -> NoDup (nth i isd []) /\ forall j, In j (nth i isd []) <-> j < n /\ D i j = true) /\
    exists fs, fronts = fs ++ [cur] /\
      NoDup (concat fronts) /\ nr = length (concat fronts) /\ (forall i, In i (concat fronts) -> i < n) /\
      (forall j, j < n -> nth j nd 0%Z = Z.of_nat (cnt n (fun i => D i j && negb (mem (concat fs) i)))) /\
      (forall j, j < n -> (In j (concat fronts) <-> nth j nd 0%Z = 0%Z)) /\
      (forall k, k < length fronts -> nth k fronts [] <> []) /\
      (forall k k' i j, In i (nth k fronts []) -> In j (nth k' fronts []) -> dom j i -> k' < k) /\
      (forall k i j, In i (nth k fronts []) -> j < n -> dom j i -> In j (concat fronts)) /\
      (forall k i, In i (nth (S k) fronts []) -> exists j, In j (nth k fronts []) /\ dom j i).

  Lemma WInv_pass isd nd cur nr fronts :
    WInv isd nd cur nr fronts -> nr < n ->
    let '(nd', next, nr') := fast_pass isd nd cur nr in
    WInv isd nd' next nr' (fronts ++ [next]) /\ nr < nr'.
  Proof.
    intros (Hl & Hisd & fs & Hf & Hnd & Hnr & Hb & Hcnt & Hrk & Hne & HA & HAd & HB) Hlt.
    unfold fast_pass. rewrite fold_flat.
    set (g := fun i => nth i isd []). set (E := flat_map g cur).
    assert (Hcur_in : forall i, In i cur -> In i (concat fronts)).
    { intros i Hi. rewrite Hf, concat_app. simpl. rewrite app_nil_r. apply in_app_iff. auto. }
    assert (Hcur_nd : NoDup cur).
    { rewrite Hf, concat_app in Hnd. simpl in Hnd. rewrite app_nil_r in Hnd. apply NoDup_app_iff in Hnd. tauto. }
    assert (Hdisj : forall i, In i cur -> ~ In i (concat fs)).
    { rewrite Hf, concat_app in Hnd. simpl in Hnd. rewrite app_nil_r in Hnd. apply NoDup_app_iff in Hnd.
      intros i Hi Hi'. destruct Hnd as (_ & _ & Hd). eapply Hd; eauto. }
    assert (Hoccj : forall j, j < n -> occ j E = cnt n (fun i => D i j && mem cur i)).
    { intros j Hj. unfold E. rewrite occ_flat; auto.
      - rewrite cnt_list by auto. apply cnt_ext. intros i Hi. unfold mem.
        destruct (existsb (Nat.eqb i) cur) eqn:Ec; [|now rewrite !andb_false_r].
        rewrite !andb_true_r. apply eq_true_iff_eq. fold (mem (g i) j). rewrite mem_iff.
        unfold g. rewrite (proj2 (Hisd i Hi)). tauto.
      - intros i Hi. apply Hisd. auto. }
    assert (HE_lt : forall j, In j E -> j < n).
    { intros j Hj. apply in_flat_map in Hj as (i & Hi & Hj). apply (proj2 (Hisd i (Hb i (Hcur_in i Hi)))) in Hj. tauto. }
    assert (Hsplit : forall j, cnt n (fun i => D i j && negb (mem (concat fs) i))
        = cnt n (fun i => D i j && mem cur i) + cnt n (fun i => D i j && negb (mem (concat fronts) i))).
    { intros j. rewrite <- cnt_or.
      - apply cnt_ext. intros i Hi. rewrite <- andb_orb_distrib_r. f_equal.
        assert (mem (concat fronts) i = mem (concat fs) i || mem cur i) as ->.
        { apply eq_true_iff_eq. rewrite orb_true_iff, !mem_iff, Hf, concat_app, in_app_iff. simpl. rewrite app_nil_r. tauto. }
        destruct (mem cur i) eqn:Ec, (mem (concat fs) i) eqn:Es; auto.
        exfalso. apply mem_iff in Ec, Es. eapply Hdisj; eauto.
      - intros i Hi H. apply andb_true_iff in H as [_ H]. apply mem_iff in H. apply andb_false_iff. right.
        apply negb_false_iff, mem_iff. auto. }
    pose proof (relax_fold E nd [] nr Hl HE_lt) as HR.
    destruct (fold_left fast_relax E (nd, [], nr)) as [[nd' next] nr'].
    destruct HR as (K1 & K2 & K3 & K4 & K5).
    { intros j Hj. rewrite Hcnt, Hoccj by auto. rewrite Hsplit. lia. }
    { intros j []. }
    { constructor. }
    simpl in K4, K5. rewrite Nat.add_0_r in K4.
    assert (Hnd' : forall j, j < n -> nth j nd' 0%Z = Z.of_nat (cnt n (fun i => D i j && negb (mem (concat fronts) i)))).
    { intros j Hj. rewrite K2, Hcnt, Hoccj by auto. rewrite Hsplit. lia. }
    assert (Hnext : forall j, In j next <-> j < n /\ (nth j nd 0 <> 0)%Z /\ (nth j nd' 0 = 0)%Z).
    { intros j. rewrite K5. split.
      - intros [[]|[HjE Hj]]. assert (j < n) by auto. split; auto. rewrite K2 by auto. split; [|lia].
        apply (count_occ_In Nat.eq_dec) in HjE. unfold occ in Hj. lia.
      - intros (Hj & H1 & H2). right. rewrite K2 in H2 by auto. split; [|lia].
        apply (count_occ_In Nat.eq_dec). unfold occ in H2. lia. }
    assert (Hnext_new : forall j, In j next -> ~ In j (concat fronts)).
    { intros j Hj Hc. apply Hnext in Hj as (Hj & H1 & H2). apply Hrk in Hc; auto. }
    assert (Hnd0 : forall j, j < n -> nth j nd' 0%Z = 0%Z <-> forall i, i < n -> dom i j -> In i (concat fronts)).
    { intros j Hj. rewrite Hnd' by auto. split.
      - intros H i Hi Hd. assert (Hc : cnt n (fun i => D i j && negb (mem (concat fronts) i)) = 0) by lia.
        rewrite cnt_0 in Hc. specialize (Hc i Hi). apply domD in Hd; auto. rewrite Hd in Hc. simpl in Hc.
        apply negb_false_iff, mem_iff in Hc. auto.
      - intros H. rewrite (proj2 (cnt_0 n _)); auto. intros i Hi. destruct (D i j) eqn:ED; auto. simpl.
        apply negb_false_iff, mem_iff. apply H; auto. now apply domD. }
    assert (Hnz : exists j, In j next).
    { (* a minimal unranked point *)
      set (U := filter (fun i => negb (mem (concat fronts) i)) (seq 0 n)).
      assert (HU : forall i, In i U <-> i < n /\ ~ In i (concat fronts)).
      { intros i. unfold U. rewrite filter_In, in_seq, negb_true_iff, <- not_true_iff_false, mem_iff. intuition lia. }
      destruct (dom_min U) as (x & Hx & Hmin).
      - intros HU0. assert (Hall : forall i, In i (seq 0 n) -> In i (concat fronts)).
        { intros i Hi. apply in_seq in Hi. destruct (in_dec Nat.eq_dec i (concat fronts)) as [|Hn]; auto. exfalso.
          assert (In i U) by (apply HU; split; auto; lia). rewrite HU0 in H. destruct H. }
        apply NoDup_incl_length in Hall; [|apply seq_NoDup]. rewrite seq_length in Hall. lia.
      - intros i Hi. apply HU in Hi. tauto.
      - apply HU in Hx as [Hx1 Hx2]. exists x. apply Hnext. split; auto. split.
        + intros H0. apply Hx2. now apply Hrk.
        + apply Hnd0; auto. intros i Hi Hd. destruct (in_dec Nat.eq_dec i (concat fronts)) as [|Hn]; auto. exfalso.
          apply (Hmin i); [apply HU; auto|auto]. }
    split.
    2: { destruct Hnz as (j & Hj). destruct next; [destruct Hj | simpl in K4; lia]. }
    assert (Hcc : concat (fronts ++ [next]) = concat fronts ++ next) by (rewrite concat_app; simpl; now rewrite app_nil_r).
    assert (Hzero_mono : forall j, j < n -> nth j nd 0%Z = 0%Z -> nth j nd' 0%Z = 0%Z).
    { intros j Hj H0. apply Hnd0; auto. intros i Hi Hd.
      apply Hrk in H0; auto. apply in_concat_nth in H0 as (k & _ & Hk). eapply HAd; eauto. }
    split; [auto|]. split; [auto|]. exists fronts. split; [auto|]. rewrite Hcc.
    split; [apply NoDup_app_iff; split; auto; split; auto; intros x Hx Hx'; eapply Hnext_new; eauto|].
    split; [rewrite app_length; lia|].
    split; [intros i Hi; apply in_app_iff in Hi as [Hi|Hi]; auto; apply Hnext in Hi; tauto|].
    split; [auto|].
    split.
    { intros j Hj. rewrite in_app_iff, Hnext. split.
      - intros [H|H]; [apply Hzero_mono; auto; apply Hrk; auto | tauto].
      - intros H0. destruct (Z.eq_dec (nth j nd 0%Z) 0) as [H|H]; [left; apply Hrk; auto | right; auto]. }
    split.
    { intros k Hk. rewrite app_length in Hk. simpl in Hk. rewrite nth_snoc.
      destruct (Nat.ltb_spec k (length fronts)); auto. destruct (Nat.eqb_spec k (length fronts)); [|lia].
      destruct Hnz as (j & Hj). intros ->. destruct Hj. }
    split.
    { intros k k' i j. rewrite !nth_snoc. intros Hi Hj Hd.
      destruct (Nat.ltb_spec k (length fronts)) as [Hk|Hk].
      - destruct (Nat.ltb_spec k' (length fronts)) as [Hk'|Hk']; [eapply HA; eauto|].
        destruct (Nat.eqb_spec k' (length fronts)); [|destruct Hj]. exfalso.
        eapply Hnext_new; [exact Hj|]. eapply HAd; eauto. apply Hnext in Hj; tauto.
      - destruct (Nat.eqb_spec k (length fronts)); [|destruct Hi]. subst k.
        destruct (Nat.ltb_spec k' (length fronts)) as [Hk'|Hk']; auto.
        destruct (Nat.eqb_spec k' (length fronts)); [|destruct Hj]. exfalso.
        apply Hnext in Hi as (Hi & _ & H0). apply (Hnext_new j); auto.
        apply Hnd0 with (j := i); auto. apply Hnext in Hj; tauto. }
    split.
    { intros k i j. rewrite nth_snoc. intros Hi Hj Hd. apply in_app_iff.
      destruct (Nat.ltb_spec k (length fronts)) as [Hk|Hk]; [left; eapply HAd; eauto|].
      destruct (Nat.eqb_spec k (length fronts)); [|destruct Hi].
      apply Hnext in Hi as (Hi & _ & H0). left. apply Hnd0 with (j := i); auto. }
    { intros k i. rewrite nth_snoc. intros Hi.
      destruct (Nat.ltb_spec (S k) (length fronts)) as [Hk|Hk].
      - destruct (HB _ _ Hi) as (j & Hj & Hd). exists j. split; auto. rewrite nth_snoc.
        destruct (Nat.ltb_spec k (length fronts)); [auto|lia].
      - destruct (Nat.eqb_spec (S k) (length fronts)) as [Hk'|]; [|destruct Hi].
        apply Hnext in Hi as (Hi & Hn0 & H0). rewrite Hcnt in Hn0 by auto.
        assert (Hc : cnt n (fun a => D a i && negb (mem (concat fs) a)) <> 0) by lia.
        apply cnt_pos in Hc as (j & Hj & Hc). apply andb_true_iff in Hc as [Hc1 Hc2].
        apply negb_true_iff, not_true_iff_false in Hc2. rewrite mem_iff in Hc2.
        assert (Hd : dom j i) by (now apply domD).
        exists j. split; auto. rewrite nth_snoc.
        destruct (Nat.ltb_spec k (length fronts)); [|lia].
        assert (Hjf : In j (concat fronts)) by (apply Hnd0 with (j := i); auto).
        rewrite Hf in Hjf |- *. rewrite concat_app, in_app_iff in Hjf. destruct Hjf as [Hjf|Hjf]; [tauto|].
        simpl in Hjf. rewrite app_nil_r in Hjf. rewrite Hf, app_length in Hk'. simpl in Hk'. rewrite app_nth2 by lia.
        assert (k - length fs = 0) as -> by (rewrite Hf, app_length in *; simpl in *; lia). auto. }
  Qed.

  Lemma WInv_while fuel : forall isd nd cur nr fronts,
    WInv isd nd cur nr fronts -> n <= nr + fuel ->
    exists out, fast_while fuel n isd nd cur nr fronts = Some out /\ layered n dom out.
  Proof.
    induction fuel as [|fuel IH]; intros isd nd cur nr fronts HW Hf; simpl.
    all: destruct (Nat.ltb_spec nr n) as [Hlt|Hge]; try lia.
    2: { pose proof (WInv_pass _ _ _ _ _ HW Hlt) as HP. destruct (fast_pass isd nd cur nr) as [[nd' next] nr'].
         destruct HP as [HP Hr]. apply IH; auto. lia. }
    all: exists fronts; split; auto; destruct HW as (Hl & Hisd & fs & Hf' & Hnd & Hnr & Hb & Hcnt & Hrk & Hne & HA & HAd & HB).
    all: split; [|split; [auto|split; auto]].
    all: apply perm_seq_of_NoDup; auto; intros i; split; [auto|]; intros Hi;
      eapply NoDup_full with (n := n); eauto; lia.
  Qed.

  Lemma fast_nds_matrix_layered_acyclic : exists out, fast_nds_matrix M = Some out /\ layered n dom out.
  Proof.
    unfold fast_nds_matrix. fold n. destruct (Nat.eqb_spec n 0) as [H0|H0].
    - exists []. split; auto. rewrite H0. split; [auto|]. split; [simpl; lia|]. split; intros [|k]; simpl; tauto.
    - pose proof (fast_init n (le_n _)) as HI.
      destruct (fold_left (fast_outer M n) (seq 0 n) (repeat [] n, repeat 0%Z n, [], 0)) as [[[isd nd] cur] nr].
      destruct HI as ((H1 & H2 & H3 & H4 & H5) & Hcur & Hnr). simpl in *.
      assert (Hbef : forall a b, a < n -> b < n -> bef n a b = D a b).
      { intros a b Ha Hb. unfold bef. rewrite (proj2 (Nat.ltb_lt _ _)) by lia. apply andb_true_r. }
      assert (Hcin : forall i, In i cur <-> i < n /\ forall j, j < n -> ~ dom j i).
      { intros i. rewrite Hcur, filter_In, in_seq, undominated_iff. split; intros [Ha Hb]; (split; [lia|]); intros j Hj.
        - intros Hd. apply domD in Hd; auto; [|lia]. rewrite Hb in Hd by auto. discriminate.
        - destruct (D j i) eqn:E; auto. exfalso. apply (Hb j Hj). apply domD; auto. }
      apply WInv_while; [|lia].
      split; [auto|]. split.
      { intros i Hi. split; auto. intros j. rewrite H4 by auto. split; intros [Ha Hb]; (split; [auto|]); rewrite Hbef in *; auto. }
      exists []. split; [reflexivity|]. simpl. rewrite app_nil_r.
      split; [rewrite Hcur; apply NoDup_filter, seq_NoDup|].
      split; [auto|]. split; [intros i Hi; apply Hcin in Hi; tauto|].
      split.
      { intros j Hj. rewrite H5 by auto. f_equal. apply cnt_ext. intros i Hi. rewrite Hbef by auto. now rewrite andb_true_r. }
      split.
      { intros j Hj. rewrite H5 by auto. rewrite (cnt_ext n _ (fun a => D a j)) by (intros; apply Hbef; auto).
        rewrite Hcur, filter_In, in_seq, <- undominated_cnt. lia. }
      split.
      { intros [|[|k]] Hk; try lia. simpl. intros Hc.
        destruct (dom_min (seq 0 n)) as (x & Hx & Hmin).
        - destruct n; [lia|discriminate].
        - intros i Hi. apply in_seq in Hi. lia.
        - apply in_seq in Hx. assert (In x cur); [|rewrite Hc in H; destruct H].
          apply Hcin. split; [lia|]. intros j Hj Hd. apply (Hmin j); [apply in_seq; lia|auto]. }
      split.
      { intros k k' i j Hi Hj Hd.
        destruct k as [|k]; [|destruct k; destruct Hi]. destruct k' as [|k']; [|destruct k'; destruct Hj]. simpl in Hi, Hj.
        apply Hcin in Hi, Hj. exfalso. eapply (proj2 Hi); [|exact Hd]. tauto. }
      split.
      { intros [|k] i j Hi Hj Hd; [simpl in *|destruct k; destruct Hi]. apply Hcin in Hi. exfalso. eapply (proj2 Hi); eauto. }
      { intros [|k] i Hi; destruct Hi. }
  Qed.
End Fast.

(** a transitive, irreflexive relation *)
Lemma fast_nds_matrix_layered M (dom : nat -> nat -> Prop) :
  (forall i j, i < length M -> j < length M -> (dom i j <-> D M i j = true)) ->
  (forall i, i < length M -> ~ dom i i) ->
  (forall i j k, i < length M -> j < length M -> k < length M -> dom i j -> dom j k -> dom i k) ->
  exists out, fast_nds_matrix M = Some out /\ layered (length M) dom out.
Proof.
  intros domD dom_irrefl dom_trans. apply fast_nds_matrix_layered_acyclic; auto.
  intros U HU HUn. set (n := length M) in *.
  set (dom' := fun i j => i < n /\ j < n /\ dom i j).
  destruct (minimal_exists dom') with (l := U) as (x & Hx & Hmin); auto.
  - intros i j. destruct (Nat.lt_ge_cases i n) as [Hi|Hi]; [|right; intros (? & _); lia].
    destruct (Nat.lt_ge_cases j n) as [Hj|Hj]; [|right; intros (_ & ? & _); lia].
    destruct (D M i j) eqn:ED; [left|right].
    + split; auto. split; auto. now apply domD.
    + intros (_ & _ & Hd). apply domD in Hd; congruence.
  - intros i (Hi & _ & Hd). eapply dom_irrefl; eauto.
  - intros i j k (Hi & Hj & Hd) (_ & Hk & Hd'). split; auto. split; auto. eapply dom_trans with (j := j); eauto.
  - exists x. split; auto. intros y Hy Hd. apply (Hmin y Hy). split; auto.
Qed.

(** when every point is dominated, the first front is empty and the while loop never ends *)
Lemma fast_while_stuck fuel : forall n isd nd nr fronts, nr < n -> fast_while fuel n isd nd [] nr fronts = None.
Proof.
  induction fuel as [|fuel IH]; intros n isd nd nr fronts H; simpl.
  all: rewrite (proj2 (Nat.ltb_lt _ _) H); auto.
Qed.
Lemma fast_nds_matrix_stuck M :
  0 < length M -> (forall i, i < length M -> exists j, j < length M /\ D M j i = true) ->
  forall fuel, let '(isd, nd, cur, n_ranked) := fold_left (fast_outer M (length M)) (seq 0 (length M)) (repeat [] (length M), repeat 0%Z (length M), [], 0) in
    fast_while fuel (length M) isd nd cur n_ranked [cur] = None.
Proof.
  intros H0 HD fuel. pose proof (fast_init M (length M) (le_n _)) as HI.
  destruct (fold_left (fast_outer M (length M)) (seq 0 (length M)) (repeat [] (length M), repeat 0%Z (length M), [], 0)) as [[[isd nd] cur] nr].
  destruct HI as (_ & Hcur & Hnr). simpl in *.
  assert (E : cur = []).
  { rewrite Hcur. destruct (filter (undominated M) (seq 0 (length M))) as [|x l] eqn:E; auto. exfalso.
    assert (Hx : In x (filter (undominated M) (seq 0 (length M)))) by (rewrite E; simpl; auto).
    apply filter_In in Hx as [Hx Hu]. apply in_seq in Hx. destruct (HD x) as (j & Hj & Hd); [lia|].
    apply undominated_iff with (j := j) in Hu; auto. congruence. }
  rewrite E in *. apply fast_while_stuck. simpl in Hnr. lia.
Qed.
