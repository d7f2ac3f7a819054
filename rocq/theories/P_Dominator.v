(** * Proofs about the dominance relation and the domination matrices *)
From Coq Require Import List ZArith Bool Lia Arith Floats.SpecFloat.
From Verif Require Import Flt ListAux M_Dominator S_Pareto.
Import ListNotations.
Local Open Scope Z_scope.

Definition lt_somewhere (a b : list flt) : bool := any2 fltb a b.

Lemma rel_loop_spec a b val :
  val = 0 \/ val = 1 \/ val = -1 ->
  length a = length b ->
  rel_loop a b val =
    let s := lt_somewhere a b || (val =? 1) in
    let l := lt_somewhere b a || (val =? -1) in
    if s && negb l then 1 else if l && negb s then -1 else 0.
Proof.
  revert b val; induction a as [|x a IH]; intros [|y b] val Hv Hlen; simpl in Hlen; try discriminate.
  - simpl. destruct Hv as [-> | [-> | ->]]; reflexivity.
  - injection Hlen as Hlen. unfold lt_somewhere, any2 in *. cbn [rel_loop combine existsb fst snd].
    destruct (fltb x y) eqn:Exy.
    + rewrite (flt_asym _ _ Exy). destruct (Z.eqb_spec val (-1)) as [->|Hne].
      * simpl. rewrite !orb_true_r. reflexivity.
      * rewrite IH by auto. simpl. rewrite !orb_true_r, !orb_false_r.
        reflexivity.
    + destruct (fltb y x) eqn:Eyx.
      * destruct (Z.eqb_spec val 1) as [->|Hne].
        -- simpl. rewrite !orb_true_r. reflexivity.
        -- rewrite IH by auto. simpl. rewrite !orb_true_r, !orb_false_r. reflexivity.
      * rewrite IH by auto. reflexivity.
Qed.

Lemma rel_loop_0 a b : length a = length b ->
  rel_loop a b 0 = if lt_somewhere a b && negb (lt_somewhere b a) then 1
                   else if lt_somewhere b a && negb (lt_somewhere a b) then -1 else 0.
Proof. intros H. rewrite rel_loop_spec by auto. simpl. now rewrite !orb_false_r. Qed.

Lemma rel_loop_antisym a b : length a = length b -> rel_loop b a 0 = - rel_loop a b 0.
Proof.
  intros H. rewrite !rel_loop_0 by auto.
  destruct (lt_somewhere a b), (lt_somewhere b a); reflexivity.
Qed.

Lemma get_relation_antisym a b cva cvb :
  length a = length b -> get_relation b a cvb cva = - get_relation a b cva cvb.
Proof.
  intros H. unfold get_relation.
  destruct cva as [ca|], cvb as [cb|]; try now apply rel_loop_antisym.
  destruct (fltb ca cb) eqn:E1.
  - now rewrite (flt_asym _ _ E1).
  - destruct (fltb cb ca) eqn:E2; [reflexivity | now apply rel_loop_antisym].
Qed.

(** dominance via [lt_somewhere] *)
Lemma lt_somewhere_iff a b :
  lt_somewhere a b = true <->
  exists k x y, nth_error a k = Some x /\ nth_error b k = Some y /\ fltb x y = true.
Proof.
  unfold lt_somewhere, any2. revert b; induction a as [|x a IH]; intros b.
  - simpl. split; [discriminate|]. intros ([|k] & ? & ? & H & _); discriminate.
  - destruct b as [|y b]; simpl.
    + split; [discriminate|]. intros ([|k] & ? & ? & _ & H & _); discriminate.
    + rewrite orb_true_iff, IH. split.
      * intros [H|(k & u & v & H)]; [exists 0%nat, x, y | exists (S k), u, v]; auto.
      * intros ([|k] & u & v & H1 & H2 & H3); simpl in *.
        -- injection H1 as ->; injection H2 as ->. auto.
        -- right. exists k, u, v. auto.
Qed.

Lemma not_lt_somewhere_le a b :
  vec_ok a -> vec_ok b -> length a = length b ->
  (lt_somewhere b a = false <-> Forall2 (fun x y => fleb x y = true) a b).
Proof.
  intros Ha; revert b. induction Ha as [|x a Hx Ha IH]; intros [|y b] Hb Hlen; simpl in Hlen; try discriminate.
  - split; [constructor | reflexivity].
  - inversion Hb as [|? ? Hy Hb']; subst. injection Hlen as Hlen.
    unfold lt_somewhere, any2 in *. simpl. rewrite orb_false_iff, (IH b) by auto. split.
    + intros [H1 H2]. constructor; auto. now apply nlt_le.
    + intros H. inversion H; subst. split; auto. now apply fle_not_lt.
Qed.

Lemma dominates_iff a b :
  vec_ok a -> vec_ok b -> length a = length b ->
  (dominates a b <-> lt_somewhere a b = true /\ lt_somewhere b a = false).
Proof.
  intros. unfold dominates. rewrite lt_somewhere_iff, (not_lt_somewhere_le a b) by auto. tauto.
Qed.

Lemma dominates_irrefl a : ~ dominates a a.
Proof.
  intros [_ (k & x & y & H1 & H2 & H3)]. rewrite H1 in H2. injection H2 as ->.
  now rewrite flt_irrefl in H3.
Qed.

Lemma Forall2_nth_error {A B} (R : A -> B -> Prop) l m k x y :
  Forall2 R l m -> nth_error l k = Some x -> nth_error m k = Some y -> R x y.
Proof.
  intros H; revert k; induction H as [|u v l m HR H IH]; intros [|k] H1 H2; simpl in *; try discriminate.
  - now injection H1 as ->; injection H2 as ->.
  - eauto.
Qed.

Lemma Forall2_nth_error_l {A B} (R : A -> B -> Prop) l m k x :
  Forall2 R l m -> nth_error l k = Some x -> exists y, nth_error m k = Some y /\ R x y.
Proof.
  intros H; revert k; induction H as [|u v l m HR H IH]; intros [|k] H1; simpl in *; try discriminate.
  - injection H1 as ->. eauto.
  - eauto.
Qed.

Lemma Forall2_le_trans a b c :
  Forall2 (fun x y => fleb x y = true) a b -> Forall2 (fun x y => fleb x y = true) b c ->
  Forall2 (fun x y => fleb x y = true) a c.
Proof.
  intros H; revert c; induction H as [|x y a b Hxy H IH]; intros c Hc; inversion Hc; subst; constructor; auto.
  eapply fle_trans; eauto.
Qed.

Lemma dominates_trans a b c : dominates a b -> dominates b c -> dominates a c.
Proof.
  intros [H1 (k & x & y & Hx & Hy & Hxy)] [H2 _]. split; [eapply Forall2_le_trans; eauto|].
  destruct (Forall2_nth_error_l _ _ _ _ _ H2 Hy) as (z & Hz & Hyz).
  exists k, x, z. split; [auto|]. split; [auto|]. eapply flt_le_trans; eauto.
Qed.

Lemma dominates_asym a b : dominates a b -> ~ dominates b a.
Proof. intros H1 H2. exact (dominates_irrefl a (dominates_trans _ _ _ H1 H2)). Qed.

Lemma rel_loop_1 a b : vec_ok a -> vec_ok b -> length a = length b ->
  (rel_loop a b 0 = 1 <-> dominates a b).
Proof.
  intros. rewrite rel_loop_0, dominates_iff by auto.
  destruct (lt_somewhere a b), (lt_somewhere b a); simpl; intuition (try discriminate; try lia).
Qed.

Lemma rel_loop_m1 a b : vec_ok a -> vec_ok b -> length a = length b ->
  (rel_loop a b 0 = -1 <-> dominates b a).
Proof.
  intros. rewrite <- (rel_loop_1 b a) by auto. rewrite (rel_loop_antisym a b) by auto. lia.
Qed.

Lemma rel_loop_range a b val : val = 0 \/ val = 1 \/ val = -1 ->
  let r := rel_loop a b val in r = 0 \/ r = 1 \/ r = -1.
Proof.
  revert b val; induction a as [|x a IH]; intros [|y b] val Hv; simpl; auto.
  destruct (fltb x y).
  - destruct (val =? -1); [auto|]. apply IH; auto.
  - destruct (fltb y x); [|now apply IH]. destruct (val =? 1); [auto|]. apply IH; auto.
Qed.

Lemma get_relation_range a b cva cvb :
  get_relation a b cva cvb = 0 \/ get_relation a b cva cvb = 1 \/ get_relation a b cva cvb = -1.
Proof.
  unfold get_relation. destruct cva as [ca|], cvb as [cb|]; try (apply rel_loop_range; auto).
  destruct (fltb ca cb); auto. destruct (fltb cb ca); auto. apply rel_loop_range; auto.
Qed.

Lemma get_relation_obj_spec a b :
  vec_ok a -> vec_ok b -> length a = length b ->
  (get_relation a b None None = 1 <-> dominates a b) /\
  (get_relation a b None None = -1 <-> dominates b a) /\
  (get_relation a b None None = 0 <-> ~ dominates a b /\ ~ dominates b a).
Proof.
  intros Ha Hb Hl. pose proof (rel_loop_1 a b Ha Hb Hl) as H1. pose proof (rel_loop_m1 a b Ha Hb Hl) as H2.
  unfold get_relation. split; [auto|]. split; [auto|].
  rewrite <- H1, <- H2. destruct (rel_loop_range a b 0 (or_introl eq_refl)) as [E|[E|E]]; rewrite E; lia.
Qed.

Lemma get_relation_constr_1 a b ca cb :
  vec_ok a -> vec_ok b -> length a = length b -> isnan ca = false -> isnan cb = false ->
  (get_relation a b (Some ca) (Some cb) = 1 <-> constr_dominates ca a cb b).
Proof.
  intros Ha Hb Hl Hca Hcb. unfold get_relation, constr_dominates.
  destruct (fltb ca cb) eqn:E1; [tauto|].
  destruct (fltb cb ca) eqn:E2.
  - split; [discriminate|]. intros [H|[H _]]; [discriminate|].
    apply feq_le, fle_not_lt in H. congruence.
  - rewrite rel_loop_1 by auto.
    assert (E3 : feqb ca cb = true).
    { destruct (flt_total ca cb) as [H|[H|H]]; auto; congruence. }
    rewrite E3. intuition discriminate.
Qed.

Lemma get_relation_constr_spec a b ca cb :
  vec_ok a -> vec_ok b -> length a = length b -> isnan ca = false -> isnan cb = false ->
  (get_relation a b (Some ca) (Some cb) = 1 <-> constr_dominates ca a cb b) /\
  (get_relation a b (Some ca) (Some cb) = -1 <-> constr_dominates cb b ca a) /\
  (get_relation a b (Some ca) (Some cb) = 0 <-> ~ constr_dominates ca a cb b /\ ~ constr_dominates cb b ca a).
Proof.
  intros Ha Hb Hl Hca Hcb.
  pose proof (get_relation_constr_1 a b ca cb Ha Hb Hl Hca Hcb) as H1.
  pose proof (get_relation_constr_1 b a cb ca Hb Ha (eq_sym Hl) Hcb Hca) as H2.
  rewrite (get_relation_antisym a b) in H2 by auto.
  split; [auto|]. split; [rewrite <- H2; lia|]. rewrite <- H1, <- H2.
  destruct (get_relation_range a b (Some ca) (Some cb)) as [E|[E|E]]; rewrite E; lia.
Qed.

Lemma constr_dominates_trans ca a cb b cc c :
  constr_dominates ca a cb b -> constr_dominates cb b cc c -> constr_dominates ca a cc c.
Proof.
  unfold constr_dominates. intros [H1|[H1 D1]] [H2|[H2 D2]].
  - left. eapply flt_trans; eauto.
  - left. eapply flt_le_trans; eauto using feq_le.
  - left. eapply fle_lt_trans; eauto using feq_le.
  - right. split; [eapply feq_trans; eauto | eapply dominates_trans; eauto].
Qed.

Lemma constr_dominates_irrefl ca a : ~ constr_dominates ca a ca a.
Proof.
  intros [H|[_ H]]; [now rewrite flt_irrefl in H | now apply dominates_irrefl in H].
Qed.

(** ** the vectorised matrix *)
Lemma fadd_zero_lt_l x y : fltb (fadd x f_zero) y = fltb x y.
Proof. destruct x as [[]|[]| |[] m e]; reflexivity. Qed.

Lemma nth_repeat_rows {A} (d : A) m (F : list A) i j :
  (i < length F)%nat -> (j < m)%nat -> nth (i * m + j) (flat_map (fun r => repeat r m) F) d = nth i F d.
Proof.
  revert i; induction F as [|r F IH]; intros i Hi Hj; simpl in Hi; [lia|].
  simpl. destruct i as [|i].
  - simpl. rewrite app_nth1 by (rewrite repeat_length; lia). now apply nth_repeat_lt || (clear -Hj; revert j Hj; induction m; intros [|j] Hj; simpl; auto; try lia; apply IHm; lia).
  - simpl Nat.mul. rewrite app_nth2 by (rewrite repeat_length; lia). rewrite repeat_length.
    replace (m + i * m + j - m)%nat with (i * m + j)%nat by lia. apply IH; lia.
Qed.

Lemma nth_tile {A} (d : A) (G : list A) n i j :
  (i < n)%nat -> (j < length G)%nat -> nth (i * length G + j) (concat (repeat G n)) d = nth j G d.
Proof.
  revert i; induction n as [|n IH]; intros i Hi Hj; [lia|].
  simpl. destruct i as [|i].
  - simpl. now rewrite app_nth1.
  - simpl Nat.mul. rewrite app_nth2 by lia.
    replace (length G + i * length G + j - length G)%nat with (i * length G + j)%nat by lia. apply IH; lia.
Qed.

Lemma length_repeat_rows {A} m (F : list A) : length (flat_map (fun r => repeat r m) F) = (length F * m)%nat.
Proof. induction F; simpl; auto. rewrite app_length, repeat_length, IHF. lia. Qed.

Lemma length_tile {A} (G : list A) n : length (concat (repeat G n)) = (n * length G)%nat.
Proof. induction n; simpl; auto. rewrite app_length, IHn. lia. Qed.

Lemma length_row_reshape {A} n m (l : list A) i :
  length l = (n * m)%nat -> (i < n)%nat -> length (nth i (reshape n m l) []) = m.
Proof.
  revert l i; induction n as [|n IH]; intros l i Hl Hi; [lia|].
  destruct i as [|i]; simpl.
  - rewrite firstn_length. nia.
  - apply IH; [|lia]. rewrite skipn_length. nia.
Qed.

Definition rel_eps (eps : flt) (a b : list flt) : Z :=
  let s := any2 (fun x y => fltb (fadd x eps) y) a b in
  let l := any2 (fun x y => fltb (fadd y eps) x) a b in
  b2z (s && negb l) * 1 + b2z (l && negb s) * (-1).

Lemma calc_domination_matrix_entry F G' eps i j :
  let G := match G' with None => F | Some G => G end in
  (i < length F)%nat -> (j < length G)%nat ->
  entry (calc_domination_matrix F G' eps) i j = rel_eps eps (nth i F []) (nth j G []).
Proof.
  intros G Hi Hj. unfold calc_domination_matrix, entry. fold G.
  set (n := length F). set (m := length G). cbv zeta.
  set (L := flat_map _ F). set (R := concat _).
  set (ps := any2 (fun x y => fltb (fadd x eps) y)). set (pl := any2 (fun x y => fltb (fadd y eps) x)).
  assert (HL : length L = (n * m)%nat) by apply length_repeat_rows.
  assert (HR : length R = (n * m)%nat) by apply length_tile.
  assert (Hrow : forall p : list flt -> list flt -> bool, length (map2 p L R) = (n * m)%nat).
  { intros p. intros. rewrite length_map2, HL, HR. lia. }
  assert (He : forall p : list flt -> list flt -> bool, nth j (nth i (reshape n m (map2 p L R)) []) false = p (nth i F []) (nth j G [])).
  { intros p. rewrite nth_reshape by assumption.
    assert (i * m + j < n * m)%nat by (unfold n, m in *; nia).
    rewrite nth_map2 with (da := []) (db := []) by lia.
    unfold L, R. rewrite nth_repeat_rows by auto. unfold m at 1. rewrite nth_tile by auto. reflexivity. }
  rewrite nth_map2 with (da := []) (db := []) by (rewrite length_reshape; auto).
  rewrite nth_map2 with (da := false) (db := false) by (rewrite length_row_reshape; auto).
  rewrite !He. reflexivity.
Qed.

Lemma any2_ext p q a b : (forall x y, p x y = q x y) -> any2 p a b = any2 q a b.
Proof. intros H. unfold any2. induction (combine a b); simpl; auto. now rewrite H, IHl. Qed.

Lemma any2_swap p a b : any2 (fun x y => p y x) a b = any2 p b a.
Proof.
  unfold any2. revert b; induction a as [|x a IH]; intros [|y b]; simpl; auto. now rewrite IH.
Qed.

Lemma rel_eps_zero a b : length a = length b -> rel_eps f_zero a b = get_relation a b None None.
Proof.
  intros H. unfold rel_eps, get_relation. rewrite rel_loop_0 by auto. unfold lt_somewhere.
  rewrite (any2_ext (fun x y => fltb (fadd x f_zero) y) fltb) by (intros; apply fadd_zero_lt_l).
  rewrite (any2_ext (fun x y => fltb (fadd y f_zero) x) (fun x y => fltb y x)) by (intros; apply fadd_zero_lt_l).
  rewrite (any2_swap fltb a b). destruct (any2 fltb a b), (any2 fltb b a); reflexivity.
Qed.

Lemma calc_domination_matrix_rel F i j :
  (i < length F)%nat -> (j < length F)%nat -> length (nth i F []) = length (nth j F []) ->
  entry (calc_domination_matrix F None f_zero) i j = get_relation (nth i F []) (nth j F []) None None.
Proof. intros. rewrite calc_domination_matrix_entry by auto. now apply rel_eps_zero. Qed.

Lemma calc_domination_matrix_rel2 F G i j :
  (i < length F)%nat -> (j < length G)%nat -> length (nth i F []) = length (nth j G []) ->
  entry (calc_domination_matrix F (Some G) f_zero) i j = get_relation (nth i F []) (nth j G []) None None.
Proof. intros. rewrite calc_domination_matrix_entry by auto. now apply rel_eps_zero. Qed.

Lemma rel_eps_antisym eps a b : length a = length b -> rel_eps eps b a = - rel_eps eps a b.
Proof.
  intros H. unfold rel_eps.
  rewrite (any2_swap (fun x y => fltb (fadd x eps) y) b a), (any2_swap (fun x y => fltb (fadd x eps) y) a b).
  destruct (any2 _ a b), (any2 _ b a); reflexivity.
Qed.

(** ** the loop based matrix *)
Lemma entry_upd2 M i j v i' j' :
  (i < length M)%nat -> (j < length (nth i M []))%nat ->
  entry (upd2 M i j v) i' j' = if (i' =? i)%nat && (j' =? j)%nat then v else entry M i' j'.
Proof.
  intros Hi Hj. unfold entry, upd2. rewrite nth_upd.
  destruct (Nat.eqb_spec i' i) as [->|Hne]; simpl.
  - rewrite (proj2 (Nat.ltb_lt _ _) Hi). rewrite nth_upd.
    rewrite (proj2 (Nat.ltb_lt _ _) Hj). now rewrite andb_true_r.
  - reflexivity.
Qed.

Definition square (n : nat) (M : list (list Z)) : Prop :=
  length M = n /\ forall i, (i < n)%nat -> length (nth i M []) = n.

Lemma square_upd2 n M i j v : square n M -> square n (upd2 M i j v).
Proof.
  intros [H1 H2]. split; [unfold upd2; now rewrite length_upd|].
  intros k Hk. unfold upd2. rewrite nth_upd.
  destruct (Nat.eqb_spec k i) as [->|Hne]; simpl; [|auto].
  destruct (Nat.ltb_spec i (length M)); [rewrite length_upd|]; auto.
Qed.

Lemma entry_zeros n i j : entry (zeros2 n n) i j = 0.
Proof.
  unfold entry, zeros2.
  destruct (Nat.lt_ge_cases i n) as [Hi|Hi].
  - replace (nth i (repeat (repeat 0 n) n) []) with (repeat 0 n).
    + destruct (Nat.lt_ge_cases j n).
      * clear. revert j; induction n; intros [|j]; simpl; auto.
      * rewrite nth_overflow; auto. now rewrite repeat_length.
    + symmetry. generalize (repeat 0 n) as r. intros r. revert i Hi. induction n; intros [|i] Hi; simpl; auto; try lia.
      apply IHn. lia.
  - rewrite (nth_overflow (repeat _ _)) by (now rewrite repeat_length). now destruct j.
Qed.

Lemma square_zeros n : square n (zeros2 n n).
Proof.
  split; [unfold zeros2; now rewrite repeat_length|].
  intros i Hi. unfold zeros2. generalize (repeat_length 0 n). generalize (repeat 0 n) as r. intros r Hr.
  revert i Hi. assert (forall k i, (i < k)%nat -> length (nth i (repeat r k) []) = n); [|auto].
  induction k; intros [|i] Hi; simpl; auto; try lia. apply IHk; lia.
Qed.

Lemma entry_upd2' n M i j v i' j' :
  square n M -> (i < n)%nat -> (j < n)%nat ->
  entry (upd2 M i j v) i' j' = if (i' =? i)%nat && (j' =? j)%nat then v else entry M i' j'.
Proof. intros [H1 H2] Hi Hj. apply entry_upd2; [lia | rewrite H2; lia]. Qed.

Section Loop.
  Variables (F : list (list flt)) (CV : list flt).
  Let n := length F.
  Let r i j := get_relation (nth i F []) (nth j F []) (Some (nth i CV f_nan)) (Some (nth j CV f_nan)).
  Let inner i M j := let M := upd2 M i j (r i j) in upd2 M j i (- entry M i j).

  Lemma inner_fold i l M :
    (i < n)%nat -> (forall j, In j l -> i < j < n)%nat -> square n M ->
    let M' := fold_left (inner i) l M in
    square n M' /\
    (forall a b, entry M' a b =
       if (a =? i)%nat && existsb (Nat.eqb b) l then r i b
       else if (b =? i)%nat && existsb (Nat.eqb a) l then - r i a else entry M a b).
  Proof.
    intros Hi. revert M. induction l as [|j l IH]; intros M Hl HM; cbn zeta.
    - split; auto. intros a b. simpl. now rewrite !andb_false_r.
    - assert (Hj : (i < j < n)%nat) by (apply Hl; simpl; auto).
      assert (HM1 : square n (upd2 M i j (r i j))) by (now apply square_upd2).
      assert (HM2 : square n (inner i M j)) by (unfold inner; now apply square_upd2).
      specialize (IH (inner i M j)). destruct IH as [IH1 IH2]; auto; [intros; apply Hl; simpl; auto|].
      split; [exact IH1|]. intros a b. simpl fold_left. rewrite IH2. simpl existsb.
      unfold inner. rewrite (entry_upd2' n) by (auto; lia). rewrite !(entry_upd2' n) by (auto; lia).
      rewrite !Nat.eqb_refl. simpl.
      destruct (Nat.eqb_spec a i) as [->|Ha]; destruct (Nat.eqb_spec b i) as [->|Hb]; simpl;
        rewrite ?(proj2 (Nat.eqb_neq i j)) by lia; simpl; rewrite ?andb_false_r; auto.
      + destruct (Nat.eqb_spec b j) as [->|Hbj]; simpl; auto.
        destruct (existsb (Nat.eqb j) l); auto.
      + destruct (Nat.eqb_spec a j) as [->|Haj]; simpl; auto.
        destruct (existsb (Nat.eqb j) l); auto.
  Qed.

  Lemma existsb_eqb_seq b s k : existsb (Nat.eqb b) (seq s k) = (s <=? b)%nat && (b <? s + k)%nat.
  Proof.
    apply eq_true_iff_eq. rewrite existsb_exists, andb_true_iff, Nat.leb_le, Nat.ltb_lt. split.
    - intros (x & Hx & He). apply Nat.eqb_eq in He as <-. apply in_seq in Hx. lia.
    - intros H. exists b. rewrite in_seq, Nat.eqb_refl. split; auto; lia.
  Qed.

  Lemma outer_fold k : (k <= n)%nat ->
    let M := fold_left (fun M i => fold_left (inner i) (seq (i + 1) (n - (i + 1))) M) (seq 0 k) (zeros2 n n) in
    square n M /\
    forall a b, (a < n)%nat -> (b < n)%nat ->
      entry M a b = if (a <? b)%nat && (a <? k)%nat then r a b
                    else if (b <? a)%nat && (b <? k)%nat then - r b a else 0.
  Proof.
    induction k as [|k IH]; intros Hk; cbn zeta.
    - split; [apply square_zeros|]. intros a b _ _. cbn [seq fold_left]. rewrite entry_zeros.
      change (a <? 0)%nat with false; change (b <? 0)%nat with false. now rewrite !andb_false_r.
    - rewrite seq_S, fold_left_app. simpl. destruct IH as [H1 H2]; [lia|].
      destruct (inner_fold k (seq (k + 1) (n - (k + 1)))
        (fold_left (fun M i => fold_left (inner i) (seq (i + 1) (n - (i + 1))) M) (seq 0 k) (zeros2 n n)))
        as [H3 H4]; [lia | intros j Hj; apply in_seq in Hj; lia | exact H1 |].
      split; [exact H3|]. intros a b Ha Hb. rewrite H4, !existsb_eqb_seq, H2 by auto. clear H2 H4.
      repeat match goal with
      | |- context [(?x =? ?y)%nat] => destruct (Nat.eqb_spec x y); subst; simpl
      | |- context [(?x <? ?y)%nat] => destruct (Nat.ltb_spec x y); simpl
      | |- context [(?x <=? ?y)%nat] => destruct (Nat.leb_spec x y); simpl
      end; auto; try lia; try (exfalso; lia).
  Qed.
End Loop.

Lemma calc_domination_matrix_loop_entry F CV i j :
  (i < length F)%nat -> (j < length F)%nat ->
  length (nth i F []) = length (nth j F []) ->
  entry (calc_domination_matrix_loop F CV) i j =
  get_relation (nth i F []) (nth j F []) (Some (nth i CV f_nan)) (Some (nth j CV f_nan)).
Proof.
  intros Hi Hj Hl. destruct (outer_fold F CV (length F) (le_n _)) as [_ H].
  unfold calc_domination_matrix_loop. cbn zeta in *. rewrite H by auto.
  rewrite (proj2 (Nat.ltb_lt _ _) Hi), (proj2 (Nat.ltb_lt _ _) Hj), !andb_true_r.
  destruct (Nat.ltb_spec i j); auto. destruct (Nat.ltb_spec j i).
  - rewrite (get_relation_antisym (nth i F []) (nth j F [])) by auto. lia.
  - assert (i = j) by lia. subst j. pose proof (get_relation_antisym (nth i F []) (nth i F [])
      (Some (nth i CV f_nan)) (Some (nth i CV f_nan)) eq_refl). lia.
Qed.

Lemma rect_nth m F i : rect m F -> (i < length F)%nat -> length (nth i F []) = m.
Proof. intros H Hi. unfold rect in H. rewrite Forall_forall in H. apply H, nth_In, Hi. Qed.

Lemma mat_ok_nth F i : mat_ok F -> vec_ok (nth i F []).
Proof.
  intros H. destruct (Nat.lt_ge_cases i (length F)) as [Hi|Hi].
  - unfold mat_ok in H. rewrite Forall_forall in H. apply H, nth_In, Hi.
  - rewrite nth_overflow by auto. constructor.
Qed.

Lemma matrix_entry m F i j :
  rect m F -> (i < length F)%nat -> (j < length F)%nat ->
  entry (calc_domination_matrix F None f_zero) i j = get_relation (nth i F []) (nth j F []) None None.
Proof. intros H Hi Hj. apply calc_domination_matrix_rel; auto. now rewrite !(rect_nth m). Qed.

Lemma matrix_entry_cross m F G i j :
  rect m F -> rect m G -> (i < length F)%nat -> (j < length G)%nat ->
  entry (calc_domination_matrix F (Some G) f_zero) i j = get_relation (nth i F []) (nth j G []) None None.
Proof. intros H HG Hi Hj. apply calc_domination_matrix_rel2; auto. now rewrite !(rect_nth m). Qed.

Lemma matrix_antisym m F eps i j :
  rect m F -> (i < length F)%nat -> (j < length F)%nat ->
  entry (calc_domination_matrix F None eps) j i = - entry (calc_domination_matrix F None eps) i j.
Proof.
  intros H Hi Hj. rewrite !calc_domination_matrix_entry by auto. apply rel_eps_antisym.
  now rewrite !(rect_nth m).
Qed.

Lemma matrix_diag m F eps i :
  rect m F -> (i < length F)%nat -> entry (calc_domination_matrix F None eps) i i = 0.
Proof. intros H Hi. pose proof (matrix_antisym m F eps i i H Hi Hi). lia. Qed.

Lemma loop_matrix_entry m F CV i j :
  rect m F -> (i < length F)%nat -> (j < length F)%nat ->
  entry (calc_domination_matrix_loop F CV) i j =
  get_relation (nth i F []) (nth j F []) (Some (nth i CV f_nan)) (Some (nth j CV f_nan)).
Proof. intros H Hi Hj. apply calc_domination_matrix_loop_entry; auto. now rewrite !(rect_nth m). Qed.

Lemma get_relation_trans a b c ca cb cc :
  vec_ok a -> vec_ok b -> vec_ok c -> length a = length b -> length b = length c ->
  isnan ca = false -> isnan cb = false -> isnan cc = false ->
  get_relation a b (Some ca) (Some cb) = 1 -> get_relation b c (Some cb) (Some cc) = 1 ->
  get_relation a c (Some ca) (Some cc) = 1.
Proof.
  intros Ha Hb Hc L1 L2 Na Nb Nc. rewrite !get_relation_constr_1 by (auto; congruence).
  apply constr_dominates_trans.
Qed.
