(** * Proofs for M_Cross *)
From Coq Require Import List Arith Bool QArith Lia Permutation Sorted.
From Verif Require Import ListAux M_Cross S_Cross P_Perm.
Import ListNotations.
Local Open Scope nat_scope.

Lemma Qlt_b_iff a b : Qlt_b a b = true <-> (a < b)%Q.
Proof.
  unfold Qlt_b. rewrite negb_true_iff. split; intros H.
  - apply Qnot_le_lt. intro C. apply Qle_bool_iff in C. congruence.
  - destruct (Qle_bool b a) eqn:E; auto. apply Qle_bool_iff in E. exfalso; apply (Qlt_not_le _ _ H E).
Qed.

Section Mask.
  Context {A : Type}.
  Variable d : A.
  Lemma masked_length (p q : list A) M : length (masked d p q M) = length p.
  Proof. unfold masked. rewrite map_length, seq_length; auto. Qed.
  Lemma masked_nth p q M i : i < length p -> nth i (masked d p q M) d = if nth i M false then nth i q d else nth i p d.
  Proof. intros H. unfold masked. rewrite nth_map_seq0; auto. Qed.
  Lemma crossover_mask_swapped p0 p1 M (S : nat -> Prop) : length p0 = length p1 ->
    (forall i, i < length p0 -> (nth i M false = true <-> S i)) ->
    swapped d p0 p1 (fst (crossover_mask d p0 p1 M)) (snd (crossover_mask d p0 p1 M)) S.
  Proof.
    intros HL HS. unfold crossover_mask, swapped; simpl. rewrite !masked_length. split; [auto|split; [lia|]].
    intros i Hi. rewrite !masked_nth by lia. split; intros H.
    - apply HS in H; auto. rewrite H; auto.
    - destruct (nth i M false) eqn:E; auto. exfalso; apply H, HS; auto.
  Qed.
End Mask.

Lemma nth_repeat_false n i : nth i (repeat false n) false = false.
Proof. revert i; induction n; destruct i; simpl; auto. Qed.
Lemma fold_upd_true l : forall M i, (forall j, In j l -> j < length M) ->
  nth i (fold_left (fun M i => upd M i true) l M) false = true <-> In i l \/ nth i M false = true.
Proof.
  induction l as [|a l IH]; intros M i H; simpl; [tauto|].
  rewrite IH by (intros; rewrite length_upd; apply H; simpl; auto).
  rewrite nth_upd. destruct (i =? a) eqn:E.
  - apply Nat.eqb_eq in E. subst. assert (a < length M) by (apply H; simpl; auto).
    apply Nat.ltb_lt in H0. rewrite H0. simpl. tauto.
  - apply Nat.eqb_neq in E. simpl. split; [intuition|]. intros [[?|?]|?]; auto; congruence.
Qed.

Lemma hux_mask_spec {A} (d : A) neq p0 p1 perm :
  let dif := where_ (fun i => neq (nth i p0 d) (nth i p1 d)) (length p0) in
  Permutation perm (seq 0 (length dif)) ->
  exists S, NoDup S /\ length S = (length dif + 1) / 2 /\ (forall i, In i S -> In i dif) /\
            forall i, nth i (hux_mask d neq p0 p1 perm) false = true <-> In i S.
Proof.
  cbv zeta. intros HP. unfold hux_mask. set (dif := where_ _ _) in *. set (n := (length dif + 1) / 2).
  assert (Hn : n <= length dif). { unfold n. apply Nat.lt_succ_r, Nat.div_lt_upper_bound; lia. }
  pose proof (perm_seq_length _ _ HP) as HL.
  exists (gather 0 dif (firstn n perm)).
  assert (Hf : forall j, In j (firstn n perm) -> j < length dif).
  { intros j Hj. apply (perm_seq_In _ _ j HP). rewrite <- (firstn_skipn n). apply in_or_app; auto. }
  assert (Hin : forall i, In i (gather 0 dif (firstn n perm)) -> In i dif).
  { intros i Hi. apply in_map_iff in Hi as (j & <- & Hj). apply nth_In. auto. }
  split; [|split; [|split]]; auto.
  - unfold gather. apply NoDup_map_inj.
    + intros x y Hx Hy E. apply (proj1 (NoDup_nth dif 0)); auto. apply NoDup_where.
    + apply perm_seq_NoDup in HP. rewrite <- (firstn_skipn n) in HP. apply NoDup_app_iff in HP; tauto.
  - rewrite length_gather, firstn_length. lia.
  - intros i. destruct (0 <? n) eqn:E.
    + rewrite fold_upd_true, nth_repeat_false; [intuition discriminate|].
      intros j Hj. apply Hin, In_where in Hj. rewrite repeat_length. tauto.
    + apply Nat.ltb_ge in E. assert (n = 0) by lia. rewrite H. simpl. rewrite nth_repeat_false. intuition discriminate.
Qed.

(** ** points *)
Lemma insert_nat_perm x l : Permutation (insert_nat x l) (x :: l).
Proof.
  induction l; simpl; auto. destruct (x <=? a); auto. etransitivity; [apply perm_skip, IHl|apply perm_swap].
Qed.
Lemma sort_nat_perm l : Permutation (sort_nat l) l.
Proof. induction l; simpl; auto. etransitivity; [apply insert_nat_perm|auto]. Qed.
Lemma insert_nat_sorted x l : StronglySorted le l -> StronglySorted le (insert_nat x l).
Proof.
  induction 1; simpl; [repeat constructor|]. destruct (x <=? a) eqn:E.
  - apply Nat.leb_le in E. constructor; [constructor; auto|]. constructor; auto.
    rewrite Forall_forall in *. intros y Hy. specialize (H0 y Hy). lia.
  - apply Nat.leb_gt in E. constructor; auto. rewrite Forall_forall in *. intros y Hy.
    apply (Permutation_in _ (insert_nat_perm x l)) in Hy as [<-|Hy]; auto. lia.
Qed.
Lemma sort_nat_sorted l : StronglySorted le (sort_nat l).
Proof. induction l; simpl; [constructor|]. apply insert_nat_sorted; auto. Qed.

Lemma set_range_length M a b : length (set_range M a b) = length M.
Proof. unfold set_range; rewrite map_length, seq_length; auto. Qed.
Lemma set_range_nth M a b i : i < length M ->
  nth i (set_range M a b) false = ((a <=? i) && (i <? b)) || nth i M false.
Proof. intros; unfold set_range; rewrite nth_map_seq0; auto. Qed.

Definition cuts_upto (r : list nat) (i : nat) : nat := length (filter (fun c => c <=? i) r).

Lemma cuts_upto_0 r i : Forall (fun c => i < c) r -> cuts_upto r i = 0.
Proof.
  unfold cuts_upto. induction 1; simpl; auto. destruct (Nat.leb_spec x i); auto; lia.
Qed.
Lemma set_segments_stay r : forall M i, nth i M false = true -> i < length M -> nth i (set_segments r M) false = true.
Proof.
  assert (H : forall n r, length r <= n -> forall M i, nth i M false = true -> i < length M -> nth i (set_segments r M) false = true).
  { induction n; intros [|a [|b r']] Hl M i HM Hi; simpl in *; auto; try lia.
    apply IHn; auto; [lia| |rewrite set_range_length; auto]. rewrite set_range_nth, HM, orb_true_r by auto. auto. }
  intros; apply (H (length r)); auto.
Qed.
Lemma set_segments_none r : forall M i, i < length M -> Forall (fun c => i < c) r -> nth i (set_segments r M) false = nth i M false.
Proof.
  assert (H : forall n r, length r <= n -> forall M i, i < length M -> Forall (fun c => i < c) r -> nth i (set_segments r M) false = nth i M false).
  { induction n; intros [|a [|b r']] Hl M i Hi HF; simpl in *; auto; try lia.
    inversion HF; subst. inversion H2; subst. rewrite IHn; auto; [|lia|rewrite set_range_length; auto].
    rewrite set_range_nth by auto. destruct (Nat.leb_spec a i); auto; lia. }
  intros; apply (H (length r)); auto.
Qed.
Lemma set_segments_odd : forall n r M i, length r <= n -> StronglySorted le r -> i < length M -> nth i M false = false ->
  (exists c, In c r /\ i < c) ->
  nth i (set_segments r M) false = Nat.odd (cuts_upto r i).
Proof.
  induction n; intros r M i Hl HS Hi HM (c & Hc & Hic); [destruct r; [destruct Hc|simpl in Hl; lia]|].
  destruct r as [|a [|b r]]; [destruct Hc| |].
  - destruct Hc as [->|[]]. simpl. unfold cuts_upto; simpl. destruct (Nat.leb_spec c i); [lia|auto].
  - inversion HS; subst. inversion H1; subst. cbn [set_segments].
    destruct (Nat.lt_ge_cases i a) as [La|La].
    + rewrite cuts_upto_0.
      2:{ rewrite Forall_forall in *. intros y [<-|Hy]; auto. specialize (H2 y Hy). lia. }
      rewrite set_segments_none; [|rewrite set_range_length; auto|].
      * rewrite set_range_nth, HM by auto. destruct (Nat.leb_spec a i); auto; lia.
      * rewrite Forall_forall in *. intros y Hy. specialize (H2 y (or_intror Hy)). lia.
    + destruct (Nat.lt_ge_cases i b) as [Lb|Lb].
      * assert (E : cuts_upto (a :: b :: r) i = 1).
        { unfold cuts_upto. simpl. destruct (Nat.leb_spec a i); [|lia]. destruct (Nat.leb_spec b i); [lia|]. simpl. f_equal.
          apply (cuts_upto_0 r). rewrite Forall_forall in *. intros y Hy. specialize (H4 y Hy). lia. }
        rewrite E. apply set_segments_stay; [|rewrite set_range_length; auto].
        rewrite set_range_nth by auto. replace (a <=? i) with true by (symmetry; apply Nat.leb_le; auto).
        replace (i <? b) with true by (symmetry; apply Nat.ltb_lt; auto). auto.
      * assert (E : cuts_upto (a :: b :: r) i = 2 + cuts_upto r i).
        { unfold cuts_upto. simpl. destruct (Nat.leb_spec a i); [|lia]. destruct (Nat.leb_spec b i); [|lia]. auto. }
        rewrite E. cbn [Nat.odd Nat.even plus]. unfold Nat.odd. cbn [Nat.even].
        change (negb (Nat.even (cuts_upto r i))) with (Nat.odd (cuts_upto r i)).
        apply IHn; auto; [simpl in Hl; lia|rewrite set_range_length; auto| |].
        -- rewrite set_range_nth, HM by auto. destruct (Nat.ltb_spec i b); [lia|]. rewrite andb_false_r; auto.
        -- exists c; split; auto. destruct Hc as [->|[->|Hc]]; auto; lia.
Qed.

Lemma point_mask_spec n_var n_points perm i :
  Permutation perm (seq 0 (n_var - 1)) -> i < n_var ->
  nth i (point_mask n_var n_points perm) false = Nat.odd (cuts_upto (firstn n_points (map (fun p => p + 1) perm)) i).
Proof.
  intros HP Hi. unfold point_mask. set (cuts := firstn n_points (map (fun p => p + 1) perm)).
  assert (Hlt : forall c, In c cuts -> c < n_var).
  { intros c Hc. assert (In c (map (fun p => p + 1) perm)). { rewrite <- (firstn_skipn n_points). apply in_or_app; auto. }
    apply in_map_iff in H as (p & <- & Hp). apply (perm_seq_In _ _ p HP) in Hp. lia. }
  unfold point_cuts. fold cuts.
  rewrite (set_segments_odd (length (sort_nat cuts ++ [n_var]))); auto.
  - f_equal. unfold cuts_upto. rewrite filter_app, app_length. simpl. destruct (Nat.leb_spec n_var i); [lia|]. simpl. rewrite Nat.add_0_r.
    apply Permutation_length. generalize (sort_nat_perm cuts). generalize (sort_nat cuts). clear. intros l H.
    induction H; simpl; auto.
    + destruct (x <=? i); auto.
    + destruct (x <=? i), (y <=? i); auto. apply perm_swap.
    + etransitivity; eauto.
  - assert (HF : Forall (fun c => c <= n_var) (sort_nat cuts)).
    { apply Forall_forall. intros c Hc. apply (Permutation_in _ (sort_nat_perm cuts)) in Hc. apply Hlt in Hc; lia. }
    generalize (sort_nat_sorted cuts). revert HF. generalize (sort_nat cuts). clear. intros l HF HS.
    induction HS; simpl; [repeat constructor|]. inversion HF; subst. constructor; auto.
    apply Forall_app; split; auto.
  - rewrite repeat_length; auto.
  - apply nth_repeat_false.
  - exists n_var. split; auto. apply in_or_app; simpl; auto.
Qed.

(** ** exponential *)
Lemma exp_run_spec n_var start prob draws : 0 < n_var -> forall fuel j M, length M = n_var ->
  exists L, j <= L <= j + fuel /\ (forall k, j <= k < L -> (draws k <= prob)%Q) /\ (L < j + fuel -> ~ (draws L <= prob)%Q) /\
    length (exp_run n_var start prob draws fuel j M) = n_var /\
    forall i, nth i (exp_run n_var start prob draws fuel j M) false = true <->
              nth i M false = true \/ exists k, j <= k < L /\ i = (start + k) mod n_var.
Proof.
  intros Hn. induction fuel as [|fuel IH]; intros j M HM; simpl.
  - exists j. repeat split; auto; try lia. intros [H|(k & Hk & _)]; auto; lia.
  - destruct (Qle_bool (draws j) prob) eqn:E.
    + destruct (IH (j + 1) (upd M ((start + j) mod n_var) true)) as (L & H1 & H2 & H3 & H4 & H5); [rewrite length_upd; auto|].
      exists L. split; [lia|]. split; [|split; [|split; [auto|]]].
      * intros k Hk. destruct (Nat.eq_dec k j) as [->|]; [apply Qle_bool_iff; auto|apply H2; lia].
      * intros; apply H3; lia.
      * intros i. rewrite H5. assert (Hm : (start + j) mod n_var < n_var) by (apply Nat.mod_upper_bound; lia).
        rewrite nth_upd. rewrite HM. replace ((start + j) mod n_var <? n_var) with true by (symmetry; apply Nat.ltb_lt; auto).
        destruct (i =? (start + j) mod n_var) eqn:Ei; simpl.
        -- apply Nat.eqb_eq in Ei. split; auto. intros _. right. exists j; split; auto; lia.
        -- apply Nat.eqb_neq in Ei. apply or_iff_compat_l. split; intros (k & Hk & ->); exists k; split; auto; try lia.
           destruct (Nat.eq_dec k j); [subst; congruence|lia].
    + exists j. split; [lia|]. split; [intros; lia|]. split; [|split; auto].
      * intros _ C. apply Qle_bool_iff in C; congruence.
      * intros i. split; auto. intros [H|(k & Hk & _)]; auto; lia.
Qed.
Lemma existsb_id M : existsb (fun b => b) M = true <-> exists i, nth i M false = true.
Proof.
  rewrite existsb_exists. split.
  - intros (b & Hb & ->). apply (In_nth _ _ false) in Hb as (i & _ & H). eauto.
  - intros (i & Hi). exists true; split; auto. destruct (Nat.lt_ge_cases i (length M)).
    + rewrite <- Hi. apply nth_In; auto.
    + rewrite nth_overflow in Hi; [discriminate|auto].
Qed.
Lemma row_once_length M r : length (row_at_least_once_true M r) = length M.
Proof. unfold row_at_least_once_true. destruct (existsb _ M); auto. apply length_upd. Qed.
Lemma row_once_spec M r i : r < length M ->
  nth i (row_at_least_once_true M r) false = true <->
  nth i M false = true \/ ((forall k, nth k M false = false) /\ i = r).
Proof.
  intros Hr. unfold row_at_least_once_true. destruct (existsb (fun b => b) M) eqn:E.
  - apply existsb_id in E as (k & Hk). split; auto. intros [H|[H _]]; auto. rewrite H in Hk; discriminate.
  - assert (HF : forall k, nth k M false = false).
    { intros k. destruct (nth k M false) eqn:Ek; auto. rewrite <- E. symmetry. apply existsb_id; eauto. }
    rewrite nth_upd, HF. apply Nat.ltb_lt in Hr. rewrite Hr.
    destruct (Nat.eqb_spec i r); simpl; split; auto; intuition discriminate.
Qed.

(** ** balanced prefixes of concatenated permutations *)
Lemma count_perm_seq l m i : Permutation l (seq 0 m) -> i < m -> count_occ Nat.eq_dec l i = 1.
Proof.
  intros HP Hi. apply NoDup_count_occ'; [eapply perm_seq_NoDup; eauto|]. apply (perm_seq_In _ _ i HP); auto.
Qed.
Lemma balanced_prefix m ps k : Forall (fun p => Permutation p (seq 0 m)) ps -> balanced m (firstn k (concat ps)).
Proof.
  intros HF. revert k. induction HF as [|p ps Hp HF IH]; intros k i j Hi Hj; simpl.
  - rewrite firstn_nil. simpl. lia.
  - pose proof (perm_seq_length _ _ Hp) as HL. rewrite firstn_app, !count_occ_app.
    destruct (Nat.lt_ge_cases k (length p)).
    + replace (k - length p) with 0 by lia. simpl. rewrite !Nat.add_0_r.
      assert (NoDup (firstn k p)). { apply perm_seq_NoDup in Hp. rewrite <- (firstn_skipn k) in Hp. apply NoDup_app_iff in Hp; tauto. }
      pose proof (proj1 (NoDup_count_occ Nat.eq_dec _) H0 i). lia.
    + rewrite firstn_all2 by lia. rewrite !(count_perm_seq p m) by auto. specialize (IH (k - length p) i j Hi Hj). lia.
Qed.
Lemma fill_perms_concat n_off m perms : 0 < m -> (forall j, length (perms j) = m) -> forall fuel j s,
  n_off <= length s + fuel ->
  exists t, fill_perms n_off fuel perms j s = s ++ concat (map perms (seq j t)) /\ n_off <= length (fill_perms n_off fuel perms j s).
Proof.
  intros Hm HP. induction fuel as [|fuel IH]; intros j s Hf; simpl.
  - destruct (Nat.ltb_spec (length s) n_off); [lia|]. exists 0. simpl. rewrite app_nil_r. auto.
  - destruct (Nat.ltb_spec (length s) n_off).
    + destruct (IH (j + 1) (s ++ perms j)) as (t & E & HL); [rewrite app_length, HP; lia|].
      exists (S t). rewrite E in *. split; auto. simpl. rewrite <- app_assoc. replace (S j) with (j + 1) by lia. auto.
    + exists 0. simpl. rewrite app_nil_r. auto.
Qed.

Lemma flat_map_length_const {B C} (f : B -> list C) l n : (forall x, In x l -> length (f x) = n) -> length (flat_map f l) = length l * n.
Proof. induction l; intros H; simpl; auto. rewrite app_length, H, IHl; simpl; auto. intros; apply H; simpl; auto. Qed.
Lemma flat_map_nth {C} (f : nat -> list C) m n : forall a o k d, (forall x, length (f x) = n) -> o < m -> k < n ->
  nth (o * n + k) (flat_map f (seq a m)) d = nth k (f (a + o)) d.
Proof.
  induction m; intros a o k d H Ho Hk; [lia|]. simpl. destruct o.
  - simpl. rewrite Nat.add_0_r, app_nth1 by (rewrite H; auto). auto.
  - rewrite app_nth2 by (rewrite H; simpl; lia). rewrite H. replace (S o * n + k - n) with (o * n + k) by (simpl; lia).
    rewrite IHm by (auto; lia). f_equal. f_equal. lia.
Qed.
