(** * Dominance-degree sorts, bi-objective sort, tree-based sort *)
From Coq Require Import List ZArith Bool Lia Arith Permutation.
From Verif Require Import Flt ListAux M_Dominator M_NDS S_Pareto S_NDS P_Dominator P_Peel P_FastNDS P_NDS1.
Import ListNotations.

(** ** Peeling by repeatedly removing the minimal points *)
Definition ppeel (n : nat) (dom : nat -> nat -> Prop) (fronts : list (list nat)) : Prop :=
  NoDup (concat fronts) /\ (forall i, In i (concat fronts) -> i < n) /\
  (forall k, k < length fronts -> nth k fronts [] <> []) /\
  (forall k i, k < length fronts ->
     (In i (nth k fronts []) <->
      i < n /\ ~ in_earlier fronts k i /\ forall j, j < n -> ~ in_earlier fronts k j -> ~ dom j i)).

Definition is_minimal (n : nat) (dom : nat -> nat -> Prop) (removed : list nat) (i : nat) : Prop :=
  i < n /\ ~ In i removed /\ forall j, j < n -> ~ In j removed -> ~ dom j i.

Lemma in_earlier_all fronts i : in_earlier fronts (length fronts) i <-> In i (concat fronts).
Proof.
  rewrite in_concat_nth. split; intros (k & Hk & Hi); exists k; auto.
Qed.

Lemma in_earlier_snoc fronts cur k i : k <= length fronts ->
  in_earlier (fronts ++ [cur]) k i <-> in_earlier fronts k i.
Proof.
  intros Hk. split; intros (k' & Hk' & Hi); exists k'; split; auto.
  - rewrite app_nth1 in Hi by lia. auto.
  - rewrite app_nth1 by lia. auto.
Qed.

Lemma ppeel_nil n dom : ppeel n dom [].
Proof. split; [constructor|]. split; [intros i []|]. split; intros; simpl in *; lia. Qed.

Lemma ppeel_extend n dom fronts cur :
  ppeel n dom fronts -> NoDup cur -> cur <> [] ->
  (forall i, In i cur <-> is_minimal n dom (concat fronts) i) -> ppeel n dom (fronts ++ [cur]).
Proof.
  intros (H1 & H2 & H3 & H4) Hnd Hne Hcur. split; [|split; [|split]].
  - rewrite concat_app. simpl. rewrite app_nil_r. apply NoDup_app_iff. split; auto. split; auto.
    intros x Hx Hx'. apply Hcur in Hx' as (_ & Hx' & _). auto.
  - intros i. rewrite concat_app, in_app_iff. simpl. rewrite app_nil_r. intros [H|H]; [auto|]. apply Hcur in H as [H _]; auto.
  - intros k Hk. rewrite app_length in Hk. simpl in Hk. rewrite nth_snoc.
    destruct (Nat.ltb_spec k (length fronts)); [auto|]. destruct (Nat.eqb_spec k (length fronts)); [auto|lia].
  - intros k i Hk. rewrite app_length in Hk. simpl in Hk.
    rewrite in_earlier_snoc by lia. rewrite nth_snoc. destruct (Nat.ltb_spec k (length fronts)) as [Hlt|Hge].
    + rewrite H4 by auto. split; intros (A & B & C); (split; [auto|]; split; [auto|]); intros j Hj Hn; apply C; auto;
        intros H; apply Hn; apply (in_earlier_snoc fronts cur k j); auto; lia.
    + destruct (Nat.eqb_spec k (length fronts)) as [->|]; [|lia]. rewrite Hcur. unfold is_minimal.
      rewrite in_earlier_all. split; intros (A & B & C); (split; [auto|]; split; [auto|]); intros j Hj Hn; apply C; auto;
        intros H; apply Hn.
      * apply in_earlier_snoc; auto. now apply in_earlier_all.
      * apply in_earlier_all. apply (in_earlier_snoc fronts cur); auto.
Qed.

Lemma ppeel_done n dom fronts : ppeel n dom fronts -> n <= length (concat fronts) -> is_peeling n dom fronts.
Proof.
  intros (H1 & H2 & H3 & H4) Hl. split; [|auto]. apply perm_seq_of_NoDup; auto.
  intros i. split; auto. intros Hi. eapply NoDup_full with (n := n); eauto.
Qed.

(** a subset in which no member is dominated by a member and such that every other remaining point is dominated
    by a member, is the set of minimal points *)
Lemma kernel_minimal n (dom : nat -> nat -> Prop) removed cur :
  (forall i j k, i < n -> j < n -> k < n -> dom i j -> dom j k -> dom i k) ->
  (forall i, In i cur -> i < n /\ ~ In i removed) ->
  (forall i j, In i cur -> In j cur -> ~ dom j i) ->
  (forall i, i < n -> ~ In i removed -> ~ In i cur -> exists j, In j cur /\ dom j i) ->
  forall i, In i cur <-> is_minimal n dom removed i.
Proof.
  intros Ht Hsub Hin Hout i. split.
  - intros Hi. destruct (Hsub i Hi) as [Hin' Hr]. split; auto. split; auto.
    intros j Hj Hjr Hd. destruct (in_dec Nat.eq_dec j cur) as [Hjc|Hjc]; [exfalso; now apply (Hin i j)|].
    destruct (Hout j Hj Hjr Hjc) as (q & Hq & Hqd). apply (Hin i q); auto.
    apply Ht with (j := j); auto. apply Hsub; auto.
  - intros (Hi & Hr & Hmin). destruct (in_dec Nat.eq_dec i cur) as [|Hc]; auto. exfalso.
    destruct (Hout i Hi Hr Hc) as (j & Hj & Hd). destruct (Hsub j Hj). eapply Hmin; eauto.
Qed.

Lemma is_peeling_ext n (d d' : nat -> nat -> Prop) f :
  (forall i j, i < n -> j < n -> (d i j <-> d' i j)) -> is_peeling n d f -> is_peeling n d' f.
Proof.
  intros H (HP & HN & HF). split; [auto|]. split; [auto|].
  intros k i Hk. rewrite HF by auto. split; intros (A & B & C); (split; [auto|]; split; [auto|]); intros j Hj Hn Hd;
    apply (C j Hj Hn); apply H; auto.
Qed.

Lemma perm_nth_inj I n p q : Permutation I (seq 0 n) -> p < n -> q < n -> nth p I 0 = nth q I 0 -> p = q.
Proof.
  intros HI Hp Hq E. pose proof (perm_seq_length _ _ HI) as HL. pose proof (perm_seq_NoDup _ _ HI) as Hnd.
  eapply (proj1 (NoDup_nth I 0)); eauto; lia.
Qed.

Lemma perm_nth_lt I n p : Permutation I (seq 0 n) -> p < n -> nth p I 0 < n.
Proof. intros HI Hp. apply (perm_seq_In _ _ _ HI), nth_In. rewrite (perm_seq_length _ _ HI). auto. Qed.

Lemma perm_nth_surj I n i : Permutation I (seq 0 n) -> i < n -> exists p, p < n /\ nth p I 0 = i.
Proof.
  intros HI Hi. apply (perm_seq_In _ _ i HI) in Hi. apply In_nth with (d := 0) in Hi as (p & Hp & E).
  exists p. rewrite (perm_seq_length _ _ HI) in Hp. auto.
Qed.

Lemma peeling_map n (dom : nat -> nat -> Prop) fronts I :
  Permutation I (seq 0 n) ->
  is_peeling n (fun p q => dom (nth p I 0) (nth q I 0)) fronts ->
  is_peeling n dom (map (gather 0 I) fronts).
Proof.
  intros HI (HP & HN & HF). set (f := fun p => nth p I 0) in *.
  assert (Hnth : forall k, nth k (map (gather 0 I) fronts) [] = map f (nth k fronts [])).
  { intros k. exact (map_nth (gather 0 I) fronts [] k). }
  assert (Hlt : forall k p, In p (nth k fronts []) -> p < n).
  { intros k p Hp. apply (perm_seq_In _ _ p HP). apply in_concat_nth. exists k. split; auto. eapply nth_In_lt; eauto. }
  assert (Hmem : forall k p, p < n -> (In (f p) (nth k (map (gather 0 I) fronts) []) <-> In p (nth k fronts []))).
  { intros k p Hp. rewrite Hnth, in_map_iff. split; [|intros H; exists p; auto].
    intros (q & E & Hq). assert (q = p) by (apply (perm_nth_inj I n); auto; eapply Hlt; eauto). now subst. }
  assert (Hear : forall k p, p < n -> (in_earlier (map (gather 0 I) fronts) k (f p) <-> in_earlier fronts k p)).
  { intros k p Hp. split; intros (k' & Hk' & Hi); exists k'; (split; [auto|]); apply Hmem; auto. }
  split; [|split].
  - rewrite <- (concat_map f). transitivity (map f (seq 0 n)); [now apply Permutation_map|].
    replace (map f (seq 0 n)) with I; auto. rewrite <- (perm_seq_length _ _ HI). symmetry. apply (gather_seq 0 I).
  - intros k Hk. rewrite map_length in Hk. rewrite Hnth. specialize (HN k Hk). destruct (nth k fronts []); [congruence|discriminate].
  - intros k i Hk. rewrite map_length in Hk. split.
    + rewrite Hnth, in_map_iff. intros (p & <- & Hp). pose proof (Hlt k p Hp) as Hpn.
      apply HF in Hp as (_ & Hne & Hmin); auto. split; [now apply perm_nth_lt|]. split; [now rewrite Hear|].
      intros j Hj Hnj. destruct (perm_nth_surj I n j HI Hj) as (q & Hq & <-). fold (f q) in *.
      apply Hmin; auto. rewrite <- Hear; auto.
    + intros (Hi & Hne & Hmin). destruct (perm_nth_surj I n i HI Hi) as (p & Hp & <-). fold (f p) in *.
      apply Hmem; auto. apply HF; auto. split; auto. split; [now rewrite <- Hear|].
      intros j Hj Hnj. apply Hmin; [now apply perm_nth_lt|]. fold (f j). now rewrite Hear.
Qed.

(** ** the comparison matrix *)
Lemma upd_ones_row l row j :
  nth j (fold_left (fun row j => upd row j 1%Z) l row) 0%Z = if (j <? length row) && mem l j then 1%Z else nth j row 0%Z.
Proof. apply rank_inner. Qed.

Lemma nth_skipn' {A} (l : list A) k i d : nth i (skipn k l) d = nth (k + i) l d.
Proof. revert l; induction k as [|k IH]; intros l; simpl; auto. destruct l; simpl; auto. now destruct i. Qed.

Section Comp.
  Variables (vec : list flt) (srt : list nat).
  Let n := length vec.
  Hypothesis Hok : vec_ok vec.
  Hypothesis Hsrt : is_argsort fltb f_nan vec srt.

  Let v i := nth i vec f_nan.
  Let s p := nth p srt 0.

  Lemma comp_s_lt p : p < n -> s p < n.
  Proof. intros Hp. eapply perm_nth_lt; [apply Hsrt|auto]. Qed.
  Lemma comp_v_ok i : i < n -> isnan (v i) = false.
  Proof. intros Hi. unfold vec_ok in Hok. rewrite Forall_forall in Hok. apply Hok, nth_In, Hi. Qed.
  Lemma comp_len : length srt = n.
  Proof. eapply perm_seq_length. apply Hsrt. Qed.
  Lemma comp_sorted p q : p <= q -> q < n -> fleb (v (s p)) (v (s q)) = true.
  Proof.
    intros Hpq Hq. destruct (Nat.eq_dec p q) as [->|Hne]; [apply fle_refl, comp_v_ok, comp_s_lt; auto|].
    apply nlt_le; try (apply comp_v_ok, comp_s_lt; lia).
    destruct Hsrt as [_ H]. apply H; [lia|]. rewrite comp_len. lia.
  Qed.

  Definition comp_ok (t : nat) (c : list (list Z)) : Prop :=
    square n c /\
    (forall p j, p < t -> j < n -> entry c (s p) j = if fleb (v (s p)) (v j) then 1%Z else 0%Z) /\
    (forall p j, t <= p -> p < n -> j < n -> entry c (s p) j = 0%Z).

  Lemma entry_upd_row c i r a j : i < length c -> entry (upd c i r) a j = if a =? i then nth j r 0%Z else entry c a j.
  Proof.
    intros Hi. unfold entry. rewrite nth_upd. destruct (Nat.eqb_spec a i); simpl; auto.
    now rewrite (proj2 (Nat.ltb_lt _ _) Hi).
  Qed.

  Lemma square_upd_row c i r : square n c -> length r = n -> square n (upd c i r).
  Proof.
    intros [H1 H2] Hr. split; [now rewrite length_upd|]. intros k Hk. rewrite nth_upd.
    destruct (Nat.eqb_spec k i); simpl; auto. destruct (i <? length c); auto.
  Qed.

  Lemma comp_step c t : 0 < t -> t < n -> comp_ok t c -> comp_ok (S t) (comp_row_step vec srt c t).
  Proof.
    intros H0 Ht (Hsq & Hdone & Hrest). unfold comp_row_step. fold (s t) (s (t - 1)). fold (v (s t)) (v (s (t - 1))).
    pose proof Hsq as [Hl Hrow].
    pose proof (comp_s_lt t Ht) as Hst. pose proof (comp_s_lt (t - 1) ltac:(lia)) as Hsp.
    assert (Hinj : forall p q, p < n -> q < n -> s p = s q -> p = q).
    { intros p q Hp Hq. eapply perm_nth_inj; eauto. apply Hsrt. }
    destruct (feqb (v (s t)) (v (s (t - 1)))) eqn:E.
    - split; [|split].
      + apply square_upd_row; auto.
      + intros p j Hp Hj. rewrite entry_upd_row by lia. destruct (Nat.eqb_spec (s p) (s t)) as [Heq|Hne].
        * fold (entry c (s (t - 1)) j). rewrite Hdone by lia. rewrite Heq.
          assert (fleb (v (s (t - 1))) (v j) = fleb (v (s t)) (v j)) as ->; auto.
          apply eq_true_iff_eq. split; intros H; (eapply fle_trans; [|exact H]); apply feq_le; auto. now rewrite feq_sym.
        * destruct (Nat.eq_dec p t) as [->|]; [congruence|]. apply Hdone; lia.
      + intros p j Hp Hpn Hj. rewrite entry_upd_row by lia.
        destruct (Nat.eqb_spec (s p) (s t)) as [Heq|Hne]; [apply Hinj in Heq; lia|]. apply Hrest; lia.
    - split; [|split].
      + apply square_upd_row; auto. rewrite length_rank_inner. auto.
      + intros p j Hp Hj. rewrite entry_upd_row by lia. destruct (Nat.eqb_spec (s p) (s t)) as [Heq|Hne].
        * rewrite Heq. rewrite upd_ones_row, Hrow, (proj2 (Nat.ltb_lt _ _) Hj) by auto. simpl.
          fold (entry c (s t) j). rewrite Hrest by lia.
          destruct (perm_nth_surj srt n j) as (q & Hq & Hqj); [apply Hsrt | auto |]. fold (s q) in Hqj. subst j.
          assert (Hm : mem (skipn t srt) (s q) = true <-> t <= q).
          { rewrite mem_iff. split.
            - intros Hin. apply In_nth with (d := 0) in Hin as (u & Hu & Eu). rewrite skipn_length, comp_len in Hu.
              rewrite nth_skipn' in Eu. fold (s (t + u)) in Eu. apply Hinj in Eu; lia.
            - intros Htq. apply in_nth_iff with (d := 0). exists (q - t). rewrite skipn_length, comp_len, nth_skipn'. split; [lia|].
              unfold s. f_equal. lia. }
          destruct (mem (skipn t srt) (s q)) eqn:Em.
          -- rewrite comp_sorted; auto. now apply Hm.
          -- assert (~ t <= q) by (rewrite <- Hm; congruence).
             destruct (fleb (v (s t)) (v (s q))) eqn:El; auto. exfalso.
             assert (L1 : fleb (v (s q)) (v (s (t - 1))) = true) by (apply comp_sorted; lia).
             assert (L2 : fleb (v (s t)) (v (s (t - 1))) = true) by (eapply fle_trans; eauto).
             assert (L3 : fleb (v (s (t - 1))) (v (s t)) = true) by (apply comp_sorted; lia).
             rewrite (fle_antisym _ _ L2 L3) in E. discriminate.
        * destruct (Nat.eq_dec p t) as [->|]; [congruence|]. apply Hdone; lia.
      + intros p j Hp Hpn Hj. rewrite entry_upd_row by lia.
        destruct (Nat.eqb_spec (s p) (s t)) as [Heq|Hne]; [apply Hinj in Heq; lia|]. apply Hrest; lia.
  Qed.

  Lemma comp_init : 0 < n -> comp_ok 1 (upd (zeros2 n n) (nth 0 srt 0) (repeat 1%Z n)).
  Proof.
    intros H0. pose proof (square_zeros n) as Hsq. pose proof Hsq as [Hl Hrow].
    assert (Hs0 : nth 0 srt 0 < n) by (apply comp_s_lt; auto).
    split; [|split].
    - apply square_upd_row; auto. apply repeat_length.
    - intros p j Hp Hj. assert (p = 0) by lia. subst p. rewrite entry_upd_row by lia. unfold s. rewrite Nat.eqb_refl.
      rewrite nth_repeat' by auto.
      destruct (perm_nth_surj srt n j) as (q & Hq & Hqj); [apply Hsrt | auto |]. fold (s q) in Hqj. subst j.
      fold (s 0). now rewrite comp_sorted by lia.
    - intros p j Hp Hpn Hj. rewrite entry_upd_row by lia.
      destruct (Nat.eqb_spec (s p) (nth 0 srt 0)) as [Heq|Hne]; [|apply entry_zeros].
      exfalso. assert (p = 0); [|lia]. eapply perm_nth_inj; [apply Hsrt| | |exact Heq]; auto.
  Qed.

  Lemma comp_matrix_spec i j : i < n -> j < n ->
    entry (construct_comp_matrix vec srt) i j = if fleb (v i) (v j) then 1%Z else 0%Z.
  Proof.
    intros Hi Hj. unfold construct_comp_matrix. fold n.
    assert (G : forall k, 1 + k <= n ->
      comp_ok (1 + k) (fold_left (comp_row_step vec srt) (seq 1 k) (upd (zeros2 n n) (nth 0 srt 0) (repeat 1%Z n)))).
    { induction k as [|k IH]; intros Hk; [apply comp_init; lia|].
      rewrite seq_S, fold_left_app. cbn [fold_left]. apply comp_step; try lia. apply IH; lia. }
    specialize (G (n - 1) ltac:(lia)). replace (1 + (n - 1)) with n in G by lia.
    destruct G as (_ & G & _).
    destruct (perm_nth_surj srt n i) as (p & Hp & Hpi); [apply Hsrt | auto |]. subst i. now apply G.
  Qed.

  Lemma comp_matrix_square : square n (construct_comp_matrix vec srt).
  Proof.
    destruct (Nat.eq_dec n 0) as [H0|H0].
    - unfold construct_comp_matrix. fold n. rewrite H0. simpl. split; simpl; auto. intros; lia.
    - unfold construct_comp_matrix. fold n.
      assert (G : forall k, 1 + k <= n ->
        comp_ok (1 + k) (fold_left (comp_row_step vec srt) (seq 1 k) (upd (zeros2 n n) (nth 0 srt 0) (repeat 1%Z n)))).
      { induction k as [|k IH]; intros Hk; [apply comp_init; lia|].
        rewrite seq_S, fold_left_app. cbn [fold_left]. apply comp_step; try lia. apply IH; lia. }
      apply (G (n - 1)). lia.
  Qed.
End Comp.

(** ** the dominance degree matrix *)
(** number of objectives in which row i is no worse than row j *)

Lemma nth_map_def {A B} (f : A -> B) l i d d' : i < length l -> nth i (map f l) d = f (nth i l d').
Proof. intros H. rewrite nth_indep with (d' := f d') by (now rewrite map_length). apply map_nth. Qed.

Lemma madd_square n A B : square n A -> square n B -> square n (madd A B) /\
  forall i j, i < n -> j < n -> entry (madd A B) i j = (entry A i j + entry B i j)%Z.
Proof.
  intros [A1 A2] [B1 B2]. unfold madd. split.
  - split; [rewrite length_map2; lia|]. intros i Hi. rewrite nth_map2 with (da := []) (db := []) by lia.
    rewrite length_map2, A2, B2; lia.
  - intros i j Hi Hj. unfold entry. rewrite nth_map2 with (da := []) (db := []) by lia.
    apply nth_map2; rewrite ?A2, ?B2; auto.
Qed.

Lemma column_nth F k i : i < length F -> nth i (column F k) f_nan = cell F i k.
Proof. intros Hi. unfold column, cell. now rewrite nth_map_def with (d' := []). Qed.

Lemma column_ok m F k : rect m F -> mat_ok F -> k < m -> vec_ok (column F k).
Proof.
  intros Hr Hok Hk. unfold column. apply Forall_forall. intros x Hx. apply in_map_iff in Hx as (r & <- & Hr').
  unfold rect, mat_ok in *. rewrite Forall_forall in *. specialize (Hok r Hr'). specialize (Hr r Hr').
  unfold vec_ok in Hok. rewrite Forall_forall in Hok. apply Hok, nth_In. lia.
Qed.


Section DDA.
  Variables (m : nat) (F : fltmat) (b : list (list nat)).
  Hypothesis (Hm : 0 < m) (Hr : rect m F) (Hok : mat_ok F) (Hb : argsort_columns m F b) (Hne : F <> []).
  Let n := length F.

  Lemma dda_M : length (nth 0 F []) = m.
  Proof. apply rect_nth; auto. destruct F; [congruence | simpl; lia]. Qed.

  Lemma dda_sum k : k <= m ->
    let d := fold_left (fun d k => madd d (construct_comp_matrix (column F k) (nth k b []))) (seq 0 k) (zeros2 n n) in
    square n d /\ forall i j, i < n -> j < n -> entry d i j = Z.of_nat (degree k F i j).
  Proof.
    induction k as [|k IH]; intros Hk; cbn zeta.
    - split; [apply square_zeros|]. intros i j _ _. simpl. apply entry_zeros.
    - rewrite seq_S, fold_left_app. cbn [fold_left plus]. destruct IH as [H1 H2]; [lia|].
      assert (HC : length (column F k) = n) by (unfold column; apply map_length).
      assert (Hck : vec_ok (column F k)) by (apply (column_ok m); auto; lia).
      pose proof (comp_matrix_square (column F k) (nth k b []) Hck (Hb k ltac:(lia))) as HS. rewrite HC in HS.
      destruct (madd_square n _ _ H1 HS) as [K1 K2]. split; auto.
      intros i j Hi Hj. rewrite K2, H2 by auto. rewrite comp_matrix_spec; auto; try (rewrite HC; auto).
      rewrite !column_nth by auto. unfold degree. rewrite seq_S, filter_app, app_length. simpl.
      destruct (fleb (cell F i k) (cell F j k)); simpl; lia.
  Qed.

  Lemma degree_le i j : degree m F i j <= m.
  Proof.
    unfold degree. rewrite <- (seq_length m 0) at 2. generalize (seq 0 m) as l.
    induction l as [|x l IH]; simpl; auto. destruct (fleb _ _); simpl; lia.
  Qed.

  Lemma degree_full i j : degree m F i j = m <-> forall k, k < m -> fleb (cell F i k) (cell F j k) = true.
  Proof.
    unfold degree. split.
    - intros H k Hk. assert (Hin : In k (filter (fun k => fleb (cell F i k) (cell F j k)) (seq 0 m))).
      { eapply NoDup_full with (n := m); auto.
        - apply NoDup_filter, seq_NoDup.
        - intros x Hx. apply filter_In in Hx as [Hx _]. apply in_seq in Hx. lia.
        - lia. }
      apply filter_In in Hin. tauto.
    - intros H. rewrite (filter_ext_in' _ (fun _ => true)).
      + rewrite <- (seq_length m 0) at 2. generalize (seq 0 m) as l. induction l; simpl; auto.
      + intros k Hk. apply in_seq in Hk. apply H. lia.
  Qed.

  Definition dd (i j : nat) : Z :=
    if (degree m F i j =? m) && (degree m F j i =? m) then 0%Z else Z.of_nat (degree m F i j).

  Lemma dda_square : square n (construct_domination_matrix F b) /\
    forall i j, i < n -> j < n -> entry (construct_domination_matrix F b) i j = dd i j.
  Proof.
    unfold construct_domination_matrix. rewrite dda_M. destruct (dda_sum m (le_n _)) as [H1 H2]. fold n.
    set (d := fold_left _ (seq 0 m) (zeros2 n n)) in *. cbv zeta. split.
    - split; [now rewrite map_length, seq_length|]. intros i Hi.
      rewrite nth_map_def with (d' := 0) by (now rewrite seq_length). now rewrite map_length, seq_length.
    - intros i j Hi Hj. unfold entry at 1.
      rewrite nth_map_def with (d' := 0) by (now rewrite seq_length).
      rewrite nth_map_def with (d' := 0) by (now rewrite seq_length). rewrite !seq_nth by auto. simpl.
      rewrite !H2 by auto. unfold dd.
      assert (HZ : forall a, Z.eqb (Z.of_nat a) (Z.of_nat m) = (a =? m)).
      { intros a. apply eq_true_iff_eq. rewrite Z.eqb_eq, Nat.eqb_eq. lia. }
      now rewrite !HZ.
  Qed.

  Lemma Forall2_cells i j : i < n -> j < n ->
    (Forall2 (fun x y => fleb x y = true) (nth i F []) (nth j F []) <-> forall k, k < m -> fleb (cell F i k) (cell F j k) = true).
  Proof.
    intros Hi Hj. unfold cell. pose proof (rect_nth m F i Hr Hi) as L1. pose proof (rect_nth m F j Hr Hj) as L2.
    revert L1 L2. generalize (nth i F []) as a, (nth j F []) as c. clear. intros a c L1 L2. split.
    - intros H k Hk. assert (G : forall (a c : list flt), Forall2 (fun x y => fleb x y = true) a c -> forall k, k < length a ->
        fleb (nth k a f_nan) (nth k c f_nan) = true).
      { clear. intros a c H; induction H as [|x y a c Hxy H IH]; intros [|k] Hk; simpl in *; try lia; auto. apply IH; lia. }
      apply G; auto. lia.
    - revert c m L1 L2. induction a as [|x a IH]; intros [|y c] m L1 L2 H; simpl in *; try lia; constructor.
      + apply (H 0). lia.
      + apply (IH c (m - 1)); try lia. intros k Hk. apply (H (S k)). lia.
  Qed.

  Lemma row_dom_cells i j : i < n -> j < n ->
    (row_dom F i j <-> (forall k, k < m -> fleb (cell F i k) (cell F j k) = true) /\
                       ~ (forall k, k < m -> fleb (cell F j k) (cell F i k) = true)).
  Proof.
    intros Hi Hj. unfold row_dom.
    rewrite <- (Forall2_cells i j), <- (Forall2_cells j i) by auto.
    pose proof (mat_ok_nth F i Hok) as O1. pose proof (mat_ok_nth F j Hok) as O2.
    assert (L : length (nth i F []) = length (nth j F [])) by (rewrite !(rect_nth m); auto).
    rewrite dominates_iff by auto. rewrite <- (not_lt_somewhere_le (nth i F []) (nth j F [])) by auto.
    rewrite <- (not_lt_somewhere_le (nth j F []) (nth i F [])) by auto.
    destruct (lt_somewhere (nth i F []) (nth j F [])), (lt_somewhere (nth j F []) (nth i F [])); intuition congruence.
  Qed.

  Lemma dd_dom i j : i < n -> j < n -> (dd i j = Z.of_nat m <-> row_dom F i j).
  Proof.
    intros Hi Hj. rewrite row_dom_cells by auto. rewrite <- !degree_full. unfold dd.
    destruct (Nat.eqb_spec (degree m F i j) m) as [E1|E1]; destruct (Nat.eqb_spec (degree m F j i) m) as [E2|E2]; simpl; lia.
  Qed.

  Lemma dd_range i j : (0 <= dd i j <= Z.of_nat m)%Z.
  Proof. unfold dd. pose proof (degree_le i j). destruct (_ && _); lia. Qed.

  Lemma dd_diag i : (dd i i < Z.of_nat m)%Z.
  Proof. unfold dd. pose proof (degree_le i i). destruct (Nat.eqb_spec (degree m F i i) m); simpl; lia. Qed.

  (** column maximum *)
  Lemma fold_zmax_spec l x : let r := fold_left Z.max l x in (x <= r)%Z /\ (forall y, In y l -> (y <= r)%Z) /\ (r = x \/ In r l).
  Proof.
    revert x; induction l as [|y l IH]; intros x; simpl; [split; [lia|]; split; [tauto|auto]|].
    destruct (IH (Z.max x y)) as (H1 & H2 & H3). split; [lia|]. split.
    - intros z [->|Hz]; [lia|auto].
    - destruct H3 as [H3|H3]; auto. rewrite H3. destruct (Z.max_spec x y) as [[_ ->]|[_ ->]]; auto.
  Qed.

  Lemma col_max_spec d j : square n d -> j < n ->
    (forall i, i < n -> (entry d i j <= col_max d j)%Z) /\ exists i, i < n /\ entry d i j = col_max d j.
  Proof.
    intros [H1 H2] Hj. unfold col_max.
    assert (Hi : forall i, i < n -> entry d i j = nth i (map (fun r => nth j r 0%Z) d) 0%Z).
    { intros i Hi. rewrite nth_map_def with (d' := []) by lia. reflexivity. }
    assert (HL : length (map (fun r => nth j r 0%Z) d) = n) by (now rewrite map_length).
    destruct (map (fun r => nth j r 0%Z) d) as [|x l]; [simpl in HL; lia|].
    destruct (fold_zmax_spec l x) as (K1 & K2 & K3). split.
    - intros i Hi'. rewrite Hi by auto. destruct i as [|i]; simpl; auto. apply K2, nth_In. simpl in HL. lia.
    - destruct K3 as [K3|K3].
      + exists 0. split; [lia|]. rewrite Hi by lia. simpl. auto.
      + apply In_nth with (d := 0%Z) in K3 as (i & Hi' & E). exists (S i). simpl in HL. split; [lia|]. rewrite Hi by lia. simpl. auto.
  Qed.

  Definition wiped (removed : list nat) (i j : nat) : Z := if mem removed i || mem removed j then (-1)%Z else dd i j.

  Lemma dda_front removed d : square n d -> (forall i j, i < n -> j < n -> entry d i j = wiped removed i j) ->
    forall i, In i (where_ (fun i => (0 <=? col_max d i)%Z && (col_max d i <? Z.of_nat m)%Z) n) <->
              is_minimal n (row_dom F) removed i.
  Proof.
    intros Hsq He j. rewrite In_where, andb_true_iff, Z.leb_le, Z.ltb_lt. unfold is_minimal. split.
    - intros (Hj & H0 & HM). destruct (col_max_spec d j Hsq Hj) as (K1 & (i0 & Hi0 & Ei0)). split; auto.
      assert (Hnr : ~ In j removed).
      { intros Hin. apply mem_iff in Hin. rewrite He in Ei0 by auto. unfold wiped in Ei0. rewrite Hin, orb_true_r in Ei0. lia. }
      split; auto. intros i Hi Hir Hd. specialize (K1 i Hi). rewrite He in K1 by auto. unfold wiped in K1.
      destruct (mem removed i) eqn:E1; [apply mem_iff in E1; tauto|]. destruct (mem removed j) eqn:E2; [apply mem_iff in E2; tauto|].
      simpl in K1. apply dd_dom in Hd; auto. lia.
    - intros (Hj & Hnr & Hmin). split; auto. destruct (col_max_spec d j Hsq Hj) as (K1 & (i0 & Hi0 & Ei0)).
      destruct (mem removed j) eqn:E2; [apply mem_iff in E2; tauto|].
      split.
      + specialize (K1 j Hj). rewrite He in K1 by auto. unfold wiped in K1. rewrite E2 in K1. simpl in K1. pose proof (dd_range j j). lia.
      + rewrite <- Ei0, He by auto. unfold wiped. rewrite E2, orb_false_r. destruct (mem removed i0) eqn:E1; [lia|].
        pose proof (dd_range i0 j). destruct (Z.eq_dec (dd i0 j) (Z.of_nat m)) as [E|]; [|lia]. exfalso.
        apply dd_dom in E; auto. eapply Hmin; eauto. intros HH. apply mem_iff in HH. congruence.
  Qed.

  Lemma dda_wipe removed front d : square n d -> (forall i j, i < n -> j < n -> entry d i j = wiped removed i j) ->
    square n (wipe front d) /\
    (forall i j, i < n -> j < n -> entry (wipe front d) i j = wiped (removed ++ front) i j).
  Proof.
    intros [H1 H2] He. unfold wipe. rewrite H1. split.
    - split; [now rewrite map_length, seq_length|]. intros i Hi.
      rewrite nth_map_def with (d' := 0) by (now rewrite seq_length). now rewrite map_length, seq_length.
    - intros i j Hi Hj. unfold entry at 1.
      rewrite nth_map_def with (d' := 0) by (now rewrite seq_length).
      rewrite nth_map_def with (d' := 0) by (now rewrite seq_length). rewrite !seq_nth by auto. simpl.
      rewrite He by auto. unfold wiped.
      assert (Hmem : forall x, mem (removed ++ front) x = mem removed x || mem front x) by (intros; unfold mem; apply existsb_app).
      rewrite !Hmem. unfold mem.
      destruct (existsb (Nat.eqb i) front), (existsb (Nat.eqb j) front), (existsb (Nat.eqb i) removed), (existsb (Nat.eqb j) removed); auto.
  Qed.

  Lemma row_dom_dec i j : i < n -> j < n -> row_dom F i j \/ ~ row_dom F i j.
  Proof. intros Hi Hj. rewrite <- dd_dom by auto. destruct (Z.eq_dec (dd i j) (Z.of_nat m)); auto. Qed.

  Lemma minimal_nonempty (fronts : list (list nat)) : ppeel n (row_dom F) fronts -> length (concat fronts) < n ->
    exists i, is_minimal n (row_dom F) (concat fronts) i.
  Proof.
    intros (P1 & P2 & _) Hlt.
    set (U := filter (fun i => negb (mem (concat fronts) i)) (seq 0 n)).
    assert (HU : forall i, In i U <-> i < n /\ ~ In i (concat fronts)).
    { intros i. unfold U. rewrite filter_In, in_seq, negb_true_iff, <- not_true_iff_false, mem_iff. intuition lia. }
    set (dom' := fun i j => i < n /\ j < n /\ row_dom F i j).
    destruct (minimal_exists dom') with (l := U) as (x & Hx & Hmin).
    - intros i j. destruct (Nat.lt_ge_cases i n) as [Hi|Hi]; [|right; intros (? & _); lia].
      destruct (Nat.lt_ge_cases j n) as [Hj|Hj]; [|right; intros (_ & ? & _); lia].
      destruct (row_dom_dec i j Hi Hj); [left; split; auto | right; intros (_ & _ & ?); auto].
    - intros i (_ & _ & Hd). eapply row_dom_irrefl; eauto.
    - intros i j k (Hi & Hj & Hd) (_ & Hk & Hd'). split; auto. split; auto. eapply row_dom_trans; eauto.
    - intros HU0. assert (Hall : incl (seq 0 n) (concat fronts)).
      { intros i Hi. apply in_seq in Hi. destruct (in_dec Nat.eq_dec i (concat fronts)) as [|Hn]; auto. exfalso.
        assert (In i U) by (apply HU; split; auto; lia). rewrite HU0 in H. destruct H. }
      apply NoDup_incl_length in Hall; [|apply seq_NoDup]. rewrite seq_length in Hall. lia.
    - apply HU in Hx as [Hx1 Hx2]. exists x. split; auto. split; auto. intros j Hj Hjr Hd.
      apply (Hmin j); [apply HU; auto|]. split; auto.
  Qed.

  Lemma dda_while_spec fuel : forall d count fronts,
    square n d -> (forall i j, i < n -> j < n -> entry d i j = wiped (concat fronts) i j) ->
    ppeel n (row_dom F) fronts -> count = length (concat fronts) -> n <= count + fuel ->
    exists out, dda_while fuel n m d count fronts = Some out /\ is_peeling n (row_dom F) out.
  Proof.
    induction fuel as [|fuel IH]; intros d count fronts Hsq He HP Hc Hf; simpl.
    all: destruct (Nat.ltb_spec count n) as [Hlt|Hge]; try lia.
    1, 3: exists fronts; split; auto; apply ppeel_done; auto; lia.
    set (front := where_ _ n). pose proof (dda_front _ _ Hsq He) as HF. fold front in HF.
    destruct (minimal_nonempty fronts HP ltac:(lia)) as (x & Hx).
    assert (Hxf : In x front) by (now apply HF).
    destruct (dda_wipe _ front d Hsq He) as [W1 W2].
    assert (Hcc : concat (fronts ++ [front]) = concat fronts ++ front) by (rewrite concat_app; simpl; now rewrite app_nil_r).
    apply IH; auto.
    - intros i j Hi Hj. rewrite Hcc. auto.
    - apply ppeel_extend; auto; [apply NoDup_where|]. intros E. rewrite E in Hxf. destruct Hxf.
    - rewrite Hcc, app_length. lia.
    - destruct front; [destruct Hxf | simpl; lia].
  Qed.

  Lemma dda_ns_peeling : exists fronts, dda_ns F b = Some fronts /\ is_peeling n (row_dom F) fronts.
  Proof.
    unfold dda_ns. rewrite dda_M. destruct dda_square as [H1 H2].
    apply dda_while_spec; auto; try apply ppeel_nil; try (unfold n; lia).
  Qed.

  (** dda_ens: insertion in reverse-lexicographic order *)
  Variable I : list nat.
  Hypothesis HI : is_argsort (fun a b => lexlt (rev a) (rev b)) [] F I.

  Lemma dominates_rev a c : dominates a c -> dominates (rev a) (rev c).
  Proof.
    intros [H1 (k & x & y & Hx & Hy & Hxy)]. assert (HL : length a = length c) by (clear -H1; induction H1; simpl; auto).
    split.
    - clear -H1. induction H1; simpl; auto. apply Forall2_app; auto.
    - assert (Hk : k < length a) by (apply nth_error_Some; congruence).
      exists (length a - S k), x, y. split; [|split; auto].
      + rewrite nth_error_nth' with (d := x) by (rewrite rev_length; lia). rewrite rev_nth by lia.
        replace (length a - S (length a - S k)) with k by lia. f_equal. now apply nth_error_nth.
      + rewrite nth_error_nth' with (d := y) by (rewrite rev_length; lia). rewrite rev_nth by lia.
        replace (length c - S (length a - S k)) with k by lia. f_equal. now apply nth_error_nth.
  Qed.

  Lemma dda_topological p q : p < q -> q < n -> ~ row_dom F (nth q I 0) (nth p I 0).
  Proof.
    intros Hpq Hq Hd. destruct HI as [HP Hs]. pose proof (perm_seq_length _ _ HP) as HL.
    specialize (Hs p q Hpq ltac:(unfold n in *; lia)). cbn beta in Hs. apply dominates_rev in Hd.
    apply dominates_lexlt in Hd; [congruence| |]; apply Forall_rev, mat_ok_nth; auto.
  Qed.

  (** the position version *)
  Let f p := nth p I 0.
  Let d := construct_domination_matrix F b.
  Fixpoint pos_search (fronts : list (list nat)) (p : nat) : nat :=
    match fronts with
    | [] => 0
    | fk :: rest => if negb (existsb (fun i => Z.eqb (entry d (f i) (f p)) (Z.of_nat m)) fk) then 0 else S (pos_search rest p)
    end.

  Lemma dda_insert_pos fronts p :
    dda_insert d m (f p) (map (map f) fronts) = map (map f) (add_to fronts (pos_search fronts p) p).
  Proof.
    induction fronts as [|fk rest IH]; simpl; auto.
    assert (E : existsb (fun i => Z.eqb (entry d i (f p)) (Z.of_nat m)) (map f fk)
              = existsb (fun i => Z.eqb (entry d (f i) (f p)) (Z.of_nat m)) fk).
    { induction fk as [|a fk IHf]; simpl; auto. now rewrite IHf. }
    rewrite E. destruct (negb _); [unfold add_to; simpl; now rewrite map_app|].
    rewrite IH. unfold add_to. simpl. change (S (pos_search rest p) <? S (length rest)) with (pos_search rest p <? length rest).
    destruct (pos_search rest p <? length rest); reflexivity.
  Qed.

  Lemma fold_dda_pos l fronts :
    fold_left (fun fr s => dda_insert d m s fr) (map f l) (map (map f) fronts) =
    map (map f) (fold_left (fun fr p => add_to fr (pos_search fr p) p) l fronts).
  Proof.
    revert fronts; induction l as [|p l IH]; intros fronts; simpl; auto. now rewrite dda_insert_pos, IH.
  Qed.

  Lemma pos_search_good fronts p : p < n -> (forall k j, In j (nth k fronts []) -> j < n) ->
    let k := pos_search fronts p in
    let dom := fun p q => row_dom F (f p) (f q) in
    k <= length fronts /\ (k < length fronts -> ~ has_dom dom (nth k fronts []) p) /\
    (forall k0, k = S k0 -> has_dom dom (nth k0 fronts []) p).
  Proof.
    intros Hp. destruct HI as [HP _]. destruct dda_square as [_ Hdd]. fold d in Hdd.
    assert (Hf : forall q, q < n -> f q < n) by (intros q Hq; now apply perm_nth_lt).
    assert (Htest : forall fk, (forall j, In j fk -> j < n) ->
      existsb (fun i => Z.eqb (entry d (f i) (f p)) (Z.of_nat m)) fk = true <-> has_dom (fun p q => row_dom F (f p) (f q)) fk p).
    { intros fk Hfk. rewrite existsb_exists. unfold has_dom. split; intros (j & Hj & E); exists j; (split; [auto|]).
      - apply Z.eqb_eq in E. rewrite Hdd in E by auto. apply dd_dom in E; auto.
      - apply Z.eqb_eq. rewrite Hdd by auto. apply dd_dom; auto. }
    induction fronts as [|fk rest IH]; intros Hin; cbn [pos_search length].
    - split; [lia|]. split; [lia|discriminate].
    - assert (Hfk : forall j, In j fk -> j < n) by (intros j Hj; apply (Hin 0); auto).
      destruct (existsb _ fk) eqn:E; simpl.
      + destruct IH as (K1 & K2 & K3); [intros k j Hj; apply (Hin (S k)); auto|].
        split; [lia|]. split; [intros H; apply K2; lia|].
        intros k0 Hk0. injection Hk0 as <-. destruct (pos_search rest p) as [|k1]; [apply Htest; auto|]. apply K3. auto.
      + split; [lia|]. split; [|discriminate]. intros _ HD. apply Htest in HD; auto. congruence.
  Qed.

  Lemma dda_ens_peeling : is_peeling n (row_dom F) (dda_ens F b I).
  Proof.
    unfold dda_ens. rewrite dda_M. fold d. destruct HI as [HP _].
    replace I with (map f (seq 0 n)) at 1.
    2: { unfold n. rewrite <- (perm_seq_length _ _ HP). apply (gather_seq 0 I). }
    change (@nil (list nat)) with (map (map f) []). rewrite fold_dda_pos.
    apply layered_peeling. unfold f. apply layered_map; auto.
    apply (layered_fold (fun p q => row_dom F (nth p I 0) (nth q I 0))).
    - intros i j k. apply row_dom_trans.
    - intros i. apply row_dom_irrefl.
    - intros i j Hij Hj. now apply dda_topological.
    - intros p fronts Hp HL. apply pos_search_good; auto.
      intros k j Hj. pose proof (layered_lt _ _ _ _ _ HL Hj). lia.
  Qed.
End DDA.
