(** * C102: the spacing indicator *)
From Coq Require Import List Arith Reals Lra Lia Permutation.
From Verif Require Import ListAux M_Spacing.
Import ListNotations.
Local Open Scope R_scope.

(** ** specification *)
(** city-block distance of vectors with [m] entries *)
Definition l1 (m : nat) (a b : list R) : R := rsum_ (map (fun j => Rabs (nth j a 0 - nth j b 0)) (seq 0 m)).
(** the distance of point [i] to its nearest other point *)
Definition nearest_other (m : nat) (F : list (list R)) (i : nat) (v : R) : Prop :=
  (exists k, (k < length F)%nat /\ k <> i /\ v = l1 m (nth i F []) (nth k F [])) /\ forall k, (k < length F)%nat -> k <> i -> v <= l1 m (nth i F []) (nth k F []).

(** ** lemmas *)
Lemma map2_seqR (f : R -> R -> R) a b m : length a = m -> length b = m -> map2 f a b = map (fun j => f (nth j a 0) (nth j b 0)) (seq 0 m).
Proof.
  intros <-. revert b. induction a as [|x a IH]; intros [|y b] H; cbn in H; try discriminate; [reflexivity|]. cbn [map2 length seq map nth]. f_equal.
  rewrite <- seq_shift, map_map. cbn [nth]. apply IH. lia.
Qed.
Lemma cityblock_l1 m a b : length a = m -> length b = m -> cityblock a b = l1 m a b.
Proof. intros Ha Hb. unfold cityblock, l1. now rewrite (map2_seqR _ a b m Ha Hb). Qed.
Lemma rsum_nonneg l : (forall x, In x l -> 0 <= x) -> 0 <= rsum_ l.
Proof. induction l as [|x l IH]; intros H; cbn; [lra|]. specialize (IH ltac:(intros; apply H; now right)). specialize (H x (or_introl eq_refl)). unfold rsum_ in IH. lra. Qed.
Lemma l1_nonneg m a b : 0 <= l1 m a b.
Proof. apply rsum_nonneg. intros x Hx. apply in_map_iff in Hx. destruct Hx as (j & <- & _). apply Rabs_pos. Qed.
Lemma l1_self m a : l1 m a a = 0.
Proof. unfold l1. induction (seq 0 m) as [|j l IH]; cbn; [reflexivity|]. unfold rsum_ in IH. rewrite IH. rewrite Rminus_diag_eq by reflexivity. rewrite Rabs_R0. lra. Qed.
(** the pair kept by the fold are the two least of everything seen *)
Lemma two_least l : forall a b seen, a <= b -> 
  (exists rest, Permutation seen (a :: b :: rest) /\ forall v, In v rest -> b <= v) ->
  let r := fold_left (fun ab v => (Rmin (fst ab) v, Rmin (snd ab) (Rmax (fst ab) v))) l (a, b) in
  fst r <= snd r /\ exists rest, Permutation (seen ++ l) (fst r :: snd r :: rest) /\ forall v, In v rest -> snd r <= v.
Proof.
  induction l as [|x l IH]; intros a b seen Hab (rest & P & HR); cbn [fold_left].
  - cbn. split; [auto|]. exists rest. rewrite app_nil_r. auto.
  - cbn [fst snd]. destruct (IH (Rmin a x) (Rmin b (Rmax a x)) (seen ++ [x])) as (I1 & rest' & I2 & I3).
    + unfold Rmin, Rmax. destruct (Rle_dec a x); destruct (Rle_dec b _); lra.
    + unfold Rmin, Rmax. destruct (Rle_dec a x) as [Hx|Hx].
      * destruct (Rle_dec b x) as [Hb|Hb].
        -- exists (x :: rest). split; [|intros v [<-|Hv]; auto]. rewrite P. cbn [app]. apply perm_skip, perm_skip. symmetry. apply Permutation_cons_append.
        -- exists (b :: rest). split; [|intros v [<-|Hv]; [lra|specialize (HR v Hv); lra]]. rewrite P. cbn [app]. apply perm_skip. rewrite perm_swap. apply perm_skip. symmetry. apply Permutation_cons_append.
      * destruct (Rle_dec b a) as [Hb|Hb].
        -- assert (b = a) by lra. subst b. exists (a :: rest). split; [|intros v [<-|Hv]; [lra|auto]]. rewrite P. symmetry. apply (Permutation_cons_append (a :: a :: rest)).
        -- exists (b :: rest). split; [|intros v [<-|Hv]; [lra|specialize (HR v Hv); lra]]. rewrite P. symmetry. apply (Permutation_cons_append (a :: b :: rest)).
    + split; [exact I1|]. exists rest'. split; [|exact I3]. rewrite <- app_assoc in I2. exact I2.
Qed.
Lemma second_spec l v : second_smallest l = Some v <-> exists a rest, Permutation l (a :: v :: rest) /\ a <= v /\ forall u, In u rest -> v <= u.
Proof.
  assert (U : forall a v rest a' v' rest', Permutation (a :: v :: rest) (a' :: v' :: rest') -> a <= v -> a' <= v' -> (forall u, In u rest -> v <= u) -> (forall u, In u rest' -> v' <= u) -> v <= v').
  { clear. intros a v rest a' v' rest' P H1 H2 H3 H4. destruct (Rle_dec v v') as [|N]; auto. exfalso.
    (* both a' and v' are below v, hence must be [a] ... but there is only one *)
    assert (K : forall u, In u (v :: rest) -> v <= u) by (intros u [<-|Hu]; [lra|auto]).
    pose proof (Permutation_sym P) as P'. destruct (Permutation_in a' P' (or_introl eq_refl)) as [E|Ia]; [|specialize (K _ Ia); lra]. subst a'.
    apply Permutation_cons_inv in P'. specialize (K v' (Permutation_in v' P' (or_introl eq_refl))). lra. }
  split.
  - unfold second_smallest. destruct l as [|x [|y l]]; try discriminate. intros [= <-].
    destruct (two_least l (Rmin x y) (Rmax x y) [x; y]) as (I1 & rest & I2 & I3).
    + unfold Rmin, Rmax. destruct (Rle_dec x y); lra.
    + exists []. split; [|intros v []]. unfold Rmin, Rmax. destruct (Rle_dec x y); [reflexivity|apply perm_swap].
    + cbn [app] in I2. eauto.
  - intros (a & rest & P & Ha & HR). unfold second_smallest. destruct l as [|x [|y l]].
    + apply Permutation_nil in P. discriminate.
    + apply Permutation_length_1_inv in P. discriminate.
    + f_equal. destruct (two_least l (Rmin x y) (Rmax x y) [x; y]) as (I1 & rest' & I2 & I3).
      * unfold Rmin, Rmax. destruct (Rle_dec x y); lra.
      * exists []. split; [|intros u []]. unfold Rmin, Rmax. destruct (Rle_dec x y); [reflexivity|apply perm_swap].
      * cbn [app] in I2. apply Rle_antisym; [apply (U _ _ _ _ _ _ (Permutation_trans (Permutation_sym I2) P))|apply (U _ _ _ _ _ _ (Permutation_trans (Permutation_sym P) I2))]; auto.
Qed.
Lemma In_others {A} (l : list A) i d x : (i < length l)%nat -> In x (firstn i l ++ skipn (S i) l) <-> exists k, (k < length l)%nat /\ k <> i /\ nth k l d = x.
Proof.
  intros Hi. rewrite in_app_iff. split.
  - intros [H|H]; apply (In_nth _ _ d) in H; destruct H as (k & K1 & K2).
    + rewrite firstn_length in K1. exists k. split; [lia|]. split; [lia|]. rewrite <- K2. rewrite <- (firstn_skipn i l) at 1. apply app_nth1. rewrite firstn_length. lia.
    + rewrite skipn_length in K1. exists (S i + k)%nat. split; [lia|]. split; [lia|]. rewrite <- K2. rewrite <- (firstn_skipn (S i) l) at 1. rewrite app_nth2; rewrite firstn_length; [f_equal; lia|lia].
  - intros (k & K1 & K2 & <-). destruct (Nat.lt_ge_cases k i) as [H|H]; [left|right].
    + rewrite <- (firstn_skipn i l) at 1. rewrite app_nth1 by (rewrite firstn_length; lia). apply nth_In. rewrite firstn_length. lia.
    + rewrite <- (firstn_skipn (S i) l) at 1. rewrite app_nth2 by (rewrite firstn_length; lia). apply nth_In. rewrite firstn_length, skipn_length. lia.
Qed.
Lemma split_at {A} (l : list A) i d : (i < length l)%nat -> l = firstn i l ++ nth i l d :: skipn (S i) l.
Proof.
  revert i. induction l as [|x l IH]; intros [|i] H; cbn in H; try lia; [reflexivity|]. cbn [firstn nth skipn app]. f_equal. apply IH. lia.
Qed.
Lemma second_nearest m F i v : (forall x, In x F -> length x = m) -> (i < length F)%nat -> second_smallest (map (cityblock (nth i F [])) F) = Some v -> nearest_other m F i v.
Proof.
  intros HF Hi. set (x := nth i F []). set (row := map (cityblock x) F). rewrite second_spec. intros (a & rest & P & Ha & HR).
  assert (EN : forall k, (k < length F)%nat -> nth k row 0 = l1 m x (nth k F [])).
  { intros k Hk. unfold row. rewrite (nth_indep _ 0 (cityblock x [])) by (rewrite map_length; lia). rewrite (map_nth (cityblock x)). apply cityblock_l1; apply HF, nth_In; auto. }
  assert (HL : length row = length F) by apply map_length.
  assert (Z : nth i row 0 = 0) by (rewrite EN by auto; apply l1_self).
  assert (NN : forall u, In u row -> 0 <= u). { intros u Hu. apply (In_nth _ _ 0) in Hu. destruct Hu as (k & K1 & <-). rewrite EN by lia. apply l1_nonneg. }
  assert (A0 : a = 0).
  { apply Rle_antisym; [|apply NN, (Permutation_in a (Permutation_sym P)); now left].
    assert (Z' : In 0 row) by (rewrite <- Z; apply nth_In; lia). destruct (Permutation_in 0 P Z') as [->|[<-|H]]; [lra|auto|]. specialize (HR _ H). lra. }
  subst a. rewrite (split_at row i 0) in P by lia. rewrite Z in P. apply Permutation_sym, Permutation_cons_app_inv in P.
  assert (K : forall u, In u (firstn i row ++ skipn (S i) row) <-> u = v \/ In u rest).
  { intros u. split; intros H; [apply (Permutation_in _ (Permutation_sym P)) in H; destruct H; auto|]. apply (Permutation_in _ P). destruct H as [->|H]; [now left|now right]. }
  split.
  - destruct (proj1 (In_others row i 0 v ltac:(lia)) (proj2 (K v) (or_introl eq_refl))) as (k & K1 & K2 & <-). exists k. split; [lia|]. split; [auto|]. apply EN. lia.
  - intros k Hk Hki. rewrite <- EN by auto. destruct (proj1 (K (nth k row 0))) as [E|E]; [|rewrite E; lra|now apply HR]. apply (In_others row i 0); [lia|]. exists k. split; [lia|auto].
Qed.
Lemma nearest_unique m F i v v' : nearest_other m F i v -> nearest_other m F i v' -> v = v'.
Proof. intros [(k & K1 & K2 & ->) A] [(k' & K1' & K2' & ->) B]. apply Rle_antisym; auto. Qed.
Lemma second_some l : (2 <= length l)%nat -> exists v, second_smallest l = Some v.
Proof. destruct l as [|x [|y l]]; cbn; intros H; try lia. eauto. Qed.
Lemma all_some_map {A B} (f : A -> option B) l : (forall x, In x l -> exists y, f x = Some y) -> exists r, all_some (map f l) = Some r /\ length r = length l /\ forall i d e, (i < length l)%nat -> f (nth i l d) = Some (nth i r e).
Proof.
  induction l as [|x l IH]; intros H; [exists []; repeat split; intros; cbn in *; lia|]. destruct (H x (or_introl eq_refl)) as (y & Y). destruct IH as (r & R1 & R2 & R3); [intros; apply H; now right|].
  exists (y :: r). cbn [map all_some]. rewrite Y, R1. split; [reflexivity|]. split; [cbn; lia|]. intros [|i] d e Hi; cbn [nth]; [exact Y|]. apply R3. cbn in Hi. lia.
Qed.
Lemma rsum_zero l : (forall x, In x l -> 0 <= x) -> rsum_ l = 0 -> forall x, In x l -> x = 0.
Proof.
  induction l as [|y l IH]; intros H E x []; cbn in E; fold (rsum_ l) in E; pose proof (rsum_nonneg l ltac:(intros; apply H; now right)); pose proof (H y (or_introl eq_refl)).
  - subst. lra.
  - apply IH; auto; [intros; apply H; now right|]. lra.
Qed.
Lemma rsum_const l c : (forall x, In x l -> x = c) -> rsum_ l = INR (length l) * c.
Proof. induction l as [|x l IH]; intros H; [cbn; lra|]. cbn [length]. rewrite S_INR. cbn. fold (rsum_ l). rewrite IH by (intros; apply H; now right). rewrite (H x (or_introl eq_refl)). lra. Qed.
Lemma rsum_perm l l' : Permutation l l' -> rsum_ l = rsum_ l'.
Proof. induction 1; cbn; unfold rsum_ in *; lra. Qed.

(** ** C102: the spacing is the standard deviation of the distances to the nearest other point *)
Theorem C102_spacing : forall m F, (2 <= length F)%nat -> (forall x, In x F -> length x = m) ->
  exists d, length d = length F /\ (forall i, (i < length F)%nat -> nearest_other m F i (nth i d 0)) /\
    let mean := rsum_ d / INR (length F) in spacing F = Some (sqrt (rsum_ (map (fun v => (v - mean) ^ 2) d) / INR (length F))).
Proof.
  intros m F Hn HF. destruct (all_some_map (fun x => second_smallest (map (cityblock x) F)) F) as (d & D1 & D2 & D3); [intros x _; apply second_some; now rewrite map_length|].
  exists d. split; [exact D2|]. split.
  - intros i Hi. apply second_nearest; auto.
  - unfold spacing. destruct F; [cbn in Hn; lia|]. rewrite D1, D2. reflexivity.
Qed.
(** it is zero exactly for evenly spaced points *)
Theorem C102_spacing_zero : forall m F, (2 <= length F)%nat -> (forall x, In x F -> length x = m) ->
  (exists s, spacing F = Some s /\ 0 <= s) /\
  (spacing F = Some 0 <-> forall i j vi vj, (i < length F)%nat -> (j < length F)%nat -> nearest_other m F i vi -> nearest_other m F j vj -> vi = vj).
Proof.
  intros m F Hn HF. destruct (C102_spacing m F Hn HF) as (d & D1 & D2 & D3). cbv zeta in D3. set (mean := rsum_ d / INR (length F)) in *.
  assert (HN : 0 < INR (length F)) by (apply lt_0_INR; lia). set (q := rsum_ (map (fun v => (v - mean) ^ 2) d)) in *.
  assert (NN : forall x, In x (map (fun v => (v - mean) ^ 2) d) -> 0 <= x) by (intros x Hx; apply in_map_iff in Hx; destruct Hx as (v & <- & _); apply pow2_ge_0).
  assert (Q : 0 <= q) by (apply rsum_nonneg, NN). rewrite D3. split; [eexists; split; [reflexivity|apply sqrt_pos]|]. split.
  - intros E0. injection E0 as E. apply sqrt_eq_0 in E; [|apply Rmult_le_pos; [auto|apply Rlt_le, Rinv_0_lt_compat, HN]].
    assert (q = 0). { apply (Rmult_eq_reg_r (/ INR (length F))); [unfold Rdiv in E; lra|]. apply Rinv_neq_0_compat. lra. }
    assert (EQ : forall i, (i < length F)%nat -> nth i d 0 = mean).
    { intros i Hi. assert (K : (nth i d 0 - mean) ^ 2 = 0) by (apply (rsum_zero _ NN H); apply in_map_iff; exists (nth i d 0); split; auto; apply nth_In; lia). apply Rmult_integral in K. destruct K as [K|K]; [lra|]. apply Rmult_integral in K. lra. }
    intros i j vi vj Hi Hj Ni Nj. rewrite (nearest_unique m F i vi _ Ni (D2 i Hi)), (nearest_unique m F j vj _ Nj (D2 j Hj)). rewrite !EQ; auto.
  - intros H. assert (C : forall x, In x d -> x = nth 0 d 0). { intros x Hx. apply (In_nth _ _ 0) in Hx. destruct Hx as (i & I1 & <-). apply (H i 0%nat); [lia|lia|apply D2; lia|apply D2; lia]. }
    assert (M : mean = nth 0 d 0). { unfold mean. rewrite (rsum_const d _ C), D1. field. lra. }
    assert (q = 0). { unfold q. rewrite (rsum_const _ 0); [lra|]. intros x Hx. apply in_map_iff in Hx. destruct Hx as (v & <- & Hv). rewrite M, (C v Hv). ring. }
    rewrite H0. unfold Rdiv. rewrite Rmult_0_l, sqrt_0. reflexivity.
Qed.
(** the order of the points does not matter *)
Lemma second_perm l l' : Permutation l l' -> second_smallest l = second_smallest l'.
Proof.
  intros P. destruct (second_smallest l) as [v|] eqn:E.
  - apply second_spec in E. destruct E as (a & rest & E & H). symmetry. apply second_spec. exists a, rest. split; [now rewrite <- P|auto].
  - destruct (second_smallest l') as [v|] eqn:E'; auto. apply second_spec in E'. destruct E' as (a & rest & E' & H). assert (K : second_smallest l = Some v) by (apply second_spec; exists a, rest; split; [now rewrite P|auto]). congruence.
Qed.
Lemma all_some_perm {A} (l l' : list (option A)) : Permutation l l' -> match all_some l, all_some l' with Some r, Some r' => Permutation r r' | None, None => True | _, _ => False end.
Proof.
  induction 1 as [|x l l' P IH|x y l|l l' l'' P1 IH1 P2 IH2]; cbn.
  - constructor.
  - destruct x as [x|]; auto. destruct (all_some l), (all_some l'); auto.
  - destruct x as [x|], y as [y|]; auto; destruct (all_some l); auto. apply perm_swap.
  - destruct (all_some l), (all_some l'), (all_some l''); auto; try tauto. now rewrite IH1.
Qed.
Theorem C102_spacing_order : forall F F', Permutation F F' -> spacing F = spacing F'.
Proof.
  intros F F' P. unfold spacing. destruct F as [|x F0]; [apply Permutation_nil in P; now subst|]. destruct F' as [|y F0']; [apply Permutation_sym, Permutation_nil in P; discriminate|].
  set (F := x :: F0) in *. set (F' := y :: F0') in *.
  assert (E : Permutation (map (fun x => second_smallest (map (cityblock x) F)) F) (map (fun x => second_smallest (map (cityblock x) F')) F')).
  { rewrite (Permutation_map _ P). erewrite map_ext; [apply Permutation_refl|]. intros u. apply second_perm, Permutation_map, P. }
  pose proof (all_some_perm _ _ E) as A. destruct (all_some (map _ F)) as [d|], (all_some (map _ F')) as [d'|]; try tauto.
  rewrite (rsum_perm _ _ A), (Permutation_length A), (Permutation_length P). f_equal. f_equal. f_equal. apply rsum_perm, Permutation_map, A.
Qed.
(** one point is an error, no point scores 0 *)
Theorem C102_spacing_few : spacing [] = Some 0 /\ forall x, spacing [x] = None.
Proof. split; reflexivity. Qed.
(** the hypotheses are met: 0, 1, 3 on a line have nearest distances 1, 1, 2 *)
Example C102_spacing_case : nearest_other 1 [[0]; [1]; [3]] 0 1 /\ nearest_other 1 [[0]; [1]; [3]] 2 2 /\ spacing [[0]; [1]; [3]] <> Some 0.
Proof.
  assert (A : nearest_other 1 [[0]; [1]; [3]] 0 1).
  { split; [exists 1%nat; cbn; repeat split; try lia; replace (0 - 1) with (- (1)) by lra; rewrite Rabs_Ropp, Rabs_R1; lra|].
    intros [|[|[|k]]] Hk Hne; cbn in *; try lia; [replace (0 - 1) with (- (1)) by lra|replace (0 - 3) with (- (3)) by lra]; rewrite Rabs_Ropp, Rabs_pos_eq; lra. }
  assert (B : nearest_other 1 [[0]; [1]; [3]] 2 2).
  { split; [exists 1%nat; cbn; repeat split; try lia; replace (3 - 1) with 2 by lra; rewrite Rabs_pos_eq; lra|].
    intros [|[|[|k]]] Hk Hne; cbn in *; try lia; rewrite Rabs_pos_eq; lra. }
  split; [exact A|]. split; [exact B|]. intros C. destruct (C102_spacing_zero 1 [[0]; [1]; [3]]) as [_ Z]; [cbn; lia|intros x [<-|[<-|[<-|[]]]]; reflexivity|]. pose proof (proj1 Z C) as C'.
  specialize (C' 0%nat 2%nat 1 2 ltac:(cbn; lia) ltac:(cbn; lia) A B). lra.
Qed.
