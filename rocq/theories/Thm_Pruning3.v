(** * C100: M nearest neighbours - the theorem *)
From Coq Require Import List Arith Bool ZArith QArith Lia Lqa Permutation Sorted.
From Verif Require Import ListAux M_Individual M_Survival M_RefDirs2 M_Bounds P_Bounds M_Crowding S_Crowding Thm_Decomp Thm_Crowding M_Pruning Thm_Pruning Thm_Pruning2.
Import ListNotations.
Local Open Scope nat_scope.

Lemma rounds_bound N m r : m < N -> rounds N m r <= N - m - 1.
Proof. intros H. unfold rounds, clip_remove. destruct (Z.leb_spec r (Z.of_nat N - Z.of_nat m)); [destruct (Z.ltb_spec r 0)|]; lia. Qed.
(** the loop removes one point less than asked, at most as many as leave m + 1 points *)
Lemma rounds_value N m r : rounds N m r = Nat.min (Z.to_nat (r - 1)) (N - m - 1) .
Proof. unfold rounds, clip_remove. destruct (Z.leb_spec r (Z.of_nat N - Z.of_nat m)); [destruct (Z.ltb_spec r 0)|]; lia. Qed.

Section MNN.
  Variables (xsort : list xq -> list xq) (m nb : nat) (F : list (list Q)) (lo hi : nat -> Q).
  Hypotheses (HX : xsort_ok xsort) (HR : ranges m F lo hi) (HN : forall c, c < m -> ~ (lo c == hi c)%Q) (HF : F <> []).
  Notation N := (length F).
  Notation row := (dist_row m F).
  Lemma row_len H i : length (row H i) = N. Proof. unfold dist_row. now rewrite map_length, seq_length. Qed.
  Lemma row_nth H i j : j < N -> nth j (row H i) PInf = if existsb (Nat.eqb j) H then Fin (sqdist m F i j) else PInf.
  Proof.
    intros Hj. unfold dist_row. set (g := fun j => if existsb (Nat.eqb j) H then Fin (sqdist m F i j) else PInf). rewrite (nth_indep _ PInf (g 0)) by (rewrite map_length, seq_length; lia). rewrite map_nth, seq_nth by lia. reflexivity.
  Qed.
  Lemma row_nonneg H i x : In x (row H i) -> xle (Fin 0) x.
  Proof. intros Hx. apply in_map_iff in Hx as (j & <- & _). destruct (existsb _ _); [|reflexivity]. unfold xle. cbn. apply Qle_bool_iff, sqdist_nonneg. Qed.
  Lemma Forall2_of_nth (l l' : list xq) : length l = length l' -> (forall k, k < length l -> xle (nth k l PInf) (nth k l' PInf)) -> Forall2 xle l l'.
  Proof. revert l'. induction l as [|a l IH]; intros [|b l'] HL H; try discriminate; constructor; [apply (H 0); cbn; lia|]. apply IH; [cbn in HL; lia|]. intros k Hk. apply (H (S k)). cbn; lia. Qed.
  Lemma nth_tail (l : list xq) k : k < nb -> nth k (firstn nb (skipn 1 l)) PInf = nth (S k) l PInf.
  Proof.
    intros Hk. destruct l as [|x l]; [cbn [skipn]; rewrite firstn_nil; destruct k; reflexivity|]. cbn [skipn nth]. revert k Hk l. clear. induction nb as [|n IH]; intros k Hk l; [lia|]. destruct l as [|y l]; [destruct k; reflexivity|].
    destruct k as [|k]; [reflexivity|]. cbn [firstn nth]. apply IH. lia.
  Qed.
  Lemma mnn_mono R k i : In i (rest (k :: R) (seq 0 N)) -> xle (fin_score xsort m nb F (rest R (seq 0 N)) i) (fin_score xsort m nb F (rest (k :: R) (seq 0 N)) i).
  Proof.
    intros _. unfold fin_score. set (H := rest R (seq 0 N)). set (H' := rest (k :: R) (seq 0 N)). destruct (HX (row H i)) as [P1 S1]. destruct (HX (row H' i)) as [P2 S2].
    assert (L1 : length (xsort (row H i)) = N) by (rewrite (Permutation_length P1); apply row_len). assert (L2 : length (xsort (row H' i)) = N) by (rewrite (Permutation_length P2); apply row_len).
    apply xprod_mono; [rewrite !firstn_length, !skipn_length; lia|]. intros t Ht. rewrite firstn_length, skipn_length in Ht. rewrite !nth_tail by lia. split.
    - apply (row_nonneg H i). eapply Permutation_in; [exact P1|]. apply nth_In. lia.
    - apply (sorted_pointwise (row H i) (row H' i)); auto; [|now symmetry|now symmetry|lia].
      apply Forall2_of_nth; [now rewrite !row_len|]. intros j Hj. rewrite row_len in Hj. rewrite !row_nth by exact Hj.
      destruct (existsb (Nat.eqb j) H') eqn:E'; [|apply xle_pinf]. replace (existsb (Nat.eqb j) H) with true; [apply xle_refl|]. symmetry. apply existsb_In. apply existsb_In in E'. unfold H', H, rest in *. apply filter_In in E' as [A1 A2].
      apply filter_In. split; [exact A1|]. cbn [existsb] in A2. rewrite negb_orb in A2. apply andb_true_iff in A2. tauto.
  Qed.

  (** value of the metric for a point among [H] *)
  Lemma perm_others H i : NoDup H -> In i H -> (forall j, In j H -> j < N) ->
    Permutation (row H i) (Fin (sqdist m F i i) :: map (fun j => Fin (sqdist m F i j)) (filter (fun j => negb (j =? i)) H) ++ repeat PInf (N - length H)).
  Proof.
    intros ND Hi HB. set (O := filter (fun j => negb (j =? i)) H). set (C := filter (fun j => negb (existsb (Nat.eqb j) H)) (seq 0 N)).
    assert (P : Permutation (i :: O ++ C) (seq 0 N)).
    { apply NoDup_Permutation; [|apply seq_NoDup|].
      - apply NoDup_cons; [intros K; apply in_app_iff in K as [K|K]; apply filter_In in K as [K1 K2]; [rewrite Nat.eqb_refl in K2; discriminate|apply existsb_In in Hi; rewrite Hi in K2; discriminate]|].
        apply NoDup_app_iff. split; [apply NoDup_filter, ND|]. split; [apply NoDup_filter, seq_NoDup|]. intros x X1 X2. apply filter_In in X1 as [X1 _]. apply filter_In in X2 as [_ X2]. apply existsb_In in X1. rewrite X1 in X2. discriminate.
      - intros x. cbn [In]. unfold O, C. rewrite in_app_iff, !filter_In, in_seq. split.
        + intros [<- |[[K _]|[K _]]]; [specialize (HB i Hi)|specialize (HB x K)|]; lia.
        + intros Hx. destruct (Nat.eq_dec x i) as [-> |Ne]; [now left|right]. destruct (existsb (Nat.eqb x) H) eqn:E; [left|right; split; [lia|reflexivity]]. split; [now apply existsb_In|]. apply negb_true_iff, Nat.eqb_neq, Ne. }
    assert (LC : length C = N - length H).
    { assert (P2 : Permutation (i :: O) H). { apply NoDup_Permutation; auto. - apply NoDup_cons; [intros K; apply filter_In in K as [_ K]; rewrite Nat.eqb_refl in K; discriminate|apply NoDup_filter, ND].
        - intros x. cbn [In]. unfold O. rewrite filter_In, negb_true_iff, Nat.eqb_neq. split; [intros [<- |[K _]]; auto|]. intros K. destruct (Nat.eq_dec i x); [now left|right; split; auto]. }
      apply Permutation_length in P, P2. rewrite app_comm_cons, app_length, seq_length in P. lia. }
    unfold dist_row. rewrite <- P. cbn [map]. rewrite map_app. assert (Ei := Hi). apply existsb_In in Ei. rewrite Ei. apply perm_skip. rewrite <- LC.
    replace (map (fun j => if existsb (Nat.eqb j) H then Fin (sqdist m F i j) else PInf) O) with (map (fun j => Fin (sqdist m F i j)) O).
    - apply Permutation_app_head. replace (map (fun j => if existsb (Nat.eqb j) H then Fin (sqdist m F i j) else PInf) C) with (repeat PInf (length C)); [reflexivity|].
      assert (HC : forall j, In j C -> existsb (Nat.eqb j) H = false) by (intros j Hj; apply filter_In in Hj as [_ Hj]; now apply negb_true_iff). revert HC. clear. induction C as [|c C IH]; intros HC; [reflexivity|]. cbn. rewrite (HC c) by now left. f_equal. apply IH. intros j Hj. apply HC. now right.
    - apply map_ext_in. intros j Hj. apply filter_In in Hj as [Hj _]. apply existsb_In in Hj. now rewrite Hj.
  Qed.
  Lemma sqdist_self i : (sqdist m F i i == 0)%Q.
  Proof. unfold sqdist. induction (seq 0 m) as [|c l IH]; cbn; [reflexivity|]. rewrite IH. ring. Qed.
  Lemma xprod_fin l : forall v, length l = length v -> (forall k, k < length l -> xeq (nth k l PInf) (Fin (nth k v 0%Q))) -> exists q, xprod l = Fin q /\ (q == fold_right Qmult 1 v)%Q.
  Proof.
    induction l as [|a l IH]; intros v HL H; destruct v as [|b v]; try discriminate; [exists 1%Q; split; reflexivity|]. destruct (IH v) as (q & E & Q1); [cbn in HL; lia|intros k Hk; apply (H (S k)); cbn; lia|].
    specialize (H 0 ltac:(cbn; lia)). cbn [nth] in H. destruct a as [a|]; [|destruct H]. exists (a * q)%Q. unfold xprod in *. cbn [fold_right]. rewrite E. split; [reflexivity|]. cbn in H. now rewrite H, Q1.
  Qed.
  Lemma score_spec H i : NoDup H -> In i H -> (forall j, In j H -> j < N) -> nb < length H ->
    exists v q, Permutation v (map (scaled_dist m F lo hi i) (filter (fun j => negb (j =? i)) H)) /\ StronglySorted Qle v /\ nb <= length v /\ fin_score xsort m nb F H i = Fin q /\ (q == fold_right Qmult 1 (firstn nb v))%Q /\
      forall x, In x (firstn nb (skipn 1 (xsort (row H i)))) -> exists r, x = Fin r.
  Proof.
    intros ND Hi HB HL. set (O := filter (fun j => negb (j =? i)) H).
    assert (LO : S (length O) = length H). { assert (P2 : Permutation (i :: O) H). { apply NoDup_Permutation; auto. - apply NoDup_cons; [intros K; apply filter_In in K as [_ K]; rewrite Nat.eqb_refl in K; discriminate|apply NoDup_filter, ND].
        - intros x. cbn [In]. unfold O. rewrite filter_In, negb_true_iff, Nat.eqb_neq. split; [intros [<- |[K _]]; auto|]. intros K. destruct (Nat.eq_dec i x); [now left|right; split; auto]. } now apply Permutation_length in P2. }
    destruct (sorted_perm_exists (map (scaled_dist m F lo hi i) O)) as (v & Pv & Sv). assert (Lv : length v = length O) by (rewrite (Permutation_length Pv); apply map_length).
    destruct (HX (row H i)) as [PX SX].
    (* the sorted row, with exact distances *)
    set (s0 := Fin 0 :: map Fin v ++ repeat PInf (N - length H)). set (l0 := Fin 0 :: map (fun j => Fin (scaled_dist m F lo hi i j)) O ++ repeat PInf (N - length H)).
    assert (P0 : Permutation l0 s0). { unfold l0, s0. apply perm_skip, Permutation_app_tail. rewrite Pv, map_map. reflexivity. }
    assert (NNv : forall x, In x v -> (0 <= x)%Q). { intros x Hx. apply (Permutation_in _ Pv) in Hx. apply in_map_iff in Hx as (j & <- & _). apply (sum_sq_nonneg (fun c => (entry F i c - entry F j c) / (hi c - lo c))%Q). }
    assert (S0 : StronglySorted xle s0).
    { unfold s0. constructor.
      - assert (SR : forall n, StronglySorted xle (repeat PInf n)) by (induction n; cbn; constructor; auto; apply Forall_forall; intros x Hx; apply repeat_spec in Hx as ->; reflexivity).
        clear - Sv SR. induction Sv as [|x v Sv IH HF]; [apply SR|]. cbn. constructor; [exact IH|]. apply Forall_app. split; apply Forall_forall; intros y Hy; [|apply repeat_spec in Hy as ->; reflexivity].
        apply in_map_iff in Hy as (z & <- & Hz). rewrite Forall_forall in HF. unfold xle. cbn. apply Qle_bool_iff. auto.
      - apply Forall_app. split; apply Forall_forall; intros y Hy; [|apply repeat_spec in Hy as ->; reflexivity]. apply in_map_iff in Hy as (z & <- & Hz). unfold xle. cbn. apply Qle_bool_iff. auto. }
    assert (P1 := perm_others H i ND Hi HB). fold O in P1. set (l1 := Fin (sqdist m F i i) :: map (fun j => Fin (sqdist m F i j)) O ++ repeat PInf (N - length H)) in *.
    assert (E01 : Forall2 xle l0 l1 /\ Forall2 xle l1 l0).
    { assert (RR : forall n, Forall2 xle (repeat PInf n) (repeat PInf n)) by (induction n; cbn; constructor; auto; apply xle_refl). unfold l0, l1. split; (constructor; [unfold xle; cbn; apply Qle_bool_iff; rewrite sqdist_self; lra|]); apply Forall2_app; auto;
        (clear - HF HR HN; induction O as [|o O IH]; cbn; constructor; [unfold xle; cbn; apply Qle_bool_iff; rewrite (sqdist_scaled m F lo hi) by auto; lra|exact IH]). }
    destruct E01 as [E0 E1]. assert (LS : length (xsort (row H i)) = N) by (rewrite (Permutation_length PX); apply row_len).
    assert (P1' : Permutation l1 (xsort (row H i))) by (rewrite PX; now symmetry).
    assert (L0 : length s0 = N). { rewrite <- (Permutation_length P0). apply Permutation_length in P1'. rewrite LS in P1'. rewrite <- P1'. clear - E0. induction E0; cbn; auto. }
    assert (LHN : length H <= N) by (rewrite <- (seq_length N 0); apply NoDup_incl_length; [exact ND|]; intros x Hx; apply in_seq; specialize (HB x Hx); lia).
    assert (EQ : forall k, k < nb -> xeq (nth (S k) (xsort (row H i)) PInf) (Fin (nth k v 0%Q))).
    { intros k Hk. assert (En : nth (S k) s0 PInf = Fin (nth k v 0%Q)). { unfold s0. cbn [nth]. rewrite app_nth1 by (rewrite map_length; lia). rewrite (nth_indep _ PInf (Fin 0)) by (rewrite map_length; lia). apply map_nth. }
      assert (K1 := sorted_pointwise l0 l1 s0 _ E0 P0 P1' S0 SX (S k) ltac:(lia)). assert (K2 := sorted_pointwise l1 l0 _ s0 E1 P1' P0 SX S0 (S k) ltac:(lia)). rewrite En in K1, K2.
      unfold xle in K1, K2. destruct (nth (S k) (xsort (row H i)) PInf) as [a|]; cbn in *; [|discriminate]. apply Qle_bool_iff in K1, K2. lra. }
    destruct (xprod_fin (firstn nb (skipn 1 (xsort (row H i)))) (firstn nb v)) as (q & Eq & Qq).
    - rewrite !firstn_length, skipn_length. lia.
    - intros k Hk. rewrite firstn_length, skipn_length in Hk. rewrite nth_tail by lia. replace (nth k (firstn nb v) 0%Q) with (nth k v 0%Q); [apply EQ; lia|]. rewrite <- (firstn_skipn nb v) at 1. rewrite app_nth1 by (rewrite firstn_length; lia). reflexivity.
    - exists v, q. split; [exact Pv|]. split; [exact Sv|]. split; [lia|]. split; [exact Eq|]. split; [exact Qq|].
      intros x Hx. destruct (In_nth _ _ PInf Hx) as (k & Hk & <-). rewrite firstn_length, skipn_length in Hk. rewrite nth_tail by lia. specialize (EQ k ltac:(lia)). destruct (nth (S k) (xsort (row H i)) PInf); [eauto|destruct EQ].
  Qed.
  Lemma sorted_unique (l s s' : list Q) : Permutation s l -> Permutation s' l -> StronglySorted Qle s -> StronglySorted Qle s' -> forall k, k < length s -> (nth k s 0 == nth k s' 0)%Q.
  Proof.
    intros P P' S1 S2 k Hk. assert (SM : forall t, StronglySorted Qle t -> StronglySorted xle (map Fin t)). { induction 1; cbn; constructor; auto. apply Forall_forall. intros y Hy. apply in_map_iff in Hy as (z & <- & Hz). rewrite Forall_forall in H0. unfold xle. cbn. apply Qle_bool_iff. auto. }
    assert (RF : Forall2 xle (map Fin l) (map Fin l)) by (clear; induction l; cbn; constructor; auto; apply xle_refl).
    assert (L : length s = length s') by (rewrite (Permutation_length P), (Permutation_length P'); reflexivity).
    assert (A := sorted_pointwise _ _ _ _ RF (Permutation_map Fin (Permutation_sym P)) (Permutation_map Fin (Permutation_sym P')) (SM _ S1) (SM _ S2) k ltac:(rewrite map_length; lia)).
    assert (B := sorted_pointwise _ _ _ _ RF (Permutation_map Fin (Permutation_sym P')) (Permutation_map Fin (Permutation_sym P)) (SM _ S2) (SM _ S1) k ltac:(rewrite map_length; lia)).
    rewrite !(nth_indep (map Fin _) PInf (Fin 0)), !map_nth in A, B by (rewrite map_length; lia). unfold xle in *. cbn in *. apply Qle_bool_iff in A, B. lra.
  Qed.
  Lemma prod_pointwise (l l' : list Q) : length l = length l' -> (forall k, k < length l -> (nth k l 0 == nth k l' 0)%Q) -> (fold_right Qmult 1 l == fold_right Qmult 1 l')%Q.
  Proof. revert l'. induction l as [|a l IH]; intros [|b l'] HL H; try discriminate; [reflexivity|]. cbn [fold_right]. rewrite (IH l'); [|cbn in HL; lia|intros k Hk; apply (H (S k)); cbn; lia]. specialize (H 0 ltac:(cbn; lia)). cbn in H. now rewrite H. Qed.
End MNN.

(** ** without a constant objective no NaN arises *)
Definition xs (nsort : list (option xq) -> list (option xq)) (l : list xq) : list xq := map unsome (nsort (map Some l)).
Lemma nsort_some nsort l : nsort_ok nsort -> nsort (map Some l) = map Some (xs nsort l).
Proof.
  intros H. destruct (H (map Some l)) as [P _]. unfold xs. rewrite map_map. assert (A : forall x, In x (nsort (map Some l)) -> Some (unsome x) = x). { intros x Hx. apply (Permutation_in _ P) in Hx. apply in_map_iff in Hx as (y & <- & _). reflexivity. }
  revert A. generalize (nsort (map Some l)). clear. intros r. induction r as [|x r IH]; intros A; [reflexivity|]. cbn [map]. rewrite (A x) by now left. f_equal. apply IH. intros y Hy. apply A. now right.
Qed.
Lemma xs_ok nsort : nsort_ok nsort -> xsort_ok (xs nsort).
Proof.
  intros H l. destruct (H (map Some l)) as [P HS]. rewrite (nsort_some nsort l H) in HS. split.
  - unfold xs. rewrite P, map_map. cbn. now rewrite map_id.
  - revert HS. generalize (xs nsort l). clear. induction l as [|x l IH]; intros HS; [constructor|]. cbn in HS. apply StronglySorted_inv in HS as [H1 H2]. constructor; [now apply IH|]. apply Forall_forall. intros y Hy. rewrite Forall_forall in H2. apply (H2 (Some y)). apply in_map_iff. eauto.
Qed.
Lemma oprod_fin l : (forall x, In x l -> exists q, x = Fin q) -> oprod (map Some l) = Some (xprod l).
Proof.
  unfold oprod, xprod. induction l as [|x l IH]; intros H; [reflexivity|]. cbn [map fold_right]. rewrite IH by (intros y Hy; apply H; now right). destruct (H x ltac:(now left)) as (q & ->).
  assert (exists r, fold_right (fun a b : xq => match a, b with Fin a0, Fin b0 => Fin (a0 * b0)%Q | _, _ => PInf end) (Fin 1) l = Fin r) as (r & ->); [|reflexivity].
  assert (H' : forall y, In y l -> exists q, y = Fin q) by (intros y Hy; apply H; now right). clear - H'. induction l as [|y l IH]; [eexists; reflexivity|]. cbn. destruct (H' y ltac:(now left)) as (a & ->). destruct IH as (b & ->); [intros z Hz; apply H'; now right|]. eauto.
Qed.
Lemma score_some nsort m nb F lo hi H i : nsort_ok nsort -> ranges m F lo hi -> (forall c, c < m -> ~ (lo c == hi c)%Q) -> F <> [] -> has_constant m F = false -> NoDup H -> In i H -> (forall j, In j H -> j < length F) -> nb < length H ->
  mnn_score nsort m nb F H i = Some (fin_score (xs nsort) m nb F H i).
Proof.
  intros HX HR HN HF HC ND Hi HB HL. destruct (score_spec (xs nsort) m nb F lo hi (xs_ok nsort HX) HR HN HF H i ND Hi HB HL) as (_ & _ & _ & _ & _ & _ & _ & FIN).
  unfold mnn_score, fin_score. replace (odist_row m F H i) with (map Some (dist_row m F H i)). 2:{ unfold odist_row, dist_row. rewrite map_map. apply map_ext. intros j. unfold odist. rewrite HC. now destruct (existsb _ _). }
  rewrite nsort_some by exact HX. rewrite skipn_map, firstn_map. now apply oprod_fin.
Qed.
Lemma nth_some (d : list xq) i : i < length d -> nth i (map Some d) None = Some (nth i d PInf).
Proof. intros H. rewrite (nth_indep _ None (Some PInf)) by (now rewrite map_length). apply map_nth. Qed.
Lemma upd_map_some (d : list xq) i x : upd (map Some d) i (Some x) = map Some (upd d i x).
Proof. revert i. induction d as [|y d IH]; intros [|i]; cbn; auto. now rewrite IH. Qed.
Lemma owrite_some ext H s s' d : (forall i, In i H -> s i = Some (s' i)) -> owrite ext H s (map Some d) = map Some (write ext H s' d).
Proof.
  intros HS. unfold owrite, write. assert (A : forall l d, (forall i, In i l -> s i = Some (s' i)) -> fold_left (fun l i => upd l i (s i)) l (map Some d) = map Some (fold_left (fun l i => upd l i (s' i)) l d)).
  { clear. induction l as [|x l IH]; intros d HS; [reflexivity|]. cbn [fold_left]. rewrite (HS x) by now left. rewrite upd_map_some. apply IH. intros i Hi. apply HS. now right. }
  rewrite A by exact HS. clear. generalize (fold_left (fun l i => upd l i (s' i)) H d). induction ext as [|x ext IH]; intros l; [reflexivity|]. cbn [fold_left]. rewrite upd_map_some. apply IH.
Qed.
Lemma oprune_some score oscore ext nb N : (forall H i, NoDup H -> In i H -> (forall j, In j H -> j < N) -> nb < length H -> oscore H i = Some (score H i)) -> (forall i, In i ext -> i < N) ->
  forall fuel H d, NoDup H -> (forall j, In j H -> j < N) -> length d = N -> fuel + nb < length H -> oprune oscore ext fuel H (map Some d) = map Some (prune score ext fuel H d).
Proof.
  intros HS HE. induction fuel as [|fuel IH]; intros H d ND HB HD HL; [reflexivity|]. cbn [oprune prune].
  assert (EM : map (fun i => nth i (map Some d) None) H = map Some (map (fun i => nth i d PInf) H)) by (rewrite map_map; apply map_ext_in; intros i Hi; apply nth_some; rewrite HD; auto).
  assert (EA : oargmin (map (fun i => nth i (map Some d) None) H) = xargmin (map (fun i => nth i d PInf) H)).
  { rewrite EM. unfold oargmin. replace (existsb is_nan (map Some (map (fun i => nth i d PInf) H))) with false. 2:{ symmetry. apply not_true_iff_false. intros K. apply existsb_exists in K as (x & Hx & K). apply in_map_iff in Hx as (y & <- & _). discriminate. }
    rewrite map_map. cbn. now rewrite map_id. }
  rewrite EA. destruct (xargmin_spec (map (fun i => nth i d PInf) H)) as [A1 _]; [intros E; destruct H; [cbn in HL; lia|discriminate]|]. rewrite map_length in A1.
  set (k := nth (xargmin (map (fun i => nth i d PInf) H)) H 0) in *. set (H1 := filter (fun i => negb (i =? k)) H). assert (Hk : In k H) by now apply nth_In.
  assert (I1 : forall i, In i H1 <-> In i H /\ i <> k) by (intros i; unfold H1; rewrite filter_In, negb_true_iff, Nat.eqb_neq; tauto).
  assert (ND1 : NoDup H1) by apply NoDup_filter, ND.
  assert (LH1 : S (length H1) = length H). { assert (P : Permutation (k :: H1) H). { apply NoDup_Permutation; auto. - apply NoDup_cons; [intros K; apply I1 in K; destruct K as [_ K]; now apply K|exact ND1]. - intros x. cbn [In]. rewrite I1. split; [intros [<- |[K _]]; [exact Hk|exact K]|]. intros K. destruct (Nat.eq_dec x k) as [E|E]; [left; congruence|right; split; auto]. }
    now apply Permutation_length in P. }
  assert (HB1 : forall j, In j H1 -> j < N) by (intros j Hj; apply HB, I1, Hj).
  rewrite (owrite_some ext H1 (oscore H1) (score H1) d) by (intros i Hi; apply HS; auto; lia). apply IH; auto; [|lia].
  destruct (write_spec ext H1 (score H1) d) as [W _]; [intros i Hi; rewrite HD; auto|intros i Hi; rewrite HD; auto|]. lia.
Qed.

(** C100, "mnn" and "2nn": no more points than objectives: all infinite.  Otherwise, if no objective is constant, the values are those of dropping one point after the other, min(n_remove - 1, N - m - 1) of them:
    the value of a point among the remaining ones is infinite for the extreme points and otherwise the product of its scaled squared distances to its m (or 2) nearest remaining points *)
Theorem C100_mnn : forall nsort m n_remove twonn F lo hi, nsort_ok nsort -> ranges m F lo hi -> let N := length F in
  (N <= m -> calc_mnn_base nsort m n_remove twonn F = repeat (Some PInf) N) /\
  (m < N -> (forall c, c < m -> ~ (lo c == hi c)%Q) -> (twonn = true -> 2 <= m) -> exists d R, calc_mnn_base nsort m n_remove twonn F = map Some d /\
     pruned_values (nn_value m (if twonn then 2 else m) F lo hi) N (Nat.min (Z.to_nat (n_remove - 1)) (N - m - 1)) d R).
Proof.
  intros nsort m n_remove twonn F lo hi HO HR N. assert (HX := xs_ok nsort HO). set (xsort := xs nsort) in *. unfold calc_mnn_base. fold N. split.
  - intros H. apply Nat.leb_le in H. now rewrite H.
  - intros HNm HN Htw. replace (N <=? m) with false by (symmetry; apply Nat.leb_gt; lia). assert (HF : F <> []) by (intros ->; cbn in N; lia).
    assert (HCON : has_constant m F = false).
    { unfold has_constant. apply not_true_iff_false. intros K. apply existsb_exists in K as (c & Hc & K). apply in_seq in Hc. unfold constant_col in K. apply Qeq_bool_iff in K. destruct (range_eq m F lo hi c HF HR ltac:(lia)) as [E1 E2]. apply (HN c ltac:(lia)). lra. }
    set (nb := if twonn then 2 else m) in *. assert (Hnb : nb <= m) by (unfold nb; destruct twonn; auto).
    assert (RB := rounds_bound N m n_remove HNm). rewrite <- rounds_value. set (k := rounds N m n_remove) in *.
    destruct (pruned_spec (fin_score xsort m nb F) (extremes m F) N (extreme_lt m F HF) (mnn_mono xsort m nb F HX) k ltac:(lia)) as (R & PR).
    exists (pruned (fin_score xsort m nb F) (extremes m F) N k), R. split.
    { cbv zeta. fold nb. assert (EW : owrite (extremes m F) (seq 0 N) (mnn_score nsort m nb F (seq 0 N)) (repeat None N) = map Some (write (extremes m F) (seq 0 N) (fin_score xsort m nb F (seq 0 N)) (repeat PInf N))).
      { rewrite <- (owrite_some (extremes m F) (seq 0 N) (mnn_score nsort m nb F (seq 0 N)) (fin_score xsort m nb F (seq 0 N))).
        - unfold owrite. f_equal. apply (nth_ext _ _ None None); [rewrite !(fold_upd_len (mnn_score nsort m nb F (seq 0 N))), map_length, !repeat_length; reflexivity|]. intros i Hi. rewrite (fold_upd_len (mnn_score nsort m nb F (seq 0 N))), repeat_length in Hi.
          rewrite !(fold_upd_const (mnn_score nsort m nb F (seq 0 N))) by (intros x Hx; rewrite ?map_length, repeat_length; apply in_seq in Hx; lia). replace (existsb (Nat.eqb i) (seq 0 N)) with true; [reflexivity|]. symmetry. apply existsb_In, in_seq. lia.
        - intros i Hi. apply (score_some nsort m nb F lo hi); auto; [apply seq_NoDup|intros j Hj; apply in_seq in Hj; lia|rewrite seq_length; fold N; lia]. }
      rewrite EW. apply (oprune_some _ _ (extremes m F) nb N).
      - intros H i ND Hi HB HL. apply (score_some nsort m nb F lo hi); auto.
      - intros i Hi. eapply extreme_lt; eauto.
      - apply seq_NoDup.
      - intros j Hj. apply in_seq in Hj. lia.
      - destruct (write_spec (extremes m F) (seq 0 N) (fin_score xsort m nb F (seq 0 N)) (repeat PInf N)) as [W _]; [intros i Hi; rewrite repeat_length; eapply extreme_lt; eauto|intros i Hi; rewrite repeat_length; apply in_seq in Hi; lia|]. now rewrite W, repeat_length.
      - rewrite seq_length. lia. }
    assert (KEY : forall SV i, NoDup SV -> In i SV -> (forall j, In j SV -> j < N) -> nb < length SV -> nn_value m nb F lo hi SV i (val (fin_score xsort m nb F) (extremes m F) SV i)).
    { intros SV i ND Hi HB HL. unfold val. destruct (existsb (Nat.eqb i) (extremes m F)) eqn:EX.
      - left. split; [|reflexivity]. apply extreme_iff; auto. now apply existsb_In.
      - right. split; [intros K; apply (extreme_iff m F HF), existsb_In in K; congruence|]. destruct (score_spec xsort m nb F lo hi HX HR HN HF SV i ND Hi HB HL) as (v & q & A1 & A2 & A3 & A4 & A5 & _).
        exists (filter (fun j => negb (j =? i)) SV), v, q. split; [intros j; rewrite filter_In, negb_true_iff, Nat.eqb_neq; tauto|]. split; [apply NoDup_filter, ND|]. auto. }
    assert (WND : forall Q, NoDup (without Q N)) by (intros Q; apply NoDup_filter, seq_NoDup).
    revert PR. apply pruned_values_impl.
    + intros Q i x Hi _ HL ->. apply KEY; auto; [intros j Hj; now apply In_without in Hj|lia].
    + intros Q i x Hi HL HV. eexists. split; [reflexivity|]. assert (K := KEY (without Q N) i (WND Q) Hi ltac:(intros j Hj; now apply In_without in Hj) ltac:(lia)).
      destruct HV as [[V1 ->]|[V1 (o & v & q & V2 & V3 & V4 & V5 & V6 & -> & V8)]]; [apply xle_pinf|]. destruct K as [[K1 _]|[_ (o' & v' & q' & K2 & K3 & K4 & K5 & K6 & K7 & K8)]]; [tauto|]. rewrite K7.
      unfold xle. cbn. apply Qle_bool_iff. rewrite K8, V8. assert (PO : Permutation o' o) by (apply NoDup_Permutation; auto; intros j; rewrite K2, V2; reflexivity).
      assert (P' : Permutation v' (map (scaled_dist m F lo hi i) o)) by (rewrite K4; now apply Permutation_map). rewrite (prod_pointwise (firstn nb v') (firstn nb v)); [lra|rewrite !firstn_length; lia|].
      intros t Ht. rewrite firstn_length in Ht. assert (E : forall l : list _, nb <= length l -> nth t (firstn nb l) 0%Q = nth t l 0%Q). { intros l Hl. rewrite <- (firstn_skipn nb l) at 2. rewrite app_nth1 by (rewrite firstn_length; lia). reflexivity. }
      rewrite !E by auto. apply (sorted_unique (map (scaled_dist m F lo hi i) o)); auto. lia.
    + lia.
Qed.
