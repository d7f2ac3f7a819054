(** * C100: M nearest neighbours ("mnn", "2nn") *)
From Coq Require Import List Arith Bool ZArith QArith Lia Lqa Permutation Sorted.
From Verif Require Import ListAux M_Individual M_Survival M_RefDirs2 M_Bounds P_Bounds M_Crowding S_Crowding Thm_Decomp Thm_Crowding M_Pruning Thm_Pruning.
Import ListNotations.
Local Open Scope nat_scope.

(** ** specification *)
Definition entry (F : list (list Q)) (i j : nat) : Q := nth j (nth i F []) 0%Q.
(** point i is the first one with the least, or the first one with the largest, value of some objective *)
Definition extreme (m : nat) (F : list (list Q)) (i : nat) : Prop := exists j, j < m /\ i < length F /\
  ((forall k, k < length F -> (entry F i j <= entry F k j)%Q) /\ (forall k, k < i -> (entry F i j < entry F k j)%Q) \/
   (forall k, k < length F -> (entry F k j <= entry F i j)%Q) /\ (forall k, k < i -> (entry F k j < entry F i j)%Q)).
(** lo, hi: least and largest values of the objectives *)
Definition ranges (m : nat) (F : list (list Q)) (lo hi : nat -> Q) : Prop := forall c, c < m -> is_min_of (objective c F) (lo c) /\ is_max_of (objective c F) (hi c).
(** squared Euclidean distance of the points scaled to [0, 1] *)
Definition scaled_dist (m : nat) (F : list (list Q)) (lo hi : nat -> Q) (i j : nat) : Q :=
  fold_right Qplus 0%Q (map (fun c => let t := ((entry F i c - entry F j c) / (hi c - lo c))%Q in (t * t)%Q) (seq 0 m)).
(** [x] is infinite for an extreme point, otherwise the product of the distances to the nb nearest other points of [S] *)
Definition nn_value (m nb : nat) (F : list (list Q)) (lo hi : nat -> Q) (S : list nat) (i : nat) (x : xq) : Prop :=
  (extreme m F i /\ x = PInf) \/
  (~ extreme m F i /\ exists others v q, (forall j, In j others <-> In j S /\ j <> i) /\ NoDup others /\ Permutation v (map (scaled_dist m F lo hi i) others) /\ StronglySorted Qle v /\ nb <= length v /\
     x = Fin q /\ (q == fold_right Qmult 1 (firstn nb v))%Q).
(** contract of a sort that puts NaN last *)
Definition ole (a b : option xq) : Prop := match a, b with _, None => True | None, Some _ => False | Some a, Some b => xle a b end.
Definition nsort_ok (nsort : list (option xq) -> list (option xq)) : Prop := forall l, Permutation (nsort l) l /\ StronglySorted ole (nsort l).
(** the same without NaN; products, rows and values without NaN *)
Definition xprod (l : list xq) : xq := fold_right (fun a b => match a, b with Fin a, Fin b => Fin (a * b)%Q | _, _ => PInf end) (Fin 1) l.
Definition dist_row (m : nat) (F : list (list Q)) (H : list nat) (i : nat) : list xq := map (fun j => if existsb (Nat.eqb j) H then Fin (sqdist m F i j) else PInf) (seq 0 (length F)).
Definition fin_score (xsort : list xq -> list xq) (m nb : nat) (F : list (list Q)) (H : list nat) (i : nat) : xq := xprod (firstn nb (skipn 1 (xsort (dist_row m F H i)))).
Definition xsort_ok (xsort : list xq -> list xq) : Prop := forall l, Permutation (xsort l) l /\ StronglySorted xle (xsort l).

(** ** sorting is monotone *)
Definition below (x : xq) (l : list xq) : nat := length (filter (fun y => negb (xleb x y)) l).
Lemma below_app x l1 l2 : below x (l1 ++ l2) = below x l1 + below x l2.
Proof. unfold below. now rewrite filter_app, app_length. Qed.
Lemma below_perm x l l' : Permutation l l' -> below x l = below x l'.
Proof. intros H. unfold below. induction H; cbn; auto. - destruct (negb (xleb x x0)); cbn; auto. - destruct (negb (xleb x y)), (negb (xleb x x0)); cbn; auto. - congruence. Qed.
Lemma below_mono x l l' : Forall2 xle l l' -> below x l' <= below x l.
Proof.
  induction 1 as [|a b l l' H _ IH]; [auto|]. unfold below in *. cbn. destruct (xleb x b) eqn:Eb; cbn; [destruct (xleb x a); cbn; lia|].
  destruct (xleb x a) eqn:Ea; cbn; [|lia]. assert (K : xle x b) by (eapply xle_trans; eauto). unfold xle in K. congruence.
Qed.
Lemma below_all x l : (forall y, In y l -> ~ xle x y) -> below x l = length l.
Proof. unfold below. induction l as [|y l IH]; intros H; [reflexivity|]. cbn. destruct (xleb x y) eqn:E; [exfalso; apply (H y); [now left|exact E]|]. cbn. rewrite IH; [reflexivity|]. intros z Hz. apply H. now right. Qed.
Lemma below_none x l : (forall y, In y l -> xle x y) -> below x l = 0.
Proof. unfold below. induction l as [|y l IH]; intros H; [reflexivity|]. cbn. rewrite (H y) by now left. cbn. apply IH. intros z Hz. apply H. now right. Qed.
Lemma below_le x l : below x l <= length l.
Proof. unfold below. induction l as [|y l IH]; [auto|]. cbn. destruct (negb (xleb x y)); cbn; lia. Qed.
Lemma ssorted_split s k : StronglySorted xle s -> k < length s -> (forall y, In y (firstn (S k) s) -> xle y (nth k s PInf)) /\ (forall y, In y (skipn k s) -> xle (nth k s PInf) y).
Proof.
  revert k. induction s as [|x s IH]; intros k HS Hk; [cbn in Hk; lia|]. apply StronglySorted_inv in HS as [HS HF]. rewrite Forall_forall in HF. destruct k as [|k].
  - split; [intros y [<- |[]]; apply xle_refl|]. intros y [<- |Hy]; [apply xle_refl|auto].
  - cbn in Hk. destruct (IH k HS ltac:(lia)) as [I1 I2]. split.
    + intros y Hy. change (In y (x :: firstn (S k) s)) in Hy. destruct Hy as [<- |Hy]; [|now apply I1]. cbn [nth]. apply HF, nth_In. lia.
    + intros y Hy. cbn [skipn nth] in *. now apply I2.
Qed.
Lemma sorted_pointwise l l' s s' : Forall2 xle l l' -> Permutation l s -> Permutation l' s' -> StronglySorted xle s -> StronglySorted xle s' -> forall k, k < length s -> xle (nth k s PInf) (nth k s' PInf).
Proof.
  intros HF P P' S1 S2 k Hk. assert (LE : length s = length s') by (rewrite <- (Permutation_length P), <- (Permutation_length P'); clear - HF; induction HF; cbn; auto).
  destruct (xleb (nth k s PInf) (nth k s' PInf)) eqn:E; [exact E|exfalso]. set (x := nth k s PInf) in *.
  destruct (ssorted_split s k S1 Hk) as [_ A2]. destruct (ssorted_split s' k S2 ltac:(lia)) as [B1 _]. fold x in A2.
  assert (C1 : below x s <= k). { rewrite <- (firstn_skipn k s), below_app, (below_none x (skipn k s)) by exact A2. pose proof (below_le x (firstn k s)). rewrite firstn_length in H. lia. }
  assert (C2 : S k <= below x s'). { rewrite <- (firstn_skipn (S k) s'), below_app. rewrite (below_all x (firstn (S k) s')).
    - rewrite firstn_length. lia. - intros y Hy K. apply B1 in Hy. assert (Q : xle x (nth k s' PInf)) by (eapply xle_trans; eauto). unfold xle in Q. congruence. }
  pose proof (below_mono x l l' HF). rewrite <- (below_perm x _ _ P), <- (below_perm x _ _ P') in *. lia.
Qed.
Lemma xprod_mono l : forall l', length l = length l' -> (forall k, k < length l -> xle (Fin 0) (nth k l PInf) /\ xle (nth k l PInf) (nth k l' PInf)) -> xle (Fin 0) (xprod l) /\ xle (xprod l) (xprod l').
Proof.
  induction l as [|a l IH]; intros l' HL H; destruct l' as [|b l']; try discriminate; [split; reflexivity|]. cbn in HL.
  destruct (IH l') as [I1 I2]; [lia|intros k Hk; apply (H (S k)); cbn; lia|]. destruct (H 0 ltac:(cbn; lia)) as [H1 H2]. cbn [nth] in H1, H2. unfold xprod in *. cbn [fold_right].
  set (p := fold_right _ (Fin 1) l) in *. set (p' := fold_right _ (Fin 1) l') in *. unfold xle in *. destruct a as [a|], p as [p|]; cbn in *; split; auto; try (destruct b as [b|]; destruct p' as [p'|]; cbn in *; congruence || reflexivity).
  - rewrite Qle_bool_iff in *. now apply Qmult_le_0_compat.
  - destruct b as [b|]; [|reflexivity]. destruct p' as [p'|]; [|reflexivity]. cbn in *. rewrite Qle_bool_iff in *. apply Qle_trans with (a * p')%Q; [rewrite !(Qmult_comm a)|]; apply Qmult_le_compat_r; auto. lra.
Qed.
Lemma sorted_perm_exists (l : list Q) : exists v, Permutation v l /\ StronglySorted Qle v.
Proof.
  induction l as [|x l (v & P & HS)]; [exists []; split; constructor|].
  assert (INS : forall v, StronglySorted Qle v -> exists w, Permutation w (x :: v) /\ StronglySorted Qle w).
  { clear. induction v as [|y v IH]; intros HS; [exists [x]; split; [reflexivity|repeat constructor]|]. apply StronglySorted_inv in HS as [HS HF].
    destruct (Qlt_le_dec y x) as [L|L].
    - destruct (IH HS) as (w & Pw & Sw). exists (y :: w). split; [rewrite Pw; constructor|]. constructor; [exact Sw|]. apply Forall_forall. intros z Hz. apply (Permutation_in _ Pw) in Hz. destruct Hz as [<- |Hz]; [lra|]. rewrite Forall_forall in HF. auto.
    - exists (x :: y :: v). split; [reflexivity|]. constructor; [constructor; auto|]. constructor; [exact L|]. eapply Forall_impl; [|exact HF]. cbn. intros z Hz. lra. }
  destruct (INS v HS) as (w & Pw & Sw). exists w. split; [rewrite Pw; now constructor|exact Sw].
Qed.

(** ** the metric *)
Lemma first_pos_spec p l : existsb p l = true -> let k := first_pos p l in k < length l /\ p (nth k l 0%Q) = true /\ forall i, i < k -> p (nth i l 0%Q) = false.
Proof.
  unfold first_pos. induction l as [|x l IH]; intros H; [discriminate|]. cbn [map index_of existsb] in *. destruct (p x) eqn:E; cbn [Nat.eqb].
  - split; [cbn; lia|]. split; [exact E|lia].
  - destruct (IH H) as (I1 & I2 & I3). split; [cbn; lia|]. split; [exact I2|]. intros [|i] Hi; [exact E|]. apply (I3 i). lia.
Qed.
Lemma colF_obj j F : colF j F = objective j F. Proof. reflexivity. Qed.
Lemma col_entry j F i : i < length F -> nth i (colF j F) 0%Q = entry F i j.
Proof. intros H. apply obj_nth. exact H. Qed.
Lemma col_ne j F : F <> [] -> colF j F <> []. Proof. destruct F; [congruence|discriminate]. Qed.
Lemma min_hit l : l <> [] -> existsb (fun v => Qeq_bool v (qmin_list l)) l = true.
Proof. intros H. apply existsb_exists. destruct (qmin_list_min l H) as [H1 _]. exists (qmin_list l). split; [exact H1|apply Qeq_bool_iff; reflexivity]. Qed.
Lemma max_hit l : l <> [] -> existsb (fun v => Qeq_bool v (q_max_list l)) l = true.
Proof. intros H. apply existsb_exists. destruct (qmax_list_max l H) as [H1 _]. exists (q_max_list l). split; [exact H1|apply Qeq_bool_iff; reflexivity]. Qed.
Lemma qeqb_false a b : Qeq_bool a b = false -> ~ (a == b)%Q.
Proof. intros H K. apply Qeq_bool_iff in K. congruence. Qed.

Section Ext.
  Variables (m : nat) (F : list (list Q)).
  Hypothesis HF : F <> [].
  Lemma lenC j : length (colF j F) = length F. Proof. apply map_length. Qed.
  Lemma extreme_iff i : In i (extremes m F) <-> extreme m F i.
  Proof.
    unfold extremes. rewrite in_app_iff, !in_map_iff.
    assert (KMIN : forall j, let k := first_pos (fun v => Qeq_bool v (qmin_list (colF j F))) (colF j F) in k < length F /\ (forall t, t < length F -> (entry F k j <= entry F t j)%Q) /\ (forall t, t < k -> (entry F k j < entry F t j)%Q)).
    { intros j. destruct (first_pos_spec _ _ (min_hit (colF j F) (col_ne j F HF))) as (A1 & A2 & A3). cbv zeta. set (k := first_pos _ _) in *. rewrite lenC in A1. apply Qeq_bool_iff in A2. rewrite col_entry in A2 by auto.
      destruct (qmin_list_min (colF j F) (col_ne j F HF)) as [_ B]. assert (BB : forall t, t < length F -> (entry F k j <= entry F t j)%Q). { intros t Ht. rewrite A2, <- (col_entry j F t Ht). apply B, nth_In. now rewrite lenC. }
      split; [exact A1|]. split; [exact BB|]. intros t Ht. specialize (A3 t Ht). apply qeqb_false in A3. rewrite col_entry in A3 by lia. specialize (BB t ltac:(lia)). destruct (Qlt_le_dec (entry F k j) (entry F t j)) as [|L]; [auto|]. exfalso. apply A3. lra. }
    assert (KMAX : forall j, let k := first_pos (fun v => Qeq_bool v (q_max_list (colF j F))) (colF j F) in k < length F /\ (forall t, t < length F -> (entry F t j <= entry F k j)%Q) /\ (forall t, t < k -> (entry F t j < entry F k j)%Q)).
    { intros j. destruct (first_pos_spec _ _ (max_hit (colF j F) (col_ne j F HF))) as (A1 & A2 & A3). cbv zeta. set (k := first_pos _ _) in *. rewrite lenC in A1. apply Qeq_bool_iff in A2. rewrite col_entry in A2 by auto.
      destruct (qmax_list_max (colF j F) (col_ne j F HF)) as [_ B]. assert (BB : forall t, t < length F -> (entry F t j <= entry F k j)%Q). { intros t Ht. rewrite A2, <- (col_entry j F t Ht). apply B, nth_In. now rewrite lenC. }
      split; [exact A1|]. split; [exact BB|]. intros t Ht. specialize (A3 t Ht). apply qeqb_false in A3. rewrite col_entry in A3 by lia. specialize (BB t ltac:(lia)). destruct (Qlt_le_dec (entry F t j) (entry F k j)) as [|L]; [auto|]. exfalso. apply A3. lra. }
    split.
    - intros [(j & <- & Hj)|(j & <- & Hj)]; apply in_seq in Hj; exists j; (split; [lia|]).
      + destruct (KMIN j) as (A1 & A2 & A3). split; [exact A1|left; auto].
      + destruct (KMAX j) as (A1 & A2 & A3). split; [exact A1|right; auto].
    - intros (j & Hj & Hi & [[H1 H2]|[H1 H2]]); [left|right]; exists j; (split; [|apply in_seq; lia]).
      + destruct (KMIN j) as (A1 & A2 & A3). set (k := first_pos _ _) in *. destruct (lt_eq_lt_dec k i) as [[L|E]|L]; [|exact E|].
        * specialize (H2 k L). specialize (A2 i Hi). exfalso. lra.
        * specialize (A3 i L). specialize (H1 k A1). exfalso. lra.
      + destruct (KMAX j) as (A1 & A2 & A3). set (k := first_pos _ _) in *. destruct (lt_eq_lt_dec k i) as [[L|E]|L]; [|exact E|].
        * specialize (H2 k L). specialize (A2 i Hi). exfalso. lra.
        * specialize (A3 i L). specialize (H1 k A1). exfalso. lra.
  Qed.
  Lemma extreme_lt i : In i (extremes m F) -> i < length F.
  Proof. intros H. apply extreme_iff in H. destruct H as (j & _ & H & _). exact H. Qed.
End Ext.

Lemma sum_sq_nonneg {A} (g : A -> Q) l : (0 <= fold_right Qplus 0 (map (fun c => g c * g c) l))%Q.
Proof. induction l as [|x l IH]; cbn; [lra|]. assert (0 <= g x * g x)%Q; [|lra]. destruct (g x) as [p q]. unfold Qle, Qmult; cbn. pose proof (Z.square_nonneg p). lia. Qed.
Lemma sqdist_nonneg m F i j : (0 <= sqdist m F i j)%Q.
Proof. apply (sum_sq_nonneg (fun c => normed F i c - normed F j c)%Q). Qed.
Lemma sum_ext_in (g h : nat -> Q) l : (forall c, In c l -> (g c == h c)%Q) -> (fold_right Qplus 0 (map g l) == fold_right Qplus 0 (map h l))%Q.
Proof. induction l as [|x l IH]; intros H; cbn; [reflexivity|]. rewrite (H x) by now left. rewrite IH; [reflexivity|]. intros c Hc. apply H. now right. Qed.
Lemma range_eq m F lo hi c : F <> [] -> ranges m F lo hi -> c < m -> (qmin_list (colF c F) == lo c)%Q /\ (q_max_list (colF c F) == hi c)%Q.
Proof.
  intros HF HR Hc. destruct (HR c Hc) as [[A1 A2] [B1 B2]]. destruct (qmin_list_min (colF c F) (col_ne c F HF)) as [C1 C2]. destruct (qmax_list_max (colF c F) (col_ne c F HF)) as [D1 D2]. rewrite colF_obj in *.
  split; apply Qle_antisym; auto.
Qed.
Lemma sqdist_scaled m F lo hi i j : F <> [] -> ranges m F lo hi -> (forall c, c < m -> ~ (lo c == hi c)%Q) -> (sqdist m F i j == scaled_dist m F lo hi i j)%Q.
Proof.
  intros HF HR HN. apply sum_ext_in. intros c Hc. apply in_seq in Hc. destruct (range_eq m F lo hi c HF HR ltac:(lia)) as [E1 E2]. unfold normed. fold (entry F i c) (entry F j c). rewrite E1, E2. cbv zeta. field. specialize (HN c ltac:(lia)). intros K. apply HN. lra.
Qed.
