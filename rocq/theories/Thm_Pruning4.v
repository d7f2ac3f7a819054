(** * C100: pruning with crowding distances ("pcd") *)
From Coq Require Import List Arith Bool ZArith QArith Lia Lqa Permutation Sorted.
From Verif Require Import ListAux M_Individual M_Survival M_RefDirs2 M_Bounds P_Bounds M_Crowding S_Crowding Thm_Decomp Thm_Crowding M_Pruning Thm_Pruning Thm_Pruning2 Thm_Pruning3.
Import ListNotations.
Local Open Scope nat_scope.

(** ** specification *)
(** a stands before b in objective j: smaller value, or equal value and smaller index *)
Definition before (F : list (list Q)) (j a b : nat) : Prop := (entry F a j < entry F b j)%Q \/ (entry F a j == entry F b j)%Q /\ a < b.
(** scaled gap to the neighbour of i among the points [S], infinite without a neighbour *)
Definition gap_below (F : list (list Q)) (w : Q) (j : nat) (S : list nat) (i : nat) (x : xq) : Prop :=
  ((forall a, In a S -> ~ before F j a i) /\ x = PInf) \/
  exists a q, In a S /\ before F j a i /\ (forall b, In b S -> before F j b i -> b = a \/ before F j b a) /\ x = Fin q /\ (q == (entry F i j - entry F a j) / w)%Q.
Definition gap_above (F : list (list Q)) (w : Q) (j : nat) (S : list nat) (i : nat) (x : xq) : Prop :=
  ((forall a, In a S -> ~ before F j i a) /\ x = PInf) \/
  exists a q, In a S /\ before F j i a /\ (forall b, In b S -> before F j i b -> b = a \/ before F j a b) /\ x = Fin q /\ (q == (entry F a j - entry F i j) / w)%Q.
(** the contributions of the objectives: both gaps, 0 for a constant objective *)
Definition parts_ok (m : nat) (F : list (list Q)) (lo hi : nat -> Q) (S : list nat) (i : nat) (parts : list xq) : Prop :=
  length parts = m /\ forall j, j < m -> ((lo j == hi j)%Q -> nth j parts PInf = Fin 0) /\
    (~ (lo j == hi j)%Q -> exists x y, gap_below F (hi j - lo j) j S i x /\ gap_above F (hi j - lo j) j S i y /\ nth j parts PInf = xadd x y).
Definition pcd_value (m : nat) (F : list (list Q)) (lo hi : nat -> Q) (S : list nat) (i : nat) (x : xq) : Prop :=
  (extreme m F i /\ x = PInf) \/ (~ extreme m F i /\ exists parts, parts_ok m F lo hi S i parts /\ x = fold_right xadd (Fin 0) parts).
(** contract of a stable argsort *)
Definition stable_ok (asort : list Q -> list nat) : Prop := forall v, Permutation (asort v) (seq 0 (length v)) /\
  forall p q, p < q -> q < length v -> let a := nth p (asort v) 0 in let b := nth q (asort v) 0 in (nth a v 0 < nth b v 0)%Q \/ (nth a v 0 == nth b v 0)%Q /\ a < b.

(** ** order of the points *)
Lemma before_irrefl F j a : ~ before F j a a. Proof. intros [H|[_ H]]; [lra|lia]. Qed.
Lemma before_trans F j a b c : before F j a b -> before F j b c -> before F j a c.
Proof. intros [H|[H1 H2]] [K|[K1 K2]]; unfold before; [left; lra|left; lra|left; lra|right; split; [lra|lia]]. Qed.
Lemma before_le F j a b : before F j a b -> (entry F a j <= entry F b j)%Q. Proof. intros [H|[H _]]; lra. Qed.

Lemma xadd_mono a b a' b' : xle a a' -> xle b b' -> xle (xadd a b) (xadd a' b').
Proof. unfold xle. destruct a, a'; cbn; try discriminate; destruct b, b'; cbn; try discriminate; auto. rewrite !Qle_bool_iff. lra. Qed.
Lemma fold_xadd_mono l : forall l', length l = length l' -> (forall k, k < length l -> xle (nth k l PInf) (nth k l' PInf)) -> xle (fold_right xadd (Fin 0) l) (fold_right xadd (Fin 0) l').
Proof.
  induction l as [|a l IH]; intros [|b l'] HL H; try discriminate; [apply xle_refl|]. cbn [fold_right]. apply xadd_mono; [apply (H 0); cbn; lia|]. apply IH; [cbn in HL; lia|]. intros k Hk. apply (H (S k)). cbn. lia.
Qed.
Lemma div_le a b w : (0 < w)%Q -> (a <= b)%Q -> (a / w <= b / w)%Q.
Proof. intros Hw H. unfold Qdiv. apply Qmult_le_compat_r; [exact H|]. apply Qlt_le_weak, Qinv_lt_0_compat, Hw. Qed.
Lemma gap_below_mono F w j S1 S2 i x y : (0 < w)%Q -> incl S2 S1 -> gap_below F w j S1 i x -> gap_below F w j S2 i y -> xle x y.
Proof.
  intros Hw HI HX [[_ ->]|(a & q & A1 & A2 & A3 & -> & A5)]; [apply xle_pinf|]. destruct HX as [[B1 _]|(b & r & B1 & B2 & B3 & -> & B5)]; [exfalso; apply (B1 a); auto|].
  unfold xle. cbn. apply Qle_bool_iff. rewrite A5, B5. apply div_le; [exact Hw|]. destruct (B3 a (HI a A1) A2) as [-> |K]; [lra|]. apply before_le in K. lra.
Qed.
Lemma gap_above_mono F w j S1 S2 i x y : (0 < w)%Q -> incl S2 S1 -> gap_above F w j S1 i x -> gap_above F w j S2 i y -> xle x y.
Proof.
  intros Hw HI HX [[_ ->]|(a & q & A1 & A2 & A3 & -> & A5)]; [apply xle_pinf|]. destruct HX as [[B1 _]|(b & r & B1 & B2 & B3 & -> & B5)]; [exfalso; apply (B1 a); auto|].
  unfold xle. cbn. apply Qle_bool_iff. rewrite A5, B5. apply div_le; [exact Hw|]. destruct (B3 a (HI a A1) A2) as [-> |K]; [lra|]. apply before_le in K. lra.
Qed.
Lemma parts_mono m F lo hi S1 S2 i p1 p2 : (forall j, j < m -> (lo j <= hi j)%Q) -> incl S2 S1 -> parts_ok m F lo hi S1 i p1 -> parts_ok m F lo hi S2 i p2 -> xle (fold_right xadd (Fin 0) p1) (fold_right xadd (Fin 0) p2).
Proof.
  intros HW HI [L1 H1] [L2 H2]. apply fold_xadd_mono; [lia|]. intros j Hj. rewrite L1 in Hj. destruct (H1 j Hj) as [A1 A2]. destruct (H2 j Hj) as [B1 B2]. specialize (HW j Hj).
  destruct (Qeq_dec (lo j) (hi j)) as [E|E]; [rewrite A1, B1 by exact E; apply xle_refl|]. destruct (A2 E) as (x & y & X1 & Y1 & ->). destruct (B2 E) as (x' & y' & X2 & Y2 & ->).
  assert (0 < hi j - lo j)%Q by (destruct (Qlt_le_dec (lo j) (hi j)); [lra|exfalso; apply E; lra]). apply xadd_mono; [eapply gap_below_mono|eapply gap_above_mono]; eauto.
Qed.

Section PCD.
  Variables (asort : list Q -> list nat) (m : nat) (F : list (list Q)) (lo hi : nat -> Q).
  Hypotheses (HA : stable_ok asort) (HR : ranges m F lo hi) (HF : F <> []).
  Notation N := (length F).
  Lemma lo_le_hi j : j < m -> (lo j <= hi j)%Q.
  Proof. intros Hj. destruct (HR j Hj) as [[A1 A2] [B1 B2]]. auto. Qed.
  Lemma const_iff j : j < m -> (constant_col j F = true <-> (lo j == hi j)%Q).
  Proof. intros Hj. unfold constant_col. destruct (range_eq m F lo hi j HF HR Hj) as [E1 E2]. rewrite Qeq_bool_iff, E1, E2. split; intros; lra. Qed.
  Lemma normed_diff j a b : j < m -> ~ (lo j == hi j)%Q -> (normed F a j - normed F b j == (entry F a j - entry F b j) / (hi j - lo j))%Q.
  Proof. intros Hj HN. destruct (range_eq m F lo hi j HF HR Hj) as [E1 E2]. unfold normed. fold (entry F a j) (entry F b j). rewrite E1, E2. field. intros K. apply HN. lra. Qed.
  Lemma normed_lt j a b : j < m -> ~ (lo j == hi j)%Q -> ((normed F a j < normed F b j)%Q <-> (entry F a j < entry F b j)%Q).
  Proof.
    intros Hj HN. pose proof (normed_diff j b a Hj HN) as D. pose proof (lo_le_hi j Hj) as L. assert (W : (0 < hi j - lo j)%Q) by (destruct (Qlt_le_dec (lo j) (hi j)); [lra|exfalso; apply HN; lra]).
    split; intros H.
    - assert (0 < (entry F b j - entry F a j) / (hi j - lo j))%Q by lra. destruct (Qlt_le_dec (entry F a j) (entry F b j)) as [|L2]; [auto|]. exfalso.
      pose proof (div_le (entry F b j - entry F a j) 0 (hi j - lo j) W ltac:(lra)) as K. assert (Z0 : (0 / (hi j - lo j) == 0)%Q) by (field; lra). lra.
    - assert (0 < (entry F b j - entry F a j) / (hi j - lo j))%Q by (apply Qlt_shift_div_l; lra). lra.
  Qed.

  (** the points in the order of objective j *)
  Lemma col_spec H i j : StronglySorted lt H -> In i H -> j < m -> ~ (lo j == hi j)%Q ->
    let v := map (fun h => normed F h j) H in let s := gather 0%Q v (asort v) in let k := index_of (index_of i H) (asort v) in
    exists T, (forall a, In a T <-> In a H) /\ length T = length H /\ k < length T /\ nth k T 0 = i /\ (forall p q, p < q -> q < length T -> before F j (nth p T 0) (nth q T 0)) /\
      (forall p, p < length T -> nth p s 0%Q = normed F (nth p T 0) j) /\ length s = length T.
  Proof.
    intros HS Hi Hj HN v s k. destruct (HA v) as [HP HO]. assert (Lv : length v = length H) by apply map_length. rewrite Lv in HP, HO. assert (LJ : length (asort v) = length H) by (apply perm_seq_length in HP; exact HP).
    set (T := map (fun p => nth p H 0) (asort v)). exists T.
    assert (TN : forall p, p < length H -> nth p T 0 = nth (nth p (asort v) 0) H 0). { intros p Hp. unfold T. rewrite (nth_indep _ 0 (nth 0 H 0)) by (rewrite map_length; lia). apply (map_nth (fun p => nth p H 0)). }
    assert (JB : forall p, p < length H -> nth p (asort v) 0 < length H) by (intros p Hp; apply (perm_seq_In _ _ _ HP), nth_In; lia).
    assert (VN : forall p, p < length H -> nth p v 0%Q = normed F (nth p H 0) j). { intros p Hp. unfold v. rewrite (nth_indep _ 0%Q (normed F 0 j)) by (rewrite map_length; lia). apply (map_nth (fun h => normed F h j)). }
    assert (LT : length T = length H) by (unfold T; rewrite map_length; exact LJ).
    destruct (index_of_spec i H Hi) as [I1 I2]. assert (Hin : In (index_of i H) (asort v)) by (apply (perm_seq_In _ _ _ HP); exact I1). destruct (index_of_spec _ _ Hin) as [K1 K2]. fold k in K1, K2.
    split; [|split; [exact LT|]]; [|split; [lia|split; [rewrite TN by lia; rewrite K2; exact I2|]]].
    - intros a. unfold T. rewrite in_map_iff. split.
      + intros (p & <- & Hp). apply nth_In. apply (perm_seq_In _ _ _ HP). exact Hp.
      + intros Ha. destruct (In_nth _ _ 0 Ha) as (p & Hp & E). exists p. split; [exact E|]. apply (perm_seq_In _ _ _ HP). exact Hp.
    - split; [|split].
      + intros p q Hpq Hq. rewrite LT in Hq. rewrite !TN by lia. specialize (HO p q Hpq Hq). cbv zeta in HO. rewrite !VN in HO by (apply JB; lia). set (a := nth p (asort v) 0) in *. set (b := nth q (asort v) 0) in *.
        destruct HO as [HO|[HO1 HO2]]; [left; now apply normed_lt in HO|]. right. split.
        * pose proof (proj2 (normed_lt j (nth a H 0) (nth b H 0) Hj HN)). pose proof (proj2 (normed_lt j (nth b H 0) (nth a H 0) Hj HN)).
          destruct (Qlt_le_dec (entry F (nth a H 0) j) (entry F (nth b H 0) j)) as [L|L]; [specialize (H0 L); lra|]. destruct (Qlt_le_dec (entry F (nth b H 0) j) (entry F (nth a H 0) j)) as [L2|L2]; [specialize (H1 L2); lra|lra].
        * apply (StronglySorted_nth lt H 0); auto. apply JB. lia.
      + intros p Hp. rewrite LT in Hp. unfold s. rewrite nth_gather by lia. rewrite VN by (apply JB; lia). now rewrite TN.
      + unfold s. rewrite length_gather. lia.
  Qed.
  Lemma pcd_parts H i : StronglySorted lt H -> In i H -> parts_ok m F lo hi H i (map (pcd_col asort F H i) (seq 0 m)).
  Proof.
    intros HS Hi. split; [now rewrite map_length, seq_length|]. intros j Hj. rewrite (nth_indep _ PInf (pcd_col asort F H i 0)) by (rewrite map_length, seq_length; lia). rewrite map_nth, seq_nth by lia. rewrite Nat.add_0_l. unfold pcd_col. split.
    - intros E. apply (const_iff j Hj) in E. now rewrite E.
    - intros E. destruct (constant_col j F) eqn:EC; [apply (const_iff j Hj) in EC; contradiction|]. destruct (col_spec H i j HS Hi Hj E) as (T & T1 & T2 & T3 & T4 & T5 & T6 & T7). cbv zeta.
      set (v := map (fun h => normed F h j) H) in *. set (s := gather 0%Q v (asort v)) in *. set (k := index_of (index_of i H) (asort v)) in *.
      assert (POS : forall a, In a H -> exists p, p < length T /\ nth p T 0 = a) by (intros a Ha; apply T1 in Ha; apply In_nth; exact Ha).
      assert (LTI : forall p, p < length T -> before F j (nth p T 0) i -> p < k). { intros p Hp HB. destruct (lt_eq_lt_dec p k) as [[L|L]|L]; [exact L|exfalso|exfalso]. - subst p. rewrite T4 in HB. now apply before_irrefl in HB. - specialize (T5 k p L Hp). rewrite T4 in T5. apply (before_irrefl F j i). eapply before_trans; eauto. }
      assert (GTI : forall p, p < length T -> before F j i (nth p T 0) -> k < p). { intros p Hp HB. destruct (lt_eq_lt_dec p k) as [[L|L]|L]; [exfalso|exfalso|exact L]. - specialize (T5 p k L T3). rewrite T4 in T5. apply (before_irrefl F j i). eapply before_trans; eauto. - subst p. rewrite T4 in HB. now apply before_irrefl in HB. }
      exists (gap s k), (gap s (S k)). split; [|split; [|reflexivity]].
      + unfold gap. rewrite T7. replace (length T <=? k) with false by (symmetry; apply Nat.leb_gt; lia). rewrite orb_false_r. destruct (Nat.eqb_spec k 0) as [Ek|Ek].
        * left. split; [|reflexivity]. intros a Ha HB. destruct (POS a Ha) as (p & Hp & <-). specialize (LTI p Hp HB). lia.
        * right. eexists (nth (k - 1) T 0), _. split; [apply T1, nth_In; lia|]. split; [rewrite <- T4; apply T5; lia|]. split; [|split; [reflexivity|rewrite !T6, T4 by lia; apply normed_diff; auto]].
          intros b Hb HB. destruct (POS b Hb) as (p & Hp & <-). specialize (LTI p Hp HB). destruct (Nat.eq_dec p (k - 1)) as [-> |]; [now left|right]. apply T5; lia.
      + unfold gap. rewrite T7. replace (S k =? 0) with false by reflexivity. cbn [orb]. destruct (Nat.leb_spec (length T) (S k)) as [Ek|Ek].
        * left. split; [|reflexivity]. intros a Ha HB. destruct (POS a Ha) as (p & Hp & <-). specialize (GTI p Hp HB). lia.
        * right. eexists (nth (S k) T 0), _. split; [apply T1, nth_In; lia|]. split; [rewrite <- T4; apply T5; lia|]. split; [|split; [reflexivity|]].
          -- intros b Hb HB. destruct (POS b Hb) as (p & Hp & <-). specialize (GTI p Hp HB). destruct (Nat.eq_dec p (S k)) as [-> |]; [now left|right]. apply T5; lia.
          -- replace (S k - 1) with k by lia. rewrite !T6, T4 by lia. apply normed_diff; auto.
  Qed.
End PCD.
Lemma seq_sorted n : forall s, StronglySorted lt (seq s n).
Proof. induction n as [|n IH]; intros s; cbn; constructor; [apply IH|]. apply Forall_forall. intros x Hx. apply in_seq in Hx. lia. Qed.
Lemma rest_sorted R H : StronglySorted lt H -> StronglySorted lt (rest R H).
Proof.
  unfold rest. induction 1 as [|x l HS IH HF]; cbn; [constructor|]. destruct (negb _); [|exact IH]. constructor; [exact IH|]. apply Forall_forall. intros y Hy. apply filter_In in Hy as [Hy _]. rewrite Forall_forall in HF. auto.
Qed.

(** C100, "pcd": the values are those of dropping one point after the other, min(n_remove - 1, N - m - 1) of them (none if there are no more points than objectives plus one); the value of a point among the remaining
    ones is infinite for the extreme points, otherwise the sum over the objectives of its gaps to the neighbours, relative to the range; a constant objective contributes nothing *)
Theorem C100_pcd : forall asort m n_remove F lo hi, stable_ok asort -> F <> [] -> ranges m F lo hi -> let N := length F in
  exists R, pruned_values (pcd_value m F lo hi) N (Nat.min (Z.to_nat (n_remove - 1)) (N - m - 1)) (calc_pcd asort m n_remove F) R.
Proof.
  intros asort m n_remove F lo hi HA HF HR N. unfold calc_pcd. fold N. assert (HN : 0 < N) by (unfold N; destruct F; [congruence|cbn; lia]).
  assert (EK : rounds N m n_remove = Nat.min (Z.to_nat (n_remove - 1)) (N - m - 1)) by apply rounds_value. rewrite <- EK. set (k := rounds N m n_remove) in *.
  assert (SS : forall Q, StronglySorted lt (without Q N)) by (intros Q; apply (rest_sorted Q (seq 0 N)), seq_sorted).
  assert (LH : forall j, j < m -> (lo j <= hi j)%Q) by (intros j Hj; eapply lo_le_hi; eauto).
  destruct (pruned_spec (pcd_score asort m F) (extremes m F) N (extreme_lt m F HF)) with (fuel := k) as (R & PR).
  - intros R q i Hi. assert (Hi' : In i (rest R (seq 0 N))). { unfold rest in *. apply filter_In in Hi as [A B]. apply filter_In. split; [exact A|]. cbn [existsb] in B. rewrite negb_orb in B. apply andb_true_iff in B. tauto. }
    eapply (parts_mono m F lo hi); [exact LH| |eapply pcd_parts; eauto; apply rest_sorted, seq_sorted|eapply pcd_parts; eauto; apply rest_sorted, seq_sorted].
    intros a Ha. unfold rest in *. apply filter_In in Ha as [A B]. apply filter_In. split; [exact A|]. cbn [existsb] in B. rewrite negb_orb in B. apply andb_true_iff in B. tauto.
  - lia.
  - exists R. revert PR. apply pruned_values_impl; [| |lia].
    + intros Q i x Hi _ _ ->. unfold val. destruct (existsb (Nat.eqb i) (extremes m F)) eqn:EX.
      * left. split; [apply extreme_iff; auto; now apply existsb_In|reflexivity].
      * right. split; [intros K; apply (extreme_iff m F HF), existsb_In in K; congruence|]. eexists. split; [eapply pcd_parts; eauto|reflexivity].
    + intros Q i x Hi _ HV. eexists. split; [reflexivity|]. unfold val. destruct HV as [[V1 ->]|[V1 (p & V2 & ->)]]; [apply xle_pinf|].
      destruct (existsb (Nat.eqb i) (extremes m F)) eqn:EX; [exfalso; apply V1, extreme_iff; auto; now apply existsb_In|].
      eapply (parts_mono m F lo hi); [exact LH|apply incl_refl|eapply pcd_parts; eauto|exact V2].
Qed.
