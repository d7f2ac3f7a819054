(** * C104: Omni-Optimizer: the crowding distance in one space *)
From Coq Require Import List Arith Bool ZArith QArith Lia Lqa Permutation.
From Verif Require Import ListAux M_Bounds P_Bounds M_Crowding S_Crowding Thm_Crowding Thm_Pruning4 M_Omni Thm_Omni.
Import ListNotations.
Local Open Scope nat_scope.

(** ** Specification: the order of the entries of a column, ties by position *)
Definition bef (v : list Q) (a b : nat) : Prop := (nth a v 0 < nth b v 0)%Q \/ (nth a v 0 == nth b v 0)%Q /\ a < b.
Definition first_of (v : list Q) (i : nat) : Prop := i < length v /\ forall a, a < length v -> a <> i -> bef v i a.
Definition last_of (v : list Q) (i : nat) : Prop := i < length v /\ forall a, a < length v -> a <> i -> bef v a i.
(** [a] is the neighbour directly before / after [i] *)
Definition prev_of (v : list Q) (i a : nat) : Prop := a < length v /\ bef v a i /\ forall x, x < length v -> bef v x i -> x = a \/ bef v x a.
Definition next_of (v : list Q) (i b : nat) : Prop := b < length v /\ bef v i b /\ forall x, x < length v -> bef v i x -> x = b \/ bef v b x.
Definition spread (v : list Q) (w : Q) : Prop := exists lo hi, is_min_of v lo /\ is_max_of v hi /\ (w == hi - lo)%Q.
(** what a column contributes to the crowding of [i]: the gap between its two neighbours relative to the range; nothing if all entries agree.
    At the ends: nothing in the objective space, twice the gap to the only neighbour in the variable space *)
Definition obj_contrib (v : list Q) (i : nat) (c : Q) : Prop := exists w, spread v w /\
  (((w == 0)%Q \/ first_of v i \/ last_of v i) /\ (c == 0)%Q \/
   (0 < w)%Q /\ ~ first_of v i /\ ~ last_of v i /\ exists a b, prev_of v i a /\ next_of v i b /\ (c == (nth b v 0 - nth a v 0) / w)%Q).
Definition var_contrib (v : list Q) (i : nat) (c : Q) : Prop := exists w, spread v w /\
  ((w == 0)%Q /\ (c == 0)%Q \/
   (0 < w)%Q /\ first_of v i /\ (exists b, next_of v i b /\ (c == 2 * (nth b v 0 - nth i v 0) / w)%Q) \/
   (0 < w)%Q /\ last_of v i /\ (exists a, prev_of v i a /\ (c == 2 * (nth i v 0 - nth a v 0) / w)%Q) \/
   (0 < w)%Q /\ ~ first_of v i /\ ~ last_of v i /\ exists a b, prev_of v i a /\ next_of v i b /\ (c == (nth b v 0 - nth a v 0) / w)%Q).

Lemma bef_irrefl v a : ~ bef v a a. Proof. intros [H|[_ H]]; [lra|lia]. Qed.
Lemma bef_asym v a b : bef v a b -> ~ bef v b a. Proof. intros [H|[H1 H2]] [K|[K1 K2]]; [lra|lra|lra|lia]. Qed.
Lemma bef_le v a b : bef v a b -> (nth a v 0 <= nth b v 0)%Q. Proof. intros [H|[H _]]; lra. Qed.

Section Col.
  Variables (asort : list Q -> list nat) (v : list Q).
  Hypotheses (HS : stable_ok asort) (H3 : 3 <= length v).
  Let J := asort v.
  Let s := gather 0%Q v J.
  Let n := length v.
  Lemma sorted_J : is_argsort Qltb 0%Q v J.
  Proof.
    destruct (HS v) as [P O]. split; [exact P|]. intros p q Hpq Hq. unfold J in Hq; rewrite (perm_seq_length _ _ P) in Hq. apply Qltb_false. destruct (O p q Hpq Hq) as [K|[K _]]; unfold J in *; lra.
  Qed.
  Lemma J_lt k : k < n -> nth k J 0 < n.
  Proof. intros Hk. destruct (HS v) as [P _]. apply (perm_seq_In _ _ _ P). apply nth_In. unfold J. rewrite (perm_seq_length _ _ P). exact Hk. Qed.
  Lemma pos_J k : k < n -> index_of (nth k J 0) J = k.
  Proof. intros Hk. destruct (HS v) as [P _]. apply index_of_nth; [eapply perm_seq_NoDup, P|]. unfold J. rewrite (perm_seq_length _ _ P). exact Hk. Qed.
  Lemma J_pos i : i < n -> index_of i J < n /\ nth (index_of i J) J 0 = i.
  Proof. intros Hi. destruct (HS v) as [P _]. assert (In i J) by (now apply (perm_seq_In _ _ i P)). destruct (index_of_spec i J H) as [A B]. unfold J in A at 2. rewrite (perm_seq_length _ _ P) in A. auto. Qed.
  Lemma sv k : k < n -> nth k s 0%Q = nth (nth k J 0) v 0%Q.
  Proof. intros Hk. apply (Thm_Crowding.s_nth v J sorted_J k Hk). Qed.
  Lemma pos_bef a b : a < n -> b < n -> (bef v a b <-> index_of a J < index_of b J).
  Proof.
    intros Ha Hb. assert (G : forall a b, a < n -> b < n -> index_of a J < index_of b J -> bef v a b).
    { intros a0 b0 A B K. destruct (J_pos a0 A) as [_ E1]. destruct (J_pos b0 B) as [L2 E2]. destruct (HS v) as [_ O]. specialize (O _ _ K L2). cbv zeta in O. fold J in O. rewrite E1, E2 in O. exact O. }
    split; [|auto]. intros K. destruct (Nat.lt_trichotomy (index_of a J) (index_of b J)) as [L|[L|L]]; auto.
    - exfalso. destruct (J_pos a Ha) as [_ E1]. destruct (J_pos b Hb) as [_ E2]. rewrite L in E1. rewrite E1 in E2. subst b. exact (bef_irrefl v a K).
    - exfalso. exact (bef_asym v b a (G b a Hb Ha L) K).
  Qed.
  Lemma pos_inj a b : a < n -> b < n -> index_of a J = index_of b J -> a = b.
  Proof. intros Ha Hb E. destruct (J_pos a Ha) as [_ E1]. destruct (J_pos b Hb) as [_ E2]. congruence. Qed.
  Lemma first_pos i : i < n -> (first_of v i <-> index_of i J = 0).
  Proof.
    intros Hi. split.
    - intros [_ H]. destruct (Nat.eq_dec (nth 0 J 0) i) as [E|E]; [rewrite <- E; apply pos_J; unfold n; lia|]. pose proof (H (nth 0 J 0) (J_lt 0 ltac:(unfold n; lia)) E) as K. apply pos_bef in K; auto; [|apply J_lt; unfold n; lia]. rewrite pos_J in K by (unfold n; lia). lia.
    - intros E. split; auto. intros a Ha Hne. apply pos_bef; auto. destruct (Nat.eq_dec (index_of a J) 0) as [E'|]; [|lia]. exfalso. apply Hne, pos_inj; auto. congruence.
  Qed.
  Lemma last_pos i : i < n -> (last_of v i <-> index_of i J = n - 1).
  Proof.
    intros Hi. destruct (J_pos i Hi) as [L _]. split.
    - intros [_ H]. destruct (Nat.eq_dec (nth (n - 1) J 0) i) as [E|E]; [rewrite <- E; apply pos_J; unfold n; lia|]. pose proof (H (nth (n - 1) J 0) (J_lt (n - 1) ltac:(unfold n; lia)) E) as K. apply pos_bef in K; auto; [|apply J_lt; unfold n; lia]. rewrite pos_J in K by (unfold n; lia). lia.
    - intros E. split; auto. intros a Ha Hne. apply pos_bef; auto. destruct (J_pos a Ha) as [L' _]. destruct (Nat.eq_dec (index_of a J) (n - 1)) as [E'|]; [|lia]. exfalso. apply Hne, pos_inj; auto. congruence.
  Qed.
  Lemma prev_ok i : i < n -> index_of i J <> 0 -> prev_of v i (nth (index_of i J - 1) J 0).
  Proof.
    intros Hi Hk. destruct (J_pos i Hi) as [L _]. assert (Lp : nth (index_of i J - 1) J 0 < n) by (apply J_lt; lia). split; auto. split; [apply pos_bef; auto; rewrite pos_J; lia|].
    intros x Hx B. apply pos_bef in B; auto. destruct (Nat.eq_dec (index_of x J) (index_of i J - 1)) as [E|E]; [left; apply pos_inj; auto; rewrite pos_J; lia|right; apply pos_bef; auto; rewrite pos_J; lia].
  Qed.
  Lemma next_ok i : i < n -> index_of i J <> n - 1 -> next_of v i (nth (index_of i J + 1) J 0).
  Proof.
    intros Hi Hk. destruct (J_pos i Hi) as [L _]. assert (Lp : nth (index_of i J + 1) J 0 < n) by (apply J_lt; lia). split; auto. split; [apply pos_bef; auto; rewrite pos_J; lia|].
    intros x Hx B. apply pos_bef in B; auto. destruct (Nat.eq_dec (index_of x J) (index_of i J + 1)) as [E|E]; [left; apply pos_inj; auto; rewrite pos_J; lia|right; apply pos_bef; auto; rewrite pos_J; lia].
  Qed.
  Lemma smono a b : a <= b -> b < n -> (nth a s 0 <= nth b s 0)%Q.
  Proof. apply (Thm_Crowding.s_mono v J sorted_J). Qed.
  Lemma span_ok : spread v (nth (n - 1) s 0 - nth 0 s 0)%Q.
  Proof.
    assert (LS : length s = n) by apply (Thm_Crowding.lens v J sorted_J).
    exists (nth 0 s 0%Q), (nth (n - 1) s 0%Q). split; [apply (Thm_Crowding.s_min_of v J sorted_J)|split; [apply (Thm_Crowding.s_max_of v J sorted_J)|reflexivity]]; fold s; (split; [apply nth_In; unfold n in *; lia|]); intros y Hy; destruct (In_nth _ _ 0%Q Hy) as (k & Hk & <-); apply smono; unfold n in *; lia.
  Qed.
  Lemma div_01 x w : (0 <= x)%Q -> (x <= w)%Q -> (0 < w)%Q -> (0 <= x / w)%Q /\ (x / w <= 1)%Q.
  Proof. intros A B C. split; [apply Qle_shift_div_l; lra|apply Qle_shift_div_r; lra]. Qed.
  Lemma obj_part_ok i : i < n -> obj_contrib v i (obj_part asort v i) /\ (0 <= obj_part asort v i)%Q /\ (obj_part asort v i <= 1)%Q.
  Proof.
    intros Hi. destruct (J_pos i Hi) as [L EJ]. pose proof span_ok as SP. unfold obj_part. fold J. fold s. fold n. cbv zeta. set (w := (nth (n - 1) s 0 - nth 0 s 0)%Q) in *.
    assert (W0 : (0 <= w)%Q) by (pose proof (smono 0 (n - 1) ltac:(lia) ltac:(unfold n; lia)); unfold w; lra).
    destruct (Qeq_bool w 0) eqn:EW.
    { apply Qeq_bool_iff in EW. split; [exists w; split; auto; left; split; auto; reflexivity|split; lra]. }
    assert (W : (0 < w)%Q) by (assert (~ (w == 0)%Q) by (intros E; apply Qeq_bool_iff in E; congruence); lra).
    destruct (Nat.eqb_spec (index_of i J) 0) as [E0|E0]; [cbn [orb]; split; [exists w; split; auto; left; split; [right; left; now apply first_pos|reflexivity]|split; lra]|].
    destruct (Nat.eqb_spec (index_of i J) (n - 1)) as [E1|E1]; [cbn [orb]; split; [exists w; split; auto; left; split; [right; right; now apply last_pos|reflexivity]|split; lra]|]. cbn [orb].
    split.
    - exists w. split; auto. right. split; auto. split; [intros K; apply first_pos in K; auto|]. split; [intros K; apply last_pos in K; auto|].
      exists (nth (index_of i J - 1) J 0), (nth (index_of i J + 1) J 0). split; [apply prev_ok; auto|]. split; [apply next_ok; auto|]. rewrite !sv by lia. reflexivity.
    - apply div_01; auto.
      + pose proof (smono (index_of i J - 1) (index_of i J + 1) ltac:(lia) ltac:(lia)). lra.
      + pose proof (smono 0 (index_of i J - 1) ltac:(lia) ltac:(lia)). pose proof (smono (index_of i J + 1) (n - 1) ltac:(lia) ltac:(lia)). unfold w. lra.
  Qed.
  Lemma var_part_ok i : i < n -> var_contrib v i (var_part asort v i) /\ (0 <= var_part asort v i)%Q /\ (var_part asort v i <= 2)%Q.
  Proof.
    intros Hi. destruct (J_pos i Hi) as [L EJ]. pose proof span_ok as SP. unfold var_part. fold J. fold s. fold n. cbv zeta. set (w := (nth (n - 1) s 0 - nth 0 s 0)%Q) in *.
    assert (W0 : (0 <= w)%Q) by (pose proof (smono 0 (n - 1) ltac:(lia) ltac:(unfold n; lia)); unfold w; lra).
    destruct (Qeq_bool w 0) eqn:EW.
    { apply Qeq_bool_iff in EW. split; [exists w; split; auto; left; split; auto; reflexivity|split; lra]. }
    assert (W : (0 < w)%Q) by (assert (~ (w == 0)%Q) by (intros E; apply Qeq_bool_iff in E; congruence); lra).
    assert (T2 : forall x, (0 <= x)%Q -> (x <= w)%Q -> (0 <= 2 * x / w)%Q /\ (2 * x / w <= 2)%Q) by (intros x A B; split; [apply Qle_shift_div_l; lra|apply Qle_shift_div_r; lra]).
    destruct (Nat.eqb_spec (index_of i J) 0) as [E0|E0].
    { split.
      - exists w. split; auto. right. left. split; auto. split; [now apply first_pos|]. exists (nth (index_of i J + 1) J 0). split; [apply next_ok; auto; unfold n in *; lia|]. rewrite !sv by (unfold n; lia). rewrite E0 in EJ. rewrite E0, EJ. reflexivity.
      - apply T2; [pose proof (smono 0 1 ltac:(lia) ltac:(unfold n; lia)); lra|]. pose proof (smono 1 (n - 1) ltac:(unfold n; lia) ltac:(unfold n; lia)). unfold w. lra. }
    destruct (Nat.eqb_spec (index_of i J) (n - 1)) as [E1|E1].
    { split.
      - exists w. split; auto. right. right. left. split; auto. split; [now apply last_pos|]. exists (nth (index_of i J - 1) J 0). split; [apply prev_ok; auto|]. rewrite !sv by (unfold n; lia). rewrite E1 in EJ. rewrite E1, EJ. replace (n - 1 - 1) with (n - 2) by lia. reflexivity.
      - apply T2; [pose proof (smono (n - 2) (n - 1) ltac:(lia) ltac:(unfold n; lia)); lra|]. pose proof (smono 0 (n - 2) ltac:(unfold n; lia) ltac:(unfold n; lia)). unfold w. lra. }
    split.
    - exists w. split; auto. right. right. right. split; auto. split; [intros K; apply first_pos in K; auto|]. split; [intros K; apply last_pos in K; auto|].
      exists (nth (index_of i J - 1) J 0), (nth (index_of i J + 1) J 0). split; [apply prev_ok; auto|]. split; [apply next_ok; auto|]. rewrite !sv by lia. reflexivity.
    - assert (forall x, (0 <= x)%Q /\ (x <= 1)%Q -> (0 <= x)%Q /\ (x <= 2)%Q) as Z by (intros; lra). apply Z. apply div_01; auto.
      + pose proof (smono (index_of i J - 1) (index_of i J + 1) ltac:(lia) ltac:(lia)). lra.
      + pose proof (smono 0 (index_of i J - 1) ltac:(lia) ltac:(lia)). pose proof (smono (index_of i J + 1) (n - 1) ltac:(lia) ltac:(lia)). unfold w. lra.
  Qed.
  Lemma nth0_first i : i < n -> (nth 0 (asort v) 0 = i <-> first_of v i).
  Proof.
    intros Hi. fold J. rewrite first_pos by auto. split; [intros <-; apply pos_J; unfold n; lia|]. intros E. destruct (J_pos i Hi) as [_ K]. now rewrite E in K.
  Qed.
End Col.

Definition col (F : list (list Q)) (j : nat) : list Q := map (fun r => nth j r 0%Q) F.
(** the best solution of some objective; of several equally good ones the first *)
Definition boundary (m : nat) (F : list (list Q)) (i : nat) : Prop := exists j, j < m /\ first_of (col F j) i.
Definition mean_contrib (contrib : list Q -> nat -> Q -> Prop) (d : nat) (Y : list (list Q)) (i : nat) (x : Q) : Prop :=
  exists cs, length cs = d /\ (forall j, j < d -> contrib (col Y j) i (nth j cs 0%Q)) /\ (x == fold_right Qplus 0 cs / inject_Z (Z.of_nat d))%Q.

Lemma sum_bounds d (p : nat -> Q) hi : (forall j, j < d -> (0 <= p j)%Q /\ (p j <= hi)%Q) -> (0 <= qsum_parts d p)%Q /\ (qsum_parts d p <= inject_Z (Z.of_nat d) * hi)%Q.
Proof.
  unfold qsum_parts. revert p. induction d as [|d IH]; intros p H; [cbn; unfold inject_Z; lra|]. cbn [seq map fold_right]. rewrite <- seq_shift, map_map.
  destruct (IH (fun j => p (S j)) ltac:(intros j Hj; apply H; lia)) as [A B]. destruct (H 0 ltac:(lia)) as [C D]. rewrite Nat2Z.inj_succ. unfold Z.succ. rewrite inject_Z_plus. split; [lra|]. change (inject_Z 1) with 1%Q. lra.
Qed.
Lemma mean_bounds d (p : nat -> Q) hi : 0 < d -> (forall j, j < d -> (0 <= p j)%Q /\ (p j <= hi)%Q) -> (0 <= qsum_parts d p / inject_Z (Z.of_nat d))%Q /\ (qsum_parts d p / inject_Z (Z.of_nat d) <= hi)%Q.
Proof.
  intros Hd H. destruct (sum_bounds d p hi H) as [A B]. assert (0 < inject_Z (Z.of_nat d))%Q by (change 0%Q with (inject_Z 0); rewrite <- Zlt_Qlt; lia).
  split; [apply Qle_shift_div_l; lra|apply Qle_shift_div_r; auto; lra].
Qed.
Lemma len_col Y j : length (col Y j) = length Y. Proof. unfold col. apply map_length. Qed.
Lemma is_boundary_iff asort m F i : stable_ok asort -> 3 <= length F -> i < length F -> (is_boundary asort m F i = true <-> boundary m F i).
Proof.
  intros HS H3 Hi. unfold is_boundary, boundary. rewrite existsb_exists. split.
  - intros (j & Hj & E). apply in_seq in Hj. apply Nat.eqb_eq in E. exists j. split; [lia|]. apply (nth0_first asort (col F j) HS); rewrite ?len_col; auto.
  - intros (j & Hj & E). exists j. split; [apply in_seq; lia|]. apply Nat.eqb_eq. apply (nth0_first asort (col F j) HS) in E; rewrite ?len_col; auto.
Qed.
Lemma nth_map_seq {A} (f : nat -> A) n i d : i < n -> nth i (map f (seq 0 n)) d = f i.
Proof. intros Hi. rewrite (nth_indep _ d (f 0)) by (rewrite map_length, seq_length; auto). rewrite map_nth, seq_nth by auto. reflexivity. Qed.

(** C104: crowding in the objective space: the best solution of every objective gets 10, every other solution the mean of its contributions, which is at most 1; one or two solutions all get 10 *)
Theorem C104_objective_crowding : forall asort m F, stable_ok asort -> 0 < m ->
  let c := objective_crowding asort m F in
  length c = length F /\
  (length F <= 2 -> forall i, i < length F -> nth i c 0%Q = 10%Q) /\
  (3 <= length F -> forall i, i < length F ->
     (boundary m F i -> nth i c 0%Q = 10%Q) /\
     (~ boundary m F i -> mean_contrib obj_contrib m F i (nth i c 0%Q) /\ (0 <= nth i c 0)%Q /\ (nth i c 0 <= 1)%Q)).
Proof.
  intros asort m F HS Hm c. unfold c, objective_crowding. destruct (Nat.leb_spec (length F) 2) as [H2|H2].
  - split; [apply repeat_length|]. split; [|lia]. intros _ i Hi. rewrite nth_indep with (d' := 10%Q) by (now rewrite repeat_length); apply nth_repeat.
  - split; [now rewrite map_length, seq_length|]. split; [lia|]. intros _ i Hi. rewrite nth_map_seq by auto. pose proof (is_boundary_iff asort m F i HS ltac:(lia) Hi) as IB.
    destruct (is_boundary asort m F i); [split; auto; intros K; exfalso; apply K, IB; reflexivity|].
    split; [intros K; apply IB in K; discriminate|]. intros _.
    assert (PO : forall j, obj_contrib (col F j) i (obj_part asort (colF j F) i) /\ (0 <= obj_part asort (colF j F) i)%Q /\ (obj_part asort (colF j F) i <= 1)%Q).
    { intros j. apply (obj_part_ok asort (col F j) HS); rewrite len_col; auto; lia. }
    split; [|apply mean_bounds; auto; intros j _; apply PO]. exists (map (fun j => obj_part asort (colF j F) i) (seq 0 m)). split; [now rewrite map_length, seq_length|]. split; [|reflexivity].
    intros j Hj. rewrite nth_map_seq by auto. apply PO.
Qed.
Print Assumptions C104_objective_crowding.
(** C104: crowding in the variable space: the mean of the contributions, between 0 and 2, no solution is preferred absolutely (unless there are at most two) *)
Theorem C104_variable_crowding : forall asort d X, stable_ok asort -> 0 < d ->
  let c := variable_crowding asort d X in
  length c = length X /\
  (length X <= 2 -> forall i, i < length X -> nth i c 0%Q = 10%Q) /\
  (3 <= length X -> forall i, i < length X -> mean_contrib var_contrib d X i (nth i c 0%Q) /\ (0 <= nth i c 0)%Q /\ (nth i c 0 <= 2)%Q).
Proof.
  intros asort d X HS Hm c. unfold c, variable_crowding. destruct (Nat.leb_spec (length X) 2) as [H2|H2].
  - split; [apply repeat_length|]. split; [|lia]. intros _ i Hi. rewrite nth_indep with (d' := 10%Q) by (now rewrite repeat_length); apply nth_repeat.
  - split; [now rewrite map_length, seq_length|]. split; [lia|]. intros _ i Hi. rewrite nth_map_seq by auto.
    assert (PO : forall j, var_contrib (col X j) i (var_part asort (colF j X) i) /\ (0 <= var_part asort (colF j X) i)%Q /\ (var_part asort (colF j X) i <= 2)%Q).
    { intros j. apply (var_part_ok asort (col X j) HS); rewrite len_col; auto; lia. }
    split; [|apply mean_bounds; auto; intros j _; apply PO]. exists (map (fun j => var_part asort (colF j X) i) (seq 0 d)). split; [now rewrite map_length, seq_length|]. split; [|reflexivity].
    intros j Hj. rewrite nth_map_seq by auto. apply PO.
Qed.
Print Assumptions C104_variable_crowding.
