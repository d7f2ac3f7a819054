(** * C102: the R-metric *)
From Coq Require Import List Arith Bool ZArith QArith Qabs Lia Lqa.
From Verif Require Import ListAux M_Termination P_Termination M_Norm Thm_Norm M_RefDirs2 Thm_RefDirs2 M_RMetric.
Import ListNotations.
Local Open Scope nat_scope.

(** ** specification *)
Notation at_ x j := (nth j x 0%Q).
(** Pareto dominance of objective vectors with [m] entries *)
Definition pareto_better (m : nat) (a b : list Q) : Prop := (forall j, j < m -> (at_ a j <= at_ b j)%Q) /\ exists j, j < m /\ (at_ a j < at_ b j)%Q.
Definition undominated (m : nat) (others : option (list (list Q))) (x : list Q) : Prop := forall l o, others = Some l -> In o l -> ~ pareto_better m o x.
Definition sq_dist (m : nat) (a b : list Q) : Q := fold_right Qplus 0%Q (map (fun j => (at_ a j - at_ b j) * (at_ a j - at_ b j))%Q (seq 0 m)).
(** reference point [i] is the nearest one to [x], the first of the nearest *)
Definition nearest (m : nat) (refs : list (list Q)) (x : list Q) (i : nat) : Prop :=
  i < length refs /\ (forall k, k < length refs -> (sq_dist m x (nth i refs []) <= sq_dist m x (nth k refs []))%Q) /\
  (forall k, k < i -> (sq_dist m x (nth i refs []) < sq_dist m x (nth k refs []))%Q).
(** the achievement scalarisation of [x] towards [ref] in direction (w, ..., w): the largest (x_j - ref_j) / 2w *)
Definition asf (m : nat) (w : Q) (ref x : list Q) (v : Q) : Prop :=
  (exists j, j < m /\ (v == (at_ x j - at_ ref j) / (2 * w))%Q) /\ forall j, j < m -> ((at_ x j - at_ ref j) / (2 * w) <= v)%Q.
(** the representative of a region of points: a member of least scalarisation *)
Definition represents (m : nat) (w : Q) (ref : list Q) (P : list Q -> Prop) (z : list Q) : Prop :=
  P z /\ forall x vx vz, P x -> asf m w ref z vz -> asf m w ref x vx -> (vz <= vx)%Q.
Definition close_to (m : nat) (range : Q) (x z : list Q) : Prop := forall j, j < m -> (Qabs (at_ x j - at_ z j) < range / 2)%Q.
(** [y] is [x] moved by the vector that takes [z] onto the line through [ref] in direction (w, ..., w), to the point with the same scalarisation *)
Definition moved (m : nat) (w : Q) (ref z x y : list Q) : Prop :=
  length y = m /\ forall v, asf m w ref z v -> forall j, j < m -> (at_ y j == at_ x j + (at_ ref j + v * (2 * w) - at_ z j))%Q.

(** ** lemmas *)
Lemma Qltb_false a b : Qle_bool a b = false <-> (b < a)%Q.
Proof. split; intros H; [apply Qnot_le_lt; intros C; apply Qle_bool_iff in C; congruence|]. destruct (Qle_bool a b) eqn:E; auto. apply Qle_bool_iff in E. lra. Qed.
Lemma cd_flags a b l f1 f2 : fold_left (fun '(f1, f2) i => if negb (Qle_bool (at_ b i) (at_ a i)) then (true, f2)
     else if negb (Qle_bool (at_ a i) (at_ b i)) then (f1, true) else (f1, f2)) l (f1, f2) =
  (f1 || existsb (fun i => negb (Qle_bool (at_ b i) (at_ a i))) l, f2 || existsb (fun i => negb (Qle_bool (at_ a i) (at_ b i))) l).
Proof.
  revert f1 f2. induction l as [|i l IH]; intros f1 f2; cbn [fold_left existsb]; [now rewrite !orb_false_r|].
  destruct (Qle_bool (at_ b i) (at_ a i)) eqn:E1; cbn [negb]; [destruct (Qle_bool (at_ a i) (at_ b i)) eqn:E2; cbn [negb]|]; rewrite IH; cbn [orb]; rewrite ?orb_true_r, ?orb_true_l; auto.
  assert (E2 : Qle_bool (at_ a i) (at_ b i) = true) by (apply Qle_bool_iff; apply Qltb_false in E1; lra). now rewrite E2.
Qed.
Lemma cd_spec m a b : (check_dominance a b m = (-1)%Z <-> pareto_better m b a) /\ (check_dominance a b m = 1%Z <-> pareto_better m a b).
Proof.
  unfold check_dominance. rewrite cd_flags. cbn [orb].
  assert (E : forall u v, existsb (fun i => negb (Qle_bool (at_ u i) (at_ v i))) (seq 0 m) = true <-> exists j, j < m /\ (at_ v j < at_ u j)%Q).
  { intros u v. rewrite existsb_exists. split; intros (j & J1 & J2); exists j; [rewrite in_seq in J1|rewrite in_seq]; (split; [lia|]); [apply Qltb_false; now destruct (Qle_bool (at_ u j) (at_ v j))|]. apply Qltb_false in J2. now rewrite J2. }
  assert (N : forall u v, existsb (fun i => negb (Qle_bool (at_ u i) (at_ v i))) (seq 0 m) = false -> forall j, j < m -> (at_ u j <= at_ v j)%Q).
  { intros u v H j Hj. apply Qnot_lt_le. intros C. assert (T : existsb (fun i => negb (Qle_bool (at_ u i) (at_ v i))) (seq 0 m) = true) by (apply E; eauto). congruence. }
  assert (PB : forall u v, pareto_better m u v <-> existsb (fun i => negb (Qle_bool (at_ v i) (at_ u i))) (seq 0 m) = true /\ existsb (fun i => negb (Qle_bool (at_ u i) (at_ v i))) (seq 0 m) = false).
  { intros u v. rewrite E. split; intros [H1 H2].
    - split; [exact H2|]. destruct (existsb _ (seq 0 m)) eqn:T; auto. apply E in T. destruct T as (j & J1 & J2). specialize (H1 j J1). lra.
    - split; [apply (N _ _ H2)|exact H1]. }
  rewrite !PB. destruct (existsb (fun i => negb (Qle_bool (at_ b i) (at_ a i))) (seq 0 m)); destruct (existsb (fun i => negb (Qle_bool (at_ a i) (at_ b i))) (seq 0 m)); cbn [andb negb];
    (split; split; [intros H|intros [H1 H2]|intros H|intros [H1 H2]]; try discriminate; auto).
Qed.
Lemma rm_filter_In m F others x : In x (rm_filter m F others) <-> In x F /\ undominated m others x.
Proof.
  unfold rm_filter, undominated. destruct others as [l|]; [|split; [intros H; split; [auto|discriminate]|tauto]].
  rewrite filter_In. split; intros [H1 H2]; (split; [auto|]).
  - intros l' o [= <-] Ho C. apply (proj1 (cd_spec m x o)) in C. rewrite negb_true_iff in H2. assert (T : existsb (fun o => (check_dominance x o m =? -1)%Z) l = true); [|congruence]. apply existsb_exists. exists o. split; auto. now rewrite C.
  - rewrite negb_true_iff. destruct (existsb _ l) eqn:E; auto. apply existsb_exists in E. destruct E as (o & O1 & O2). exfalso. apply (H2 l o eq_refl O1), (proj1 (cd_spec m x o)). now apply Z.eqb_eq.
Qed.
Lemma argminQ_first l : l <> [] -> forall k, k < argminQ l -> (nth (argminQ l) l 0 < nth k l 0)%Q.
Proof.
  assert (G : forall l best bi i full, (forall q, q < length l -> nth (i + q) full 0%Q = nth q l 0%Q) -> bi < i -> nth bi full 0%Q = best ->
     (forall k, k < bi -> (best < nth k full 0)%Q) -> (forall k, k < i -> (best <= nth k full 0)%Q) ->
     forall k, k < argminQ_from best bi i l -> (nth (argminQ_from best bi i l) full 0 < nth k full 0)%Q).
  { clear l. induction l as [|x l IH]; intros best bi i full HF Hb HB H1 H2; cbn [argminQ_from]; [rewrite HB; auto|].
    pose proof (HF 0 ltac:(cbn; lia)) as HX. rewrite Nat.add_0_r in HX. cbn [nth] in HX.
    assert (HF' : forall q, q < length l -> nth (S i + q) full 0%Q = nth q l 0%Q) by (intros q Hq; pose proof (HF (S q) ltac:(cbn; lia)) as K; cbn [nth] in K; rewrite <- K; f_equal; lia).
    destruct (Qle_bool best x) eqn:E.
    - apply Qle_bool_iff in E. apply IH; auto. intros k Hk. destruct (Nat.eq_dec k i) as [->|]; [now rewrite HX|apply H2; lia].
    - apply Qltb_false in E. apply IH; auto.
      + intros k Hk. specialize (H2 k Hk). lra.
      + intros k Hk. destruct (Nat.eq_dec k i) as [->|]; [rewrite HX; lra|specialize (H2 k ltac:(lia)); lra]. }
  destruct l as [|x l]; [congruence|]. intros _. unfold argminQ. apply G; auto; [lia|].
  intros k Hk. replace k with 0 by lia. cbn. lra.
Qed.
Lemma map2_seq {A B C} (f : A -> B -> C) a b m da db : length a = m -> length b = m -> map2 f a b = map (fun j => f (nth j a da) (nth j b db)) (seq 0 m).
Proof.
  intros <-. revert b. induction a as [|x a IH]; intros [|y b] H; cbn in H; try discriminate; [reflexivity|]. cbn [map2 length seq map nth]. f_equal.
  rewrite <- seq_shift, map_map. cbn [nth]. apply IH. lia.
Qed.
Lemma dist2_spec m a b : length a = m -> length b = m -> dist2 a b = sq_dist m a b.
Proof. intros Ha Hb. unfold dist2, sq_dist. now rewrite (map2_seq _ a b m 0%Q 0%Q Ha Hb). Qed.
Lemma label_nearest m refs x i : refs <> [] -> (forall r, In r refs -> length r = m) -> length x = m -> label refs x = i <-> nearest m refs x i.
Proof.
  intros Hne HR HX. set (l := map (dist2 x) refs). assert (HL : length l = length refs) by apply map_length. assert (Hl : l <> []) by (destruct refs; [congruence|discriminate]).
  assert (NT : forall k, k < length refs -> nth k l 0%Q = sq_dist m x (nth k refs [])).
  { intros k Hk. unfold l. rewrite (nth_indep _ 0%Q (dist2 x [])) by (rewrite map_length; lia). rewrite (map_nth (dist2 x)). apply dist2_spec; auto. apply HR, nth_In; auto. }
  destruct (argminQ_spec l Hl) as [A1 A2]. rewrite Forall_forall in A2. pose proof (argminQ_first l Hl) as A3. unfold label. fold l. rewrite HL in A1.
  assert (N : nearest m refs x (argminQ l)).
  { split; [auto|]. split; intros k Hk; rewrite <- !NT by lia; auto. apply A2, nth_In. lia. }
  split; [intros <-; exact N|]. intros (I1 & I2 & I3). destruct N as (N1 & N2 & N3).
  destruct (lt_eq_lt_dec (argminQ l) i) as [[H|H]|H]; auto; exfalso.
  - specialize (I3 _ H). specialize (N2 _ I1). lra.
  - specialize (N3 _ H). specialize (I2 _ N1). lra.
Qed.
Lemma amax_spec l : l <> [] -> In (amax l) l /\ forall x, In x l -> (x <= amax l)%Q.
Proof.
  destruct l as [|x l]; [congruence|]. intros _. cbn [amax]. split.
  - revert x. induction l as [|y l IH]; intros x; cbn [py_max]; [now left|].
    destruct (IH (if Qle_bool y x then x else y)) as [H|H]; [|right; right; exact H]. destruct (Qle_bool y x); rewrite <- H; simpl; auto.
  - revert x. induction l as [|y l IH]; intros x z Hz; cbn [py_max]; [destruct Hz as [->|[]]; lra|].
    destruct (Qle_bool y x) eqn:E.
    + apply Qle_bool_iff in E. destruct Hz as [->|[->|Hz]]; [apply IH; now left| |apply IH; now right]. eapply Qle_trans; [exact E|apply IH; now left].
    + apply Qltb_false in E. destruct Hz as [->|Hz]; [|apply IH; exact Hz]. eapply Qle_trans; [|apply IH; now left]. lra.
Qed.
Lemma w_of_nz w : ~ (w_of w == 0)%Q.
Proof. unfold w_of. destruct w as [w|]; [|discriminate]. destruct (Qeq_bool w 0) eqn:E; [discriminate|]. intros C. apply Qeq_bool_iff in C. congruence. Qed.
Lemma w_point_len w ref : length (w_point w ref) = length ref. Proof. apply map_length. Qed.
Lemma w_point_nth w ref j : j < length ref -> nth j (w_point w ref) 0%Q = (at_ ref j + 2 * w_of w)%Q.
Proof.
  intros Hj. unfold w_point. rewrite (nth_indep _ 0%Q ((fun r => (r + 2 * w_of w)%Q) 0%Q)) by (rewrite map_length; lia). now rewrite (map_nth (fun r => (r + 2 * w_of w)%Q)).
Qed.
Lemma ratios_nth m w ref x j : length ref = m -> length x = m -> j < m ->
  (nth j (ratios x ref (w_point w ref)) 0 == (at_ x j - at_ ref j) / (2 * w_of w))%Q /\ length (ratios x ref (w_point w ref)) = m.
Proof.
  intros Hr Hx Hj. unfold ratios. split; [|rewrite !length_map2, w_point_len; lia].
  rewrite (nth_map2 _ _ _ _ _ 0%Q 0%Q) by (rewrite ?length_map2, ?w_point_len; lia).
  rewrite !(nth_map2 _ _ _ _ _ 0%Q 0%Q) by (rewrite ?length_map2, ?w_point_len; lia).
  rewrite w_point_nth by lia.
  pose proof (w_of_nz w). field. repeat split; lra.
Qed.
Lemma asf_amax m w ref x : 0 < m -> length ref = m -> length x = m -> asf m (w_of w) ref x (amax (ratios x ref (w_point w ref))).
Proof.
  intros Hm Hr Hx. set (l := ratios x ref (w_point w ref)). assert (HL : length l = m) by (apply (ratios_nth m w ref x 0); auto).
  destruct (amax_spec l) as [A1 A2]; [intros C; rewrite C in HL; simpl in HL; lia|]. split.
  - apply (In_nth _ _ 0%Q) in A1. destruct A1 as (j & J1 & J2). exists j. split; [lia|]. rewrite <- J2. apply (ratios_nth m); auto. lia.
  - intros j Hj. destruct (ratios_nth m w ref x j Hr Hx Hj) as [R _]. rewrite <- R. apply A2, nth_In. fold l. lia.
Qed.
Lemma asf_unique m w ref x v v' : asf m w ref x v -> asf m w ref x v' -> (v == v')%Q.
Proof. intros [(j & J1 & J2) A] [(k & K1 & K2) B]. specialize (A k K1). specialize (B j J1). lra. Qed.
Lemma preprocess_spec m w ref data : 0 < m -> length ref = m -> (forall x, In x data -> length x = m) -> data <> [] ->
  represents m (w_of w) ref (fun x => In x data) (preprocess data ref (w_point w ref)).
Proof.
  intros Hm Hr HD Hne. unfold preprocess. set (l := map (fun x => amax (ratios x ref (w_point w ref))) data).
  assert (Hl : l <> []) by (destruct data; [congruence|discriminate]). assert (HL : length l = length data) by apply map_length.
  destruct (argminQ_spec l Hl) as [A1 A2]. rewrite Forall_forall in A2. rewrite HL in A1. set (z := nth (argminQ l) data []).
  assert (Hz : In z data) by (apply nth_In; auto). split; [exact Hz|]. intros x vx vz Hx Hvz Hvx.
  pose proof (asf_unique _ _ _ _ _ _ Hvz (asf_amax m w ref z Hm Hr (HD z Hz))) as E1.
  pose proof (asf_unique _ _ _ _ _ _ Hvx (asf_amax m w ref x Hm Hr (HD x Hx))) as E2. rewrite E1, E2.
  assert (NT : nth (argminQ l) l 0%Q = amax (ratios z ref (w_point w ref))).
  { unfold l. rewrite (nth_indep _ 0%Q (amax (ratios [] ref (w_point w ref)))) by (fold l; lia). now rewrite (map_nth (fun x => amax (ratios x ref (w_point w ref)))). }
  rewrite <- NT. apply A2. unfold l. apply in_map_iff. exists x. auto.
Qed.
Lemma trim_spec m data z range x : (forall x, In x data -> length x = m) -> length z = m -> In x (trim data z range) <-> In x data /\ close_to m range x z.
Proof.
  intros HD Hz. unfold trim, close_to. rewrite filter_In. split; intros [H1 H2]; (split; [exact H1|]).
  - intros j Hj. rewrite forallb_forall in H2. apply Qltb_false. rewrite <- negb_true_iff. specialize (H2 (at_ x j - at_ z j)%Q). apply H2.
    rewrite (map2_seq _ x z m 0%Q 0%Q) by auto. apply in_map_iff. exists j. split; auto. apply in_seq. lia.
  - apply forallb_forall. intros d Hd. rewrite (map2_seq _ x z m 0%Q 0%Q) in Hd by auto. apply in_map_iff in Hd. destruct Hd as (j & <- & J). apply in_seq in J.
    apply negb_true_iff, Qltb_false, H2. lia.
Qed.
Lemma shift_spec m w ref z x : 0 < m -> length ref = m -> length z = m -> length x = m -> moved m (w_of w) ref z x (map2 Qplus x (shift_of z ref (w_point w ref))).
Proof.
  intros Hm Hr Hz Hx. unfold shift_of. set (l := ratios z ref (w_point w ref)). assert (HL : length l = m) by (apply (ratios_nth m w ref z 0); auto).
  destruct (argmaxQ_spec l) as (k & K1 & K2 & K3); [intros C; rewrite C in HL; simpl in HL; lia|]. rewrite K1. rewrite Forall_forall in K3.
  split; [rewrite !length_map2, w_point_len; lia|]. intros v Hv j Hj.
  assert (EV : (v == nth k l 0)%Q).
  { apply (asf_unique m (w_of w) ref z); [exact Hv|]. split.
    - exists k. split; [lia|]. apply (ratios_nth m); auto. lia.
    - intros i Hi. destruct (ratios_nth m w ref z i Hr Hz Hi) as [R _]. rewrite <- R. apply K3, nth_In. fold l. lia. }
  rewrite (nth_map2 _ _ _ _ _ 0%Q 0%Q) by (rewrite ?length_map2, ?w_point_len; lia).
  rewrite (nth_map2 Qminus _ _ _ _ 0%Q 0%Q) by (rewrite ?length_map2, ?w_point_len; lia).
  rewrite (nth_map2 _ _ _ _ _ 0%Q 0%Q) by (rewrite ?length_map2, ?w_point_len; lia).
  rewrite (nth_map2 Qminus _ _ _ _ 0%Q 0%Q) by (rewrite ?length_map2, ?w_point_len; lia).
  rewrite w_point_nth by lia. rewrite EV. ring.
Qed.
