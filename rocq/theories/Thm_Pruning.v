(** * C100: pruning crowding metrics - the pruning loop *)
From Coq Require Import List Arith Bool ZArith QArith Lia Lqa Permutation Sorted.
From Verif Require Import ListAux M_Individual M_Survival M_RefDirs2 M_Bounds P_Bounds M_Crowding S_Crowding Thm_Decomp Thm_Crowding M_Pruning.
Import ListNotations.
Local Open Scope nat_scope.

(** ** specification *)
Definition xle (a b : xq) : Prop := xleb a b = true.
(** the points of [0, N) not among [R] *)
Definition without (R : list nat) (N : nat) : list nat := filter (fun i => negb (existsb (Nat.eqb i) R)) (seq 0 N).
(** [d] are the values after dropping one point after the other: [value S i] is the crowding of point i among the points S.  R are the dropped points in order: each had, when dropped, the least value
    of the remaining points, keeps that value, and no point still there at that moment ends up with a smaller one; the points never dropped have their value among the points never dropped *)
Definition pruned_values (value : list nat -> nat -> xq -> Prop) (N rounds : nat) (d : list xq) (R : list nat) : Prop :=
  length d = N /\ length R = rounds /\ NoDup R /\ (forall r, In r R -> r < N) /\
  (forall t, t < rounds -> let S := without (firstn t R) N in let r := nth t R 0 in
     In r S /\ value S r (nth r d PInf) /\ (forall i x, In i S -> value S i x -> xle (nth r d PInf) x) /\ (forall i, In i S -> xle (nth r d PInf) (nth i d PInf))) /\
  (forall h, In h (without R N) -> value (without R N) h (nth h d PInf)).

(** ** order *)
Lemma xle_refl a : xle a a. Proof. destruct a; unfold xle; cbn; [apply Qle_bool_iff; lra|reflexivity]. Qed.
Lemma xle_trans a b c : xle a b -> xle b c -> xle a c.
Proof. unfold xle. destruct a, b, c; cbn; try discriminate; auto. rewrite !Qle_bool_iff. lra. Qed.
Lemma xle_total a b : xle a b \/ xle b a.
Proof. unfold xle. destruct a as [a|], b as [b|]; cbn; auto. rewrite !Qle_bool_iff. destruct (Qlt_le_dec a b); [left|right]; lra. Qed.
Lemma xle_pinf a : xle a PInf. Proof. destruct a; reflexivity. Qed.
Lemma xleb_false a b : xleb a b = false -> xle b a.
Proof. intros H. destruct (xle_total a b) as [K|K]; [unfold xle in K; congruence|exact K]. Qed.
Lemma xargmin_from_spec l : forall best bv k all, nth best all PInf = bv -> best < k -> (forall i, i < k -> xle bv (nth i all PInf)) -> (forall i, i < length l -> nth (k + i) all PInf = nth i l PInf) ->
  let r := xargmin_from best bv k l in r < k + length l /\ forall i, i < k + length l -> xle (nth r all PInf) (nth i all PInf).
Proof.
  induction l as [|x l IH]; intros best bv k all E HB HM HL; cbn [xargmin_from length].
  - split; [lia|]. intros i Hi. rewrite E. apply HM. lia.
  - assert (Ex : nth k all PInf = x) by (specialize (HL 0 ltac:(cbn; lia)); rewrite Nat.add_0_r in HL; exact HL).
    assert (HL' : forall i, i < length l -> nth (S k + i) all PInf = nth i l PInf) by (intros i Hi; specialize (HL (S i) ltac:(cbn; lia)); cbn [nth] in HL; rewrite <- HL; f_equal; lia).
    destruct (xleb bv x) eqn:EB.
    + destruct (IH best bv (S k) all E ltac:(lia)) as [H1 H2]; auto. { intros i Hi. destruct (Nat.eq_dec i k) as [-> |]; [rewrite Ex; exact EB|apply HM; lia]. }
      split; [lia|]. intros i Hi. apply H2. lia.
    + apply xleb_false in EB. destruct (IH k x (S k) all Ex ltac:(lia)) as [H1 H2]; auto. { intros i Hi. destruct (Nat.eq_dec i k) as [-> |]; [rewrite Ex; apply xle_refl|eapply xle_trans; [exact EB|apply HM; lia]]. }
      split; [lia|]. intros i Hi. apply H2. lia.
Qed.
Lemma xargmin_spec l : l <> [] -> xargmin l < length l /\ forall i, i < length l -> xle (nth (xargmin l) l PInf) (nth i l PInf).
Proof.
  destruct l as [|x l]; [congruence|]. intros _. apply (xargmin_from_spec l 0 x 1 (x :: l)); auto.
  - intros i Hi. replace i with 0 by lia. apply xle_refl.
Qed.

(** ** the loop *)
Lemma existsb_In i l : existsb (Nat.eqb i) l = true <-> In i l.
Proof. rewrite existsb_exists. split; [intros (x & Hx & E); apply Nat.eqb_eq in E; now subst|intros H; exists i; split; [exact H|apply Nat.eqb_refl]]. Qed.
Lemma In_without R N i : In i (without R N) <-> i < N /\ ~ In i R.
Proof. unfold without. rewrite filter_In, in_seq, negb_true_iff, <- not_true_iff_false, existsb_In. intuition lia. Qed.
Lemma fold_upd_const {A} (g : nat -> A) d l : forall cr q, (forall x, In x l -> x < length cr) -> nth q (fold_left (fun c i => upd c i (g i)) l cr) d = if existsb (Nat.eqb q) l then g q else nth q cr d.
Proof.
  induction l as [|x l IH]; intros cr q HB; cbn [fold_left existsb]; [reflexivity|]. rewrite IH by (intros y Hy; rewrite length_upd; apply HB; now right).
  rewrite nth_upd. destruct (existsb (Nat.eqb q) l); [now rewrite orb_true_r|]. rewrite orb_false_r. destruct (Nat.eqb_spec q x) as [-> |E]; [|reflexivity].
  replace (x <? length cr) with true by (symmetry; apply Nat.ltb_lt, HB; now left). reflexivity.
Qed.
Lemma fold_upd_len {A} (g : nat -> A) l : forall cr, length (fold_left (fun c i => upd c i (g i)) l cr) = length cr.
Proof. induction l as [|x l IH]; intros cr; cbn [fold_left]; [reflexivity|]. now rewrite IH, length_upd. Qed.
Lemma write_spec ext H score d : (forall i, In i ext -> i < length d) -> (forall i, In i H -> i < length d) ->
  length (write ext H score d) = length d /\ forall i, nth i (write ext H score d) PInf = if existsb (Nat.eqb i) ext then PInf else if existsb (Nat.eqb i) H then score i else nth i d PInf.
Proof.
  intros HE HH. unfold write. split; [rewrite (fold_upd_len (fun _ => PInf)), (fold_upd_len score); reflexivity|].
  intros i. rewrite (fold_upd_const (fun _ => PInf)) by (intros x Hx; rewrite (fold_upd_len score); auto). rewrite (fold_upd_const score) by auto. reflexivity.
Qed.
Lemma filter_filter {A} (p q : A -> bool) l : filter p (filter q l) = filter (fun x => p x && q x) l.
Proof. induction l as [|x l IH]; [reflexivity|]. cbn. destruct (q x); cbn; rewrite ?andb_true_r, ?andb_false_r, IH; reflexivity. Qed.

Section Loop.
  Variables (score : list nat -> nat -> xq) (ext : list nat) (N : nat).
  Hypothesis Hext : forall i, In i ext -> i < N.
  Definition val (S : list nat) (i : nat) : xq := if existsb (Nat.eqb i) ext then PInf else score S i.
  Definition rest (R H : list nat) : list nat := filter (fun i => negb (existsb (Nat.eqb i) R)) H.
  (** the crowding of a remaining point does not decrease when another point is dropped *)
  Hypothesis Hmono : forall R k i, In i (rest (k :: R) (seq 0 N)) -> xle (score (rest R (seq 0 N)) i) (score (rest (k :: R) (seq 0 N)) i).
  Lemma val_mono R k i : In i (rest (k :: R) (seq 0 N)) -> xle (val (rest R (seq 0 N)) i) (val (rest (k :: R) (seq 0 N)) i).
  Proof. unfold val. intros H. destruct (existsb (Nat.eqb i) ext); [apply xle_refl|]. now apply Hmono. Qed.
  Lemma rest_ext R R' H : (forall i, In i H -> In i R <-> In i R') -> rest R H = rest R' H.
  Proof.
    intros HE. apply filter_ext_in. intros i Hi. f_equal. apply eq_true_iff_eq. rewrite !existsb_In. now apply HE.
  Qed.
  Lemma rest_cons k R H : filter (fun i => negb (i =? k)) (rest R H) = rest (k :: R) H.
  Proof. unfold rest. rewrite filter_filter. apply filter_ext. intros i. cbn [existsb]. now rewrite negb_orb. Qed.

  Lemma prune_spec fuel : forall Rd H d0, H = rest Rd (seq 0 N) -> fuel < length H \/ fuel = 0 -> length d0 = N -> (forall h, In h H -> nth h d0 PInf = val H h) -> (forall i, In i ext -> nth i d0 PInf = PInf) ->
    let d := prune score ext fuel H d0 in
    length d = N /\ (forall i, ~ In i H -> nth i d PInf = nth i d0 PInf) /\ (forall i, In i ext -> nth i d PInf = PInf) /\ (forall i, In i H -> xle (val H i) (nth i d PInf)) /\
    exists R, length R = fuel /\ NoDup R /\ incl R H /\
      (forall t, t < fuel -> let SV := rest (firstn t R) H in let r := nth t R 0 in In r SV /\ nth r d PInf = val SV r /\ (forall i, In i SV -> xle (nth r d PInf) (val SV i)) /\ (forall i, In i SV -> xle (nth r d PInf) (nth i d PInf))) /\
      (forall h, In h (rest R H) -> nth h d PInf = val (rest R H) h).
  Proof.
    induction fuel as [|fuel IH]; intros Rd H d0 EH HF L0 HV HX d.
    - cbn [prune] in d. subst d. repeat split; auto. + intros i Hi. rewrite HV by exact Hi. apply xle_refl.
      + exists []. split; [reflexivity|]. split; [constructor|]. split; [intros x []|]. split; [lia|]. intros h Hh. assert (E : rest [] H = H) by (unfold rest; cbn [existsb negb]; clear; induction H; cbn; congruence). rewrite E in *. auto.
    - destruct HF as [HF|HF]; [|discriminate]. assert (HN : H <> []) by (destruct H; [cbn in HF; lia|discriminate]).
      cbn [prune] in d. set (k := nth (xargmin (map (fun i => nth i d0 PInf) H)) H 0) in d. set (H1 := filter (fun i => negb (i =? k)) H) in d. set (d1 := write ext H1 (score H1) d0) in d.
      assert (EH1 : H1 = rest (k :: Rd) (seq 0 N)) by (unfold H1; rewrite EH; apply rest_cons).
      assert (HB : forall i, In i H -> i < N) by (intros i Hi; rewrite EH in Hi; apply filter_In in Hi as [Hi _]; apply in_seq in Hi; lia).
      assert (ND : NoDup H) by (rewrite EH; apply NoDup_filter, seq_NoDup).
      destruct (xargmin_spec (map (fun i => nth i d0 PInf) H)) as [A1 A2]; [intros E; apply HN; destruct H; [reflexivity|discriminate]|]. rewrite map_length in A1, A2.
      assert (Hk : In k H) by (apply nth_In; exact A1).
      assert (KN : forall p, p < length H -> nth p (map (fun i => nth i d0 PInf) H) PInf = nth (nth p H 0) d0 PInf). { intros p Hp. rewrite (nth_indep _ PInf (nth 0 d0 PInf)) by (rewrite map_length; lia). apply (map_nth (fun i => nth i d0 PInf)). }
      assert (AM : forall i, In i H -> xle (nth k d0 PInf) (nth i d0 PInf)). { intros i Hi. destruct (In_nth _ _ 0 Hi) as (p & Hp & Ep). specialize (A2 p Hp). rewrite !KN in A2 by auto. now rewrite Ep in A2. }
      assert (I1 : forall i, In i H1 <-> In i H /\ i <> k). { intros i. unfold H1. rewrite filter_In, negb_true_iff, Nat.eqb_neq. tauto. }
      destruct (write_spec ext H1 (score H1) d0) as [W1 W2]; [intros i Hi; rewrite L0; auto|intros i Hi; rewrite L0; apply HB, I1, Hi|]. fold d1 in W1, W2.
      assert (LH1 : S (length H1) = length H).
      { assert (P : Permutation (k :: H1) H). { apply NoDup_Permutation; auto. - apply NoDup_cons; [intros K; apply I1 in K; destruct K as [_ K]; now apply K|apply NoDup_filter, ND]. - intros x. cbn [In]. rewrite I1. split; [intros [<- |[K _]]; [exact Hk|exact K]|]. intros K. destruct (Nat.eq_dec x k) as [E|E]; [left; congruence|right; split; auto]. }
        now apply Permutation_length in P. }
      destruct (IH (k :: Rd) H1 d1) as (J1 & J2 & J3 & J4 & R & R1 & R2 & R3 & R4 & R5).
      + exact EH1.
      + lia.
      + lia.
      + intros h Hh. rewrite W2. unfold val. destruct (existsb (Nat.eqb h) ext); [reflexivity|]. apply existsb_In in Hh. now rewrite Hh.
      + intros i Hi. rewrite W2. apply existsb_In in Hi. now rewrite Hi.
      + fold d in J1, J2, J3, J4, R4, R5.
        assert (MONO : forall i, In i H1 -> xle (val H i) (val H1 i)) by (intros i Hi; rewrite EH1 in Hi |- *; rewrite EH; now apply val_mono).
        assert (D0 : forall i, ~ In i H1 -> nth i d PInf = nth i d0 PInf). { intros i Hi. rewrite J2 by exact Hi. rewrite W2. destruct (existsb (Nat.eqb i) ext) eqn:EE; [symmetry; apply HX; now apply existsb_In|]. destruct (existsb (Nat.eqb i) H1) eqn:E1; [exfalso; apply Hi; now apply existsb_In|reflexivity]. }
        assert (NK : ~ In k H1) by (intros K; apply I1 in K; tauto).
        assert (DK : nth k d PInf = val H k) by (rewrite D0 by exact NK; auto).
        assert (LE : forall i, In i H -> xle (val H i) (nth i d PInf)). { intros i Hi. destruct (Nat.eq_dec i k) as [-> |Hne]; [rewrite DK; apply xle_refl|]. assert (Hi1 : In i H1) by (apply I1; auto). eapply xle_trans; [apply MONO|apply J4]; exact Hi1. }
        assert (RC : forall Q, rest (k :: Q) H = rest Q H1). { intros Q. unfold rest, H1. rewrite filter_filter. apply filter_ext. intros i. cbn [existsb]. rewrite negb_orb. apply andb_comm. }
        split; [exact J1|]. split. { intros i Hi. apply D0. intros K. apply I1 in K. tauto. } split; [exact J3|]. split; [exact LE|].
        exists (k :: R). split; [cbn; lia|]. split; [constructor; [intros K; apply R3 in K; tauto|exact R2]|]. split; [intros x [<- |Hx]; [exact Hk|apply R3, I1 in Hx; tauto]|]. split.
        * intros [|t] Ht; cbn [firstn nth].
          -- assert (E : rest [] H = H) by (unfold rest; cbn [existsb negb]; clear; induction H; cbn; congruence). rewrite E. split; [exact Hk|]. split; [exact DK|]. split.
             ++ intros i Hi. rewrite DK, <- (HV k Hk), <- (HV i Hi). auto.
             ++ intros i Hi. eapply xle_trans; [|apply LE; exact Hi]. rewrite DK, <- (HV k Hk), <- (HV i Hi). auto.
          -- rewrite RC. apply R4. lia.
        * rewrite RC. exact R5.
  Qed.

  Lemma pruned_spec fuel : fuel < N \/ fuel = 0 -> exists R, pruned_values (fun S i x => x = val S i) N fuel (pruned score ext N fuel) R.
  Proof.
    intros HF. unfold pruned. assert (E0 : rest [] (seq 0 N) = seq 0 N) by (unfold rest; cbn [existsb negb]; generalize (seq 0 N); clear; induction l; cbn; congruence).
    destruct (write_spec ext (seq 0 N) (score (seq 0 N)) (repeat PInf N)) as [W1 W2]; [intros i Hi; rewrite repeat_length; auto|intros i Hi; rewrite repeat_length; apply in_seq in Hi; lia|]. rewrite repeat_length in W1.
    destruct (prune_spec fuel [] (seq 0 N) (write ext (seq 0 N) (score (seq 0 N)) (repeat PInf N))) as (P1 & _ & _ & _ & R & R1 & R2 & R3 & R4 & R5); auto.
    - rewrite seq_length. exact HF.
    - intros h Hh. rewrite W2. unfold val. destruct (existsb (Nat.eqb h) ext); [reflexivity|]. apply existsb_In in Hh. now rewrite Hh.
    - intros i Hi. rewrite W2. apply existsb_In in Hi. now rewrite Hi.
    - exists R. split; [exact P1|]. split; [exact R1|]. split; [exact R2|]. split; [intros r Hr; apply R3, in_seq in Hr; lia|]. split.
      + intros t Ht. destruct (R4 t Ht) as (T1 & T2 & T3 & T4). split; [exact T1|]. split; [exact T2|]. split; [intros i x Hi ->; now apply T3|exact T4].
      + exact R5.
  Qed.
End Loop.

(** values of the same points under an equivalent description *)
Lemma pruned_values_impl (v v' : list nat -> nat -> xq -> Prop) N k d R : (forall Q i x, In i (without Q N) -> k <= N -> length (without Q N) >= N - k -> v (without Q N) i x -> v' (without Q N) i x) ->
  (forall Q i x, In i (without Q N) -> length (without Q N) >= N - k -> v' (without Q N) i x -> exists y, v (without Q N) i y /\ xle y x) -> k <= N ->
  pruned_values v N k d R -> pruned_values v' N k d R.
Proof.
  intros H1 H2 HN (P1 & P2 & P3 & P4 & P5 & P6).
  assert (LW : forall t, t <= k -> length (without (firstn t R) N) >= N - k).
  { intros t Ht. assert (P : Permutation (firstn t R ++ without (firstn t R) N) (seq 0 N)).
    { assert (Hin : forall x, In x (firstn t R) -> In x R) by (intros x Hx; rewrite <- (firstn_skipn t R); apply in_app_iff; now left).
      assert (NF : NoDup (firstn t R)) by (rewrite <- (firstn_skipn t R) in P3; now apply NoDup_app_iff in P3).
      apply NoDup_Permutation; [apply NoDup_app_iff; split; [exact NF|]; split; [apply NoDup_filter, seq_NoDup|intros x X1 X2; apply In_without in X2; tauto]|apply seq_NoDup|].
      intros x. rewrite in_app_iff, In_without, in_seq. split; [intros [H|H]; [specialize (P4 x (Hin x H)); lia|lia]|]. intros H. destruct (in_dec Nat.eq_dec x (firstn t R)); [now left|right; split; [lia|auto]]. }
    apply Permutation_length in P. rewrite app_length, seq_length, firstn_length in P. lia. }
  split; [exact P1|]. split; [exact P2|]. split; [exact P3|]. split; [exact P4|]. split.
  - intros t Ht. destruct (P5 t Ht) as (T1 & T2 & T3 & T4). split; [exact T1|]. assert (L := LW t ltac:(lia)). split; [apply H1; auto|]. split; [|exact T4].
    intros i x Hi Hx. destruct (H2 _ _ _ Hi L Hx) as (y & Hy & Hxy). eapply xle_trans; [apply (T3 i y Hi Hy)|exact Hxy].
  - intros h Hh. apply H1; auto. rewrite <- (firstn_all R). rewrite P2. apply LW. lia.
Qed.

(** C100: what selecting by these values does (rank-and-crowding survival keeps the points of largest value, C11).  Drop t points or more, each with a value no larger than those of the kept ones: then one of the
    first t dropped in the pruning is kept only if it ties with a dropped point that was not among them *)
Theorem C100_selection : forall value N rounds d R keep drop t, pruned_values value N rounds d R -> Permutation (keep ++ drop) (seq 0 N) -> (forall a b, In a keep -> In b drop -> xle (nth b d PInf) (nth a d PInf)) ->
  t <= rounds -> t <= length drop -> forall r, In r (firstn t R) -> In r keep ->
  exists h, In h drop /\ ~ In h (firstn t R) /\ xle (nth h d PInf) (nth r d PInf) /\ xle (nth r d PInf) (nth h d PInf).
Proof.
  intros value N rounds d R keep drop t (P1 & P2 & P3 & P4 & P5 & P6) HP HK Ht Hd r Hr Hkr.
  assert (ND : NoDup (keep ++ drop)) by (eapply Permutation_NoDup; [symmetry; exact HP|apply seq_NoDup]). apply NoDup_app_iff in ND as (N1 & N2 & N3).
  destruct (Forall_Exists_dec (fun h => In h (firstn t R)) (fun h => in_dec Nat.eq_dec h (firstn t R)) drop) as [HA|HE].
  - exfalso. rewrite Forall_forall in HA. assert (L : length (r :: drop) <= length (firstn t R)). { apply NoDup_incl_length; [constructor; [intros K; apply (N3 r); auto|exact N2]|]. intros x [<- |Hx]; auto. }
    cbn [length] in L. rewrite firstn_length in L. lia.
  - apply Exists_exists in HE as (h & Hh & Nh). exists h. split; [exact Hh|]. split; [exact Nh|]. split; [apply HK; auto|].
    destruct (In_nth _ _ 0 Hr) as (s & Hs & Es). rewrite firstn_length in Hs. assert (Er : nth s R 0 = r) by (rewrite <- Es; rewrite <- (firstn_skipn t R) at 1; rewrite app_nth1 by (rewrite firstn_length; lia); reflexivity).
    destruct (P5 s ltac:(lia)) as (_ & _ & _ & T4). rewrite Er in T4. apply T4. apply In_without. split; [assert (In h (seq 0 N)) by (eapply Permutation_in; [exact HP|apply in_app_iff; auto]); apply in_seq in H; lia|].
    intros K. apply Nh. replace (firstn s R) with (firstn s (firstn t R)) in K by (rewrite firstn_firstn; f_equal; lia). rewrite <- (firstn_skipn s (firstn t R)). apply in_app_iff. now left.
Qed.
