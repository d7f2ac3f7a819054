(** * C97: R-NSGA-II, ranking by reference points, epsilon clearing, survival *)
From Coq Require Import List Arith Bool Lia Permutation Sorted.
From Verif Require Import Flt ListAux NpSort M_NDS M_Survival S_Pareto S_NDS S_Survival P_Peel P_Survival P_Survival2 P_Survival3 M_AGE Thm_AGE M_RNSGA.
Import ListNotations.
Local Open Scope nat_scope.

Definition isort_ok (isort : list nat -> list nat) : Prop := forall keys, is_argsort Nat.ltb 0 keys (isort keys).
Definition osort_ok (osort : list (option nat) -> list nat) : Prop := forall keys, is_argsort olt None keys (osort keys).

Lemma min_fold l : forall x, (In (fold_left Nat.min l x) (x :: l)) /\ forall y, In y (x :: l) -> fold_left Nat.min l x <= y.
Proof.
  induction l as [|z l IH]; intros x; cbn [fold_left].
  - split; [now left|]. intros y [<-|[]]. lia.
  - destruct (IH (Nat.min x z)) as [H1 H2]. split.
    + destruct H1 as [H1|H1]; [|right; right; exact H1]. rewrite <- H1. destruct (Nat.min_dec x z) as [-> | ->]; [now left|right; now left].
    + intros y [<-|[<-|Hy]]; [specialize (H2 (Nat.min x z) (or_introl eq_refl)); lia|specialize (H2 (Nat.min x z) (or_introl eq_refl)); lia|apply H2; now right].
Qed.
Lemma min_list_spec l : l <> [] -> In (min_list l) l /\ forall y, In y l -> min_list l <= y.
Proof. destruct l as [|x l]; [congruence|]. intros _. apply min_fold. Qed.
Lemma inf_not_less x : fltb f_inf x = false.
Proof. destruct x as [[]|[]| |[] m e]; reflexivity. Qed.

Section Ranking.
  Variables (asort : list flt -> list nat) (n_ref : nat) (dref : nat -> list flt).
  Hypotheses (Ha : asort_ok asort) (Hr : 0 < n_ref).
  (** distance of position p of the front to reference point j *)
  Definition to_ref (front : list nat) (j p : nat) : flt := nth j (dref (nth p front 0)) f_nan.
  Lemma column_spec front j : let c := rn_column asort dref front j in
    Permutation c (seq 0 (length front)) /\ forall p q, p < length front -> q < length front -> fltb (to_ref front j p) (to_ref front j q) = true -> nth p c 0 < nth q c 0.
  Proof.
    clear Hr. intros c. unfold c, rn_column, double_argsort. set (keys := map (fun i => nth j (dref i) f_nan) front). assert (LK : length keys = length front) by apply map_length. destruct (Ha keys) as [P1 P2]. rewrite LK in P1.
    assert (PL : forall p, p < length front -> place p (asort keys) < length front /\ nth (place p (asort keys)) (asort keys) 0 = p).
    { intros p Hp. destruct (place_nth (asort keys) p) as [H1 H2]; [apply (perm_seq_In _ _ p P1); lia|]. split; [|exact H2]. now rewrite (perm_seq_length _ _ P1) in H1. }
    assert (KN : forall p, p < length front -> nth p (map (fun i => place i (asort keys)) (seq 0 (length keys))) 0 = place p (asort keys)).
    { intros p Hp. rewrite (nth_indep _ 0 (place 0 (asort keys))) by (rewrite map_length, seq_length; lia). rewrite (map_nth (fun i => place i (asort keys)) (seq 0 (length keys)) 0 p), seq_nth by lia. reflexivity. }
    split.
    - rewrite LK. apply NoDup_Permutation_bis; [|rewrite seq_length, map_length, seq_length; lia|].
      + apply NoDup_map_inj; [|apply seq_NoDup]. intros x y Hx Hy E. apply in_seq in Hx. apply in_seq in Hy. destruct (PL x) as [_ X]; [lia|]. destruct (PL y) as [_ Y]; [lia|]. congruence.
      + intros x Hx. apply in_map_iff in Hx. destruct Hx as (p & <- & Hp). apply in_seq in Hp. apply in_seq. destruct (PL p); lia.
    - intros p q Hp Hq L. rewrite !KN by auto. destruct (PL p Hp) as [A1 A2]. destruct (PL q Hq) as [B1 B2].
      destruct (Nat.lt_trichotomy (place p (asort keys)) (place q (asort keys))) as [H|[H|H]]; [exact H| |].
      + exfalso. rewrite H in A2. assert (p = q) by congruence. subst q. unfold fltb in L. pose proof (flt_irrefl (to_ref front j p)). unfold fltb in *. congruence.
      + exfalso. specialize (P2 _ _ H ltac:(rewrite (perm_seq_length _ _ P1); exact A1)). rewrite A2, B2 in P2.
        assert (KK : forall t, t < length front -> nth t keys f_nan = to_ref front j t).
        { intros t Ht. unfold keys, to_ref. rewrite (nth_indep _ f_nan (nth j (dref 0) f_nan)) by (rewrite map_length; lia). exact (map_nth (fun i => nth j (dref i) f_nan) front 0 t). }
        rewrite !KK in P2 by auto. congruence.
  Qed.
  Lemma ranking_spec front p : p < length front -> let r := nth p (rn_ranking asort n_ref dref front) 0 in
    (exists j, j < n_ref /\ nth p (rn_column asort dref front j) 0 = r) /\ forall j, j < n_ref -> r <= nth p (rn_column asort dref front j) 0.
  Proof.
    intros Hp r. unfold r, rn_ranking. set (g := fun p => min_list (map (fun j => nth p (rn_column asort dref front j) 0) (seq 0 n_ref))).
    rewrite (nth_indep _ 0 (g 0)) by (rewrite map_length, seq_length; lia). rewrite map_nth, seq_nth by lia. cbn [Nat.add]. unfold g.
    set (l := map (fun j => nth p (rn_column asort dref front j) 0) (seq 0 n_ref)). destruct (min_list_spec l) as [H1 H2]; [unfold l; destruct n_ref; [lia|discriminate]|]. split.
    - apply in_map_iff in H1. destruct H1 as (j & E & Hj). apply in_seq in Hj. exists j. split; [lia|exact E].
    - intros j Hj. apply H2. apply in_map_iff. exists j. split; [reflexivity|apply in_seq; lia].
  Qed.
  Lemma ranking_length front : length (rn_ranking asort n_ref dref front) = length front.
  Proof. unfold rn_ranking. now rewrite map_length, seq_length. Qed.
End Ranking.

(** C97: the rank of a solution within its front: for some reference point at most that many members of the front are strictly closer; every reference point has a member of rank 0 than which nobody is
    closer; at most (k + 1) * n_ref members have a rank of at most k *)
Theorem C97_ranking : forall asort n_ref dref front, asort_ok asort -> 0 < n_ref -> let rk p := nth p (rn_ranking asort n_ref dref front) 0 in
  (forall p, p < length front -> rk p < length front /\ exists j, j < n_ref /\ forall Q, NoDup Q -> (forall q, In q Q -> q < length front /\ fltb (to_ref dref front j q) (to_ref dref front j p) = true) -> length Q <= rk p) /\
  (front <> [] -> forall j, j < n_ref -> exists p, p < length front /\ rk p = 0 /\ forall q, q < length front -> fltb (to_ref dref front j q) (to_ref dref front j p) = false) /\
  (forall k P, NoDup P -> (forall p, In p P -> p < length front /\ rk p <= k) -> length P <= S k * n_ref).
Proof.
  intros asort n_ref dref front Ha Hr rk. split; [|split].
  - intros p Hp. destruct (ranking_spec asort n_ref dref Hr front p Hp) as [(j & Hj & E) _]. fold (rk p) in E. destruct (column_spec asort dref Ha front j) as [C1 C2]. set (c := rn_column asort dref front j) in *.
    assert (Lc : length c = length front) by (rewrite (perm_seq_length _ _ C1); reflexivity). assert (NDc : NoDup c) by (eapply perm_seq_NoDup; eauto).
    assert (In (nth p c 0) (seq 0 (length front))) by (apply (Permutation_in _ C1), nth_In; lia). apply in_seq in H. split; [lia|].
    exists j. split; [exact Hj|]. intros Q NQ HQ. rewrite <- E.
    assert (NM : NoDup (map (fun q => nth q c 0) Q)). { apply NoDup_map_inj; [|exact NQ]. intros x y Hx Hy Exy. eapply (proj1 (NoDup_nth c 0) NDc); [| |exact Exy]; rewrite Lc; apply HQ; auto. }
    assert (IM : incl (map (fun q => nth q c 0) Q) (seq 0 (nth p c 0))). { intros x Hx. apply in_map_iff in Hx. destruct Hx as (q & <- & Hq). destruct (HQ q Hq) as [Q1 Q2]. apply in_seq. specialize (C2 q p Q1 Hp Q2). lia. }
    pose proof (NoDup_incl_length NM IM) as L. now rewrite map_length, seq_length in L.
  - intros Hne j Hj. destruct (column_spec asort dref Ha front j) as [C1 C2]. set (c := rn_column asort dref front j) in *. assert (Lc : length c = length front) by (rewrite (perm_seq_length _ _ C1); reflexivity).
    assert (L0 : 0 < length front) by (destruct front; [congruence|simpl; lia]). assert (H0 : In 0 c) by (apply (perm_seq_In _ _ 0 C1); lia). destruct (In_nth _ _ 0 H0) as (p & Hp & Ep). rewrite Lc in Hp.
    exists p. split; [exact Hp|]. split.
    + destruct (ranking_spec asort n_ref dref Hr front p Hp) as [_ H]. specialize (H j Hj). fold c in H. fold (rk p) in H. lia.
    + intros q Hq. apply not_true_iff_false. intros L. specialize (C2 q p Hq Hp L). lia.
  - intros k P NP HP.
    (* map every member to (reference point, column rank) *)
    assert (W : forall p, In p P -> exists c, In c (list_prod (seq 0 n_ref) (seq 0 (S k))) /\ nth p (rn_column asort dref front (fst c)) 0 = snd c).
    { intros p Hp. destruct (HP p Hp) as [P1 P2]. destruct (ranking_spec asort n_ref dref Hr front p P1) as [(j & Hj & E) _]. exists (j, rk p). split; [apply in_prod; apply in_seq; lia|exact E]. }
    assert (G : forall P, NoDup P -> (forall p, In p P -> p < length front) -> (forall p, In p P -> exists c, In c (list_prod (seq 0 n_ref) (seq 0 (S k))) /\ nth p (rn_column asort dref front (fst c)) 0 = snd c) ->
               exists L, length L = length P /\ NoDup L /\ incl L (list_prod (seq 0 n_ref) (seq 0 (S k))) /\ forall c, In c L -> exists p, In p P /\ nth p (rn_column asort dref front (fst c)) 0 = snd c).
    { clear - Ha. induction P as [|p P IH]; intros ND HB HW; [exists []; split; [reflexivity|]; split; [constructor|]; split; [intros x []|intros c []]|].
      inversion ND as [|? ? N1 N2]; subst. destruct IH as (L & L1 & L2 & L3 & L4); [exact N2|intros q Hq; apply HB; now right|intros q Hq; apply HW; now right|].
      destruct (HW p (or_introl eq_refl)) as (c & C1 & C2). exists (c :: L). split; [cbn; lia|]. split; [|split].
      - apply NoDup_cons; [|exact L2]. intros Hc. destruct (L4 c Hc) as (q & Q1 & Q2). destruct (column_spec asort dref Ha front (fst c)) as [P1 _]. assert (NDc : NoDup (rn_column asort dref front (fst c))) by (eapply perm_seq_NoDup; eauto).
        assert (p = q). { eapply (proj1 (NoDup_nth _ 0) NDc); [| |congruence]; rewrite (perm_seq_length _ _ P1); apply HB; [now left|now right]. } subst q. contradiction.
      - intros x [<-|Hx]; auto.
      - intros x [<-|Hx]; [exists p; split; [now left|exact C2]|]. destruct (L4 x Hx) as (q & Q1 & Q2). exists q. split; [now right|exact Q2]. }
    destruct (G P NP (fun p Hp => proj1 (HP p Hp)) W) as (L & L1 & L2 & L3 & _). pose proof (NoDup_incl_length L2 L3) as LL. rewrite prod_length, !seq_length in LL. lia.
Qed.

(** ** the clearing *)
Lemma fold_upd_nth {A} (g : nat -> A) d l : forall cr q, (forall x, In x l -> x < length cr) -> nth q (fold_left (fun c q => upd c q (g q)) l cr) d = if existsb (Nat.eqb q) l then g q else nth q cr d.
Proof.
  induction l as [|x l IH]; intros cr q HB; cbn [fold_left existsb]; [reflexivity|]. rewrite IH by (intros y Hy; rewrite length_upd; apply HB; now right).
  rewrite nth_upd. destruct (existsb (Nat.eqb q) l); [now rewrite orb_true_r|]. rewrite orb_false_r. destruct (Nat.eqb_spec q x) as [->|E]; [|reflexivity].
  replace (x <? length cr) with true by (symmetry; apply Nat.ltb_lt, HB; now left). reflexivity.
Qed.
Lemma fold_upd_length {A} (g : nat -> A) l : forall cr, length (fold_left (fun c q => upd c q (g q)) l cr) = length cr.
Proof. induction l as [|x l IH]; intros cr; cbn [fold_left]; [reflexivity|]. now rewrite IH, length_upd. Qed.
Lemma SSorted_filter {A} (R : A -> A -> Prop) f l : StronglySorted R l -> StronglySorted R (filter f l).
Proof.
  induction 1 as [|x l H1 IH H2]; cbn [filter]; [constructor|]. destruct (f x); [|exact IH]. constructor; [exact IH|]. apply Forall_forall. intros y Hy. apply filter_In in Hy. rewrite Forall_forall in H2. apply H2. tauto.
Qed.

Section Clearing.
  Variables (doth : nat -> nat -> flt) (eps : flt) (front : list nat) (ranking : list nat).
  Notation close p q := (fltb (rn_dist doth front p q) eps).
  Notation half := (round_half (length front)).
  Notation rk p := (nth p ranking 0).
  Lemma clear_spec : forall fuel ns cr, length ns <= fuel -> NoDup ns -> (forall q, In q ns -> q < length cr) -> StronglySorted (fun p q => rk p <= rk q) ns ->
    let c := rn_clear doth eps fuel front ranking ns cr in
    length c = length cr /\ exists kept, NoDup kept /\ incl kept ns /\ (ns <> [] -> In (hd 0 ns) kept) /\
      (forall q, ~ In q ns -> nth q c None = nth q cr None) /\
      (forall q, In q kept -> nth q c None = Some (rk q)) /\
      (forall q, In q ns -> ~ In q kept -> nth q c None = Some (rk q + half) /\ exists p, In p kept /\ close p q = true /\ rk p <= rk q) /\
      (forall p q, In p kept -> In q kept -> p <> q -> close p q = false \/ close q p = false).
  Proof.
    induction fuel as [|fuel IH]; intros ns cr HF ND HB HS c.
    - destruct ns; [|simpl in HF; lia]. split; [reflexivity|]. exists []. split; [constructor|]. split; [intros x []|]. split; [congruence|]. split; [auto|]. split; [intros q []|]. split; [intros q []|intros p q []].
    - destruct ns as [|idx ns0]. { split; [reflexivity|]. exists []. split; [constructor|]. split; [intros x []|]. split; [congruence|]. split; [auto|]. split; [intros q []|]. split; [intros q []|intros p q []]. }
      set (ns := idx :: ns0) in *. unfold c. cbn [rn_clear]. fold ns.
      change (rn_clear doth eps (S fuel) front ranking ns cr) with
        (let cr := upd cr idx (Some (rk idx)) in let group := filter (fun q => close idx q) ns in let cr := fold_left (fun c q => upd c q (Some (rk q + half))) group cr in
         rn_clear doth eps fuel front ranking (filter (fun q => negb ((q =? idx) || existsb (Nat.eqb q) group)) ns) cr).
      cbv zeta. set (cr1 := upd cr idx (Some (rk idx))). set (group := filter (fun q => close idx q) ns). set (cr2 := fold_left (fun c q => upd c q (Some (rk q + half))) group cr1). set (ns' := filter (fun q => negb ((q =? idx) || existsb (Nat.eqb q) group)) ns).
      assert (IG : forall q, In q group <-> In q ns /\ close idx q = true) by (intros q; unfold group; apply filter_In).
      assert (NI : ~ In idx group). { intros H. apply IG in H. destruct H as [_ H]. unfold rn_dist in H. rewrite Nat.eqb_refl, inf_not_less in H. discriminate. }
      assert (IN' : forall q, In q ns' <-> In q ns /\ q <> idx /\ ~ In q group).
      { intros q. unfold ns'. rewrite filter_In, negb_true_iff, orb_false_iff, Nat.eqb_neq. split; intros (H1 & H2 & H3); split; auto; split; auto; [intros K; apply existsb_In in K; congruence|apply not_true_iff_false; intros K; apply existsb_In in K; auto]. }
      assert (L1 : length cr1 = length cr) by apply length_upd. assert (L2 : length cr2 = length cr) by (unfold cr2; now rewrite fold_upd_length).
      assert (Hidx : In idx ns) by now left.
      assert (Ln' : length ns' <= fuel).
      { assert (length ns' < length ns); [|cbn [length] in *; lia]. assert (NDn : NoDup (idx :: ns')) by (apply NoDup_cons; [intros K; apply IN' in K; tauto|unfold ns'; now apply NoDup_filter]).
        assert (II : incl (idx :: ns') ns) by (intros x [<-|Hx]; [exact Hidx|apply IN' in Hx; tauto]). pose proof (NoDup_incl_length NDn II) as L. cbn [length] in L. lia. }
      destruct (IH ns' cr2 Ln') as [K0 (kept & K1 & K2 & _ & K3 & K4 & K5 & K6)]; [now apply NoDup_filter|intros q Hq; rewrite L2; apply HB; apply IN' in Hq; tauto|now apply SSorted_filter|].
      assert (N2 : forall q, q < length cr -> nth q cr2 None = if existsb (Nat.eqb q) group then Some (rk q + half) else nth q cr1 None).
      { intros q Hq. unfold cr2. apply (fold_upd_nth (fun q => Some (rk q + half))). intros x Hx. rewrite L1. apply HB. apply IG in Hx. tauto. }
      assert (HD : forall q, In q ns -> rk idx <= rk q). { intros q [<-|Hq]; [lia|]. inversion HS as [|? ? S1 S2]; subst. rewrite Forall_forall in S2. auto. }
      split; [etransitivity; [exact K0|exact L2]|]. exists (idx :: kept). split; [apply NoDup_cons; [intros K; apply K2, IN' in K; tauto|exact K1]|]. split; [intros x [<-|Hx]; [exact Hidx|apply K2, IN' in Hx; tauto]|]. split; [intros _; now left|].
      split; [|split; [|split]].
      + intros q Hq. rewrite K3 by (intros K; apply IN' in K; tauto). assert (q <> idx) by (intros ->; contradiction).
        unfold cr2. rewrite (fold_upd_nth (fun q => Some (rk q + half))) by (intros x Hx; rewrite L1; apply HB; apply IG in Hx; tauto).
        replace (existsb (Nat.eqb q) group) with false by (symmetry; apply not_true_iff_false; intros K; apply existsb_In, IG in K; tauto). unfold cr1. now apply nth_upd_neq.
      + intros q [<-|Hq]; [|now apply K4]. rewrite K3 by (intros K; apply IN' in K; tauto). rewrite N2 by (apply HB; exact Hidx).
        replace (existsb (Nat.eqb idx) group) with false by (symmetry; apply not_true_iff_false; intros K; apply existsb_In in K; contradiction). unfold cr1. apply nth_upd_eq. apply HB, Hidx.
      + intros q Hq Hnq. destruct (in_dec Nat.eq_dec q group) as [Hg|Hg].
        * split; [|exists idx; split; [now left|]; split; [apply IG in Hg; tauto|auto]]. rewrite K3 by (intros K; apply IN' in K; tauto). rewrite N2 by (apply HB; exact Hq).
          replace (existsb (Nat.eqb q) group) with true by (symmetry; now apply existsb_In). reflexivity.
        * assert (Hq' : In q ns') by (apply IN'; split; [exact Hq|split; [intros ->; apply Hnq; now left|exact Hg]]). destruct (K5 q Hq') as [V (p & P1 & P2 & P3)]; [intros K; apply Hnq; now right|]. split; [exact V|]. exists p. split; [now right|auto].
      + assert (CL : forall q, In q kept -> close idx q = false).
        { intros q Hq. apply K2, IN' in Hq. destruct Hq as (H1 & H2 & H3). apply not_true_iff_false. intros K. apply H3, IG. auto. }
        intros p q [<-|Hp] [<-|Hq] Hne; [congruence|left; auto|right; auto|auto].
  Qed.
End Clearing.
Lemma SSorted_nth (R : nat -> nat -> Prop) l : (forall p q, p < q -> q < length l -> R (nth p l 0) (nth q l 0)) -> StronglySorted R l.
Proof.
  induction l as [|x l IH]; intros H; constructor.
  - apply IH. intros p q Hpq Hq. apply (H (S p) (S q)); cbn [length]; lia.
  - apply Forall_forall. intros y Hy. destruct (In_nth _ _ 0 Hy) as (q & Hq & <-). apply (H 0 (S q)); cbn [length]; lia.
Qed.
(** C97: epsilon clearing in a front that is cut: some solutions are kept with their rank, pairwise not closer than epsilon; every other one is closer than epsilon to a kept one of no worse rank and is
    discouraged by half the size of the front; one of the kept is a closest solution to a reference point *)
Theorem C97_clearing : forall asort isort n_ref dref doth eps front, asort_ok asort -> isort_ok isort -> 0 < n_ref ->
  let rk p := nth p (rn_ranking asort n_ref dref front) 0 in let c := rn_crowding asort isort n_ref dref doth eps front in
  length c = length front /\ exists kept, NoDup kept /\ (forall p, In p kept -> p < length front /\ nth p c None = Some (rk p)) /\
    (forall q, q < length front -> ~ In q kept -> nth q c None = Some (rk q + round_half (length front)) /\
       exists p, In p kept /\ fltb (doth (nth p front 0) (nth q front 0)) eps = true /\ rk p <= rk q) /\
    (forall p q, In p kept -> In q kept -> p <> q -> fltb (doth (nth p front 0) (nth q front 0)) eps = false \/ fltb (doth (nth q front 0) (nth p front 0)) eps = false) /\
    (front <> [] -> exists p, In p kept /\ rk p = 0).
Proof.
  intros asort isort n_ref dref doth eps front Ha Hi Hr rk c. unfold c, rn_crowding. set (ranking := rn_ranking asort n_ref dref front). assert (LR : length ranking = length front) by (unfold ranking, rn_ranking; now rewrite map_length, seq_length).
  destruct (Hi ranking) as [P1 P2]. rewrite LR in P1.
  destruct (clear_spec doth eps front ranking (length front) (isort ranking) (repeat None (length front))) as [K0 (kept & K1 & K2 & K3 & K4 & K5 & K6 & K7)].
  - now rewrite (perm_seq_length _ _ P1).
  - eapply perm_seq_NoDup; eauto.
  - intros q Hq. rewrite repeat_length. now apply (perm_seq_In _ _ q P1).
  - apply SSorted_nth. intros p q Hpq Hq. specialize (P2 p q Hpq Hq). apply Nat.ltb_ge in P2. exact P2.
  - rewrite repeat_length in K0. split; [exact K0|]. exists kept. split; [exact K1|]. split; [|split; [|split]].
    + intros p Hp. split; [apply (perm_seq_In _ _ p P1); auto|now apply K5].
    + intros q Hq Hn. destruct (K6 q) as [V (p & V1 & V2 & V3)]; [apply (perm_seq_In _ _ q P1); exact Hq|exact Hn|]. split; [exact V|]. exists p. split; [exact V1|]. split; [|exact V3]. unfold rn_dist in V2. destruct (Nat.eqb_spec p q) as [->|_]; [contradiction|exact V2].
    + intros p q Hp Hq Hne. destruct (K7 p q Hp Hq Hne) as [V|V]; unfold rn_dist in V; [left; destruct (Nat.eqb_spec p q); [congruence|exact V]|right; destruct (Nat.eqb_spec q p); [congruence|exact V]].
    + intros Hne. assert (L0 : 0 < length front) by (destruct front; [congruence|simpl; lia]). assert (NE : isort ranking <> []) by (intros E; pose proof (perm_seq_length _ _ P1) as L; rewrite E in L; simpl in L; lia).
      exists (hd 0 (isort ranking)). split; [auto|]. destruct (C97_ranking asort n_ref dref front Ha Hr) as (_ & R2 & _). destruct (R2 Hne 0 Hr) as (p & Hp & Ep & _).
      assert (Hin : In p (isort ranking)) by (apply (perm_seq_In _ _ p P1); exact Hp). destruct (In_nth _ _ 0 Hin) as (t & Ht & Et).
      assert (E : hd 0 (isort ranking) = nth 0 (isort ranking) 0) by (destruct (isort ranking); reflexivity). rewrite E. destruct t as [|t]; [now rewrite Et|].
      specialize (P2 0 (S t) ltac:(lia) Ht). apply Nat.ltb_ge in P2. rewrite Et in P2. unfold rk in *. fold ranking in Ep |- *. lia.
Qed.

(** ** the survival *)
Section Surv.
  Variables (asort : list flt -> list nat) (isort : list nat -> list nat) (osort : list (option nat) -> list nat) (n_ref : nat) (dref : nat -> list flt) (doth : nat -> nat -> flt) (eps : flt).
  Hypotheses (Ha : asort_ok asort) (Hi : isort_ok isort) (Ho : osort_ok osort) (Hr : 0 < n_ref).
  Notation crowd_of := (rn_crowding asort isort n_ref dref doth eps).
  Notation stepf := (rn_front asort isort osort n_ref dref doth eps).
  Lemma crowd_length front : length (crowd_of front) = length front.
  Proof. apply (C97_clearing asort isort n_ref dref doth eps front Ha Hi Hr). Qed.
  Lemma step_surv n surv crowd front : fst (stepf n (surv, crowd) front) =
    surv ++ (if length front <=? n - length surv then front else gather 0 front (firstn (n - length surv) (osort (crowd_of front)))).
  Proof. unfold rn_front. destruct (length front <=? n - length surv); cbn [fst]; [now rewrite gather_seq|reflexivity]. Qed.
  Lemma fold_surv n : forall fronts surv crowd, length surv <= n ->
    exists X, fst (fold_left (stepf n) fronts (surv, crowd)) = surv ++ X /\
      ((length surv + length (concat fronts) <= n /\ X = concat fronts) \/
       (exists pre f post, fronts = pre ++ f :: post /\ length surv + length (concat pre) <= n < length surv + length (concat pre) + length f /\
          X = concat pre ++ gather 0 f (firstn (n - length surv - length (concat pre)) (osort (crowd_of f))))).
  Proof.
    induction fronts as [|f fronts IH]; intros surv crowd HL; cbn [fold_left].
    - exists []. split; [cbn [fst]; now rewrite app_nil_r|]. left. cbn. split; [lia|reflexivity].
    - assert (ES : exists s c, stepf n (surv, crowd) f = (s, c)) by (destruct (stepf n (surv, crowd) f); eauto). destruct ES as (s & c & ES). pose proof (step_surv n surv crowd f) as E1. rewrite ES in *. cbn [fst] in E1.
      destruct (Nat.leb_spec (length f) (n - length surv)) as [H|H].
      + destruct (IH s c) as (X & EX & HX); [rewrite E1, app_length; lia|]. exists (f ++ X). split; [rewrite EX, E1; now rewrite app_assoc|].
        rewrite E1, app_length in HX. destruct HX as [[X1 X2]|(pre & g & post & X1 & X2 & X3)].
        * left. cbn [concat]. rewrite app_length. split; [lia|]. now rewrite X2.
        * right. exists (f :: pre), g, post. split; [now rewrite X1|]. cbn [concat]. rewrite app_length. split; [lia|]. rewrite X3, <- app_assoc. f_equal. f_equal. f_equal. f_equal. lia.
      + set (t := firstn (n - length surv) (osort (crowd_of f))) in *. assert (Lt : length t = n - length surv).
        { unfold t. rewrite firstn_length. destruct (Ho (crowd_of f)) as [P _]. rewrite (perm_seq_length _ _ P), crowd_length. lia. }
        assert (Ls : length s = n) by (rewrite E1, app_length, length_gather, Lt; lia).
        destruct (IH s c) as (X & EX & HX); [lia|].
        assert (X0 : X = []).
        { destruct HX as [[X1 X2]|(pre & g & post & X1 & X2 & X3)]; [rewrite X2; apply length_zero_iff_nil; lia|].
          rewrite X3. apply length_zero_iff_nil. rewrite app_length, length_gather, firstn_length. lia. }
        exists (gather 0 f t). split; [rewrite EX, X0, app_nil_r; exact E1|]. right. exists [], f, fronts. split; [reflexivity|]. cbn [concat length]. split; [lia|]. unfold t. cbn [app]. f_equal. f_equal. lia.
  Qed.
  (** the crowding values: every front writes its own *)
  Lemma write_nth (c : list (option nat)) front : NoDup front -> forall cr, (forall x, In x front -> x < length cr) -> forall start,
    let r := fold_left (fun r pi => upd r (snd pi) (nth (fst pi) c None)) (combine (seq start (length front)) front) cr in
    length r = length cr /\ (forall p, p < length front -> nth (nth p front 0) r None = nth (start + p) c None) /\ forall x, ~ In x front -> nth x r None = nth x cr None.
  Proof.
    clear. induction front as [|y front IH]; intros ND cr HB start; cbn [length seq combine fold_left].
    - split; [reflexivity|]. split; [lia|auto].
    - inversion ND as [|? ? N1 N2]; subst. destruct (IH N2 (upd cr y (nth start c None))) with (start := S start) as (A1 & A2 & A3); [intros x Hx; rewrite length_upd; apply HB; now right|]. cbn [fst snd].
      rewrite length_upd in A1. split; [exact A1|]. split.
      + intros [|p] Hp; cbn [nth].
        * rewrite A3 by exact N1. rewrite Nat.add_0_r. apply nth_upd_eq, HB. now left.
        * rewrite A2 by lia. f_equal. lia.
      + intros x Hx. rewrite A3 by (intros K; apply Hx; now right). apply nth_upd_neq. intros ->. apply Hx. now left.
  Qed.
  Definition values_of (n before : nat) (f : list nat) : list (option nat) := if length f <=? n - before then map Some (rn_ranking asort n_ref dref f) else crowd_of f.
  Lemma step_crowd n surv crowd f : snd (stepf n (surv, crowd) f) = fold_left (fun r pi => upd r (snd pi) (nth (fst pi) (values_of n (length surv) f) None)) (combine (seq 0 (length f)) f) crowd.
  Proof. unfold rn_front, values_of. destruct (length f <=? n - length surv); reflexivity. Qed.
  Lemma fold_crowd n : forall fronts surv crowd, length surv <= n -> NoDup (concat fronts) -> (forall x, In x (concat fronts) -> x < length crowd) ->
    let r := snd (fold_left (stepf n) fronts (surv, crowd)) in
    length r = length crowd /\ (forall x, ~ In x (concat fronts) -> nth x r None = nth x crowd None) /\
    forall pre f post p, fronts = pre ++ f :: post -> p < length f -> nth (nth p f 0) r None = nth p (values_of n (Nat.min n (length surv + length (concat pre))) f) None.
  Proof.
    induction fronts as [|f fronts IH]; intros surv crowd HL ND HB; cbn [fold_left].
    - split; [reflexivity|]. split; [reflexivity|]. intros [|? pre] g post p E; discriminate.
    - assert (ES : exists s c, stepf n (surv, crowd) f = (s, c)) by (destruct (stepf n (surv, crowd) f); eauto). destruct ES as (s & c & ES). pose proof (step_surv n surv crowd f) as E1. pose proof (step_crowd n surv crowd f) as E2. rewrite ES in *. cbn [fst snd] in E1, E2.
      cbn [concat] in *. apply NoDup_app_iff in ND. destruct ND as (N1 & N2 & N3).
      destruct (write_nth (values_of n (length surv) f) f N1 crowd (fun x Hx => HB x (in_or_app _ _ _ (or_introl Hx))) 0) as (W1 & W2 & W3). cbv zeta in W1, W2, W3. rewrite <- E2 in W1, W2, W3.
      assert (Ls : length s = Nat.min n (length surv + length f)).
      { rewrite E1, app_length. destruct (Nat.leb_spec (length f) (n - length surv)); [lia|]. rewrite length_gather, firstn_length. destruct (Ho (crowd_of f)) as [P _]. rewrite (perm_seq_length _ _ P), crowd_length. lia. }
      destruct (IH s c) as (A1 & A2 & A3); [lia|exact N2|intros x Hx; rewrite W1; apply HB, in_or_app; now right|]. cbv zeta in A1, A2, A3.
      split; [etransitivity; [exact A1|exact W1]|]. split.
      + intros x Hx. rewrite A2 by (intros K; apply Hx, in_or_app; now right). apply W3. intros K. apply Hx, in_or_app. now left.
      + intros pre g post p E Hp. destruct pre as [|f' pre].
        * cbn [app] in E. injection E as <- <-. cbn [concat length]. rewrite Nat.add_0_r, Nat.min_r by lia. rewrite A2 by (intros K; apply (N3 (nth p f 0)); [now apply nth_In|exact K]). now rewrite W2 by exact Hp.
        * cbn [app] in E. injection E as <- E. rewrite (A3 pre g post p E Hp). cbn [concat]. rewrite app_length, Ls. f_equal. f_equal. lia.
  Qed.
End Surv.
