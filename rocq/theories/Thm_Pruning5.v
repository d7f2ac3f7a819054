(** * C100: a constant objective; extreme points; the wrapper; examples *)
From Coq Require Import List Arith Bool ZArith QArith Lia Lqa Permutation Sorted.
From Verif Require Import ListAux M_Individual M_Survival M_RefDirs2 M_Bounds P_Bounds M_Crowding S_Crowding Thm_Decomp Thm_Crowding M_Pruning Thm_Pruning Thm_Pruning2 Thm_Pruning3 Thm_Pruning4.
Import ListNotations.
Local Open Scope nat_scope.

Lemma sorted_unique_o (s s' : list (option xq)) : (forall x, In x s -> x = Some (Fin 0) \/ x = Some PInf \/ x = None) -> Permutation s s' -> StronglySorted ole s -> StronglySorted ole s' -> s = s'.
Proof.
  revert s'. induction s as [|a s IH]; intros s' HV HP H1 H2; [apply Permutation_nil in HP; now subst|]. destruct s' as [|b s']; [apply Permutation_sym, Permutation_nil in HP; discriminate|].
  apply StronglySorted_inv in H1 as [H1 F1]. apply StronglySorted_inv in H2 as [H2 F2]. rewrite Forall_forall in F1, F2.
  assert (Ha : In a (b :: s')) by (eapply Permutation_in; [exact HP|now left]). assert (Hb : In b (a :: s)) by (eapply Permutation_in; [symmetry; exact HP|now left]).
  assert (E : a = b). { destruct Ha as [|Ha]; [auto|]. destruct Hb as [|Hb]; [auto|]. assert (L1 := F2 a Ha). assert (L2 := F1 b Hb). pose proof (HV a ltac:(now left)) as Va. pose proof (HV b ltac:(now right)) as Vb.
    destruct Va as [-> |[-> | ->]], Vb as [-> |[-> | ->]]; auto; cbn in L1, L2; unfold xle in *; cbn in *; try discriminate; contradiction. }
  subst b. f_equal. apply IH; auto; [intros x Hx; apply HV; now right|]. now apply Permutation_cons_inv in HP.
Qed.
Lemma omul_none x : omul x None = None. Proof. destruct x as [[|]|]; reflexivity. Qed.
Lemma oprod_none l : In None l -> oprod l = None.
Proof. unfold oprod. induction l as [|x l IH]; intros H; [destruct H|]. cbn [fold_right]. destruct H as [-> |H]; [reflexivity|]. rewrite IH by exact H. apply omul_none. Qed.
Lemma oprod_inf n : oprod (repeat (Some PInf) (S n)) = Some PInf.
Proof. induction n as [|n IH]; [reflexivity|]. change (omul (Some PInf) (oprod (repeat (Some PInf) (S n))) = Some PInf). now rewrite IH. Qed.
Lemma first_nan_spec l : existsb is_nan l = true -> first_nan l < length l /\ nth (first_nan l) l (Some PInf) = None /\ forall i, i < first_nan l -> nth i l None <> None.
Proof.
  induction l as [|x l IH]; intros H; [discriminate|]. cbn [existsb first_nan] in *. destruct x as [x|]; cbn [is_nan orb] in *.
  - destruct (IH H) as (I1 & I2 & I3). split; [cbn; lia|]. split; [exact I2|]. intros [|i] Hi; cbn [nth]; [discriminate|]. apply I3. lia.
  - split; [cbn; lia|]. split; [reflexivity|lia].
Qed.

Lemma ss_nodup l : StronglySorted lt l -> NoDup l.
Proof. induction 1 as [|x l HS IH HF]; constructor; auto. intros K. rewrite Forall_forall in HF. specialize (HF x K). lia. Qed.
Lemma ss_filter p l : StronglySorted lt l -> StronglySorted lt (filter p l).
Proof. induction 1 as [|x l HS IH HF]; cbn; [constructor|]. destruct (p x); [|exact IH]. constructor; [exact IH|]. apply Forall_forall. intros y Hy. apply filter_In in Hy as [Hy _]. rewrite Forall_forall in HF. auto. Qed.
Lemma filter_none {A} (p : A -> bool) l : (forall x, In x l -> p x = false) -> filter p l = [].
Proof. induction l as [|x l IH]; intros H; [reflexivity|]. cbn. rewrite (H x) by now left. apply IH. intros y Hy. apply H. now right. Qed.
Section Constant.
  Variables (nsort : list (option xq) -> list (option xq)) (m nb : nat) (F : list (list Q)).
  Hypotheses (HO : nsort_ok nsort) (HC : has_constant m F = true) (Hnb : 1 <= nb) (HN : nb < length F).
  Notation N := (length F).
  Lemma const_score H i : NoDup H -> In i H -> (forall j, In j H -> j < N) -> mnn_score nsort m nb F H i = if nb <=? N - length H then Some PInf else None.
  Proof.
    intros ND Hi HB. unfold mnn_score. set (t := N - length H).
    assert (LHN : length H <= N) by (rewrite <- (seq_length N 0); apply NoDup_incl_length; [exact ND|]; intros x Hx; apply in_seq; specialize (HB x Hx); lia).
    assert (L1 : 1 <= length H) by (destruct H; [destruct Hi|cbn; lia]).
    set (l0 := Some (Fin 0) :: repeat (Some PInf) t ++ repeat None (length H - 1)).
    assert (P : Permutation (odist_row m F H i) l0).
    { set (O := filter (fun j => negb (j =? i)) H). set (C := filter (fun j => negb (existsb (Nat.eqb j) H)) (seq 0 N)).
      assert (PH : Permutation (i :: O) H). { apply NoDup_Permutation; auto. - apply NoDup_cons; [intros K; apply filter_In in K as [_ K]; rewrite Nat.eqb_refl in K; discriminate|apply NoDup_filter, ND].
        - intros x. cbn [In]. unfold O. rewrite filter_In, negb_true_iff, Nat.eqb_neq. split; [intros [<- |[K _]]; auto|]. intros K. destruct (Nat.eq_dec i x); [now left|right; split; auto]. }
      assert (PS : Permutation (i :: C ++ O) (seq 0 N)).
      { rewrite Permutation_app_comm. rewrite app_comm_cons, PH. apply NoDup_Permutation; [|apply seq_NoDup|].
        - apply NoDup_app_iff. split; [exact ND|]. split; [apply NoDup_filter, seq_NoDup|]. intros x X1 X2. apply filter_In in X2 as [_ X2]. apply existsb_In in X1. rewrite X1 in X2. discriminate.
        - intros x. unfold C. rewrite in_app_iff, filter_In, in_seq. split; [intros [K|[K _]]; [specialize (HB x K)|]; lia|]. intros Hx. destruct (existsb (Nat.eqb x) H) eqn:E; [left; now apply existsb_In|right; split; [lia|reflexivity]]. }
      assert (LO : length O = length H - 1) by (apply Permutation_length in PH; cbn in PH; lia). assert (LC : length C = t) by (apply Permutation_length in PS; rewrite seq_length in PS; cbn in PS; rewrite app_length in PS; unfold t; lia).
      unfold odist_row. rewrite <- PS. cbn [map]. rewrite map_app. unfold l0. assert (E1 := Hi). apply existsb_In in E1. rewrite E1. unfold odist at 1. rewrite HC, Nat.eqb_refl. apply perm_skip.
      assert (MC : forall (g : nat -> option xq) v l, (forall j, In j l -> g j = v) -> map g l = repeat v (length l)) by (clear; induction l as [|x l IH]; intros K; [reflexivity|]; cbn; rewrite (K x) by (now left); f_equal; apply IH; intros j Hj; apply K; now right).
      rewrite (MC _ (Some PInf) C), (MC _ None O), LO, LC; [reflexivity| |].
      - intros j Hj. apply filter_In in Hj as [Hj1 Hj2]. apply existsb_In in Hj1. rewrite Hj1. unfold odist. rewrite HC. apply negb_true_iff, Nat.eqb_neq in Hj2. replace (i =? j) with false; [reflexivity|]. symmetry. apply Nat.eqb_neq. auto.
      - intros j Hj. apply filter_In in Hj as [_ Hj]. apply negb_true_iff in Hj. now rewrite Hj. }
    destruct (HO (odist_row m F H i)) as [P2 S2]. assert (VAL : forall x, In x l0 -> x = Some (Fin 0) \/ x = Some PInf \/ x = None). { intros x [<- |Hx]; [auto|]. apply in_app_iff in Hx as [Hx|Hx]; apply repeat_spec in Hx; auto. }
    assert (S0 : StronglySorted ole l0).
    { unfold l0. assert (SN : forall n, StronglySorted ole (repeat None n)) by (induction n; cbn; constructor; auto; apply Forall_forall; intros x Hx; apply repeat_spec in Hx as ->; exact Logic.I).
      constructor; [|apply Forall_forall; intros x Hx; apply in_app_iff in Hx as [Hx|Hx]; apply repeat_spec in Hx as ->; cbn; auto; reflexivity].
      clear - SN. induction t as [|t' IH]; [apply SN|]. cbn. constructor; [exact IH|]. apply Forall_forall. intros x Hx. apply in_app_iff in Hx as [Hx|Hx]; apply repeat_spec in Hx as ->; cbn; auto. reflexivity. }
    replace (nsort (odist_row m F H i)) with l0 by (apply sorted_unique_o; auto; rewrite P2; now symmetry). unfold l0. cbn [skipn].
    destruct (Nat.leb_spec nb t) as [L|L].
    - rewrite firstn_app. replace (nb - length (repeat (Some PInf) t)) with 0 by (rewrite repeat_length; lia). rewrite firstn_O, app_nil_r. replace (firstn nb (repeat (Some PInf) t)) with (repeat (Some PInf) nb).
      + destruct nb as [|n]; [lia|]. apply oprod_inf.
      + replace t with (nb + (t - nb)) by lia. rewrite repeat_app, firstn_app, repeat_length, Nat.sub_diag, firstn_O, app_nil_r. rewrite <- (repeat_length (Some PInf) nb) at 2. now rewrite firstn_all.
    - apply oprod_none. rewrite firstn_app, repeat_length. apply in_app_iff. right. assert (NZ : exists a, nb - t = S a) by (exists (nb - t - 1); lia). assert (NH : exists b, length H - 1 = S b) by (exists (length H - 2); lia).
      destruct NZ as (a & ->), NH as (b & ->). cbn. now left.
  Qed.
  Lemma owrite_nth ext H s d i : (forall i, In i ext -> i < length d) -> (forall i, In i H -> i < length d) ->
    length (owrite ext H s d) = length d /\ nth i (owrite ext H s d) None = if existsb (Nat.eqb i) ext then Some PInf else if existsb (Nat.eqb i) H then s i else nth i d None.
  Proof.
    clear. intros HE HH. unfold owrite. split; [rewrite (fold_upd_len (fun _ => Some PInf)), (fold_upd_len s); reflexivity|].
    rewrite (fold_upd_const (fun _ => Some PInf)) by (intros x Hx; rewrite (fold_upd_len s); auto). rewrite (fold_upd_const s) by auto. reflexivity.
  Qed.
  Variable (ext : list nat).
  Hypothesis Hext : forall i, In i ext -> i < N.
  Definition cnt (H : list nat) (i : nat) : nat := length (filter (fun j => negb (existsb (Nat.eqb j) ext) && (j <? i)) H).
  Lemma const_prune fuel : forall H d, StronglySorted lt H -> (forall j, In j H -> j < N) -> length d = N -> fuel < length H \/ fuel = 0 -> (forall i, In i ext -> nth i d None = Some PInf) ->
    (forall i, In i H -> ~ In i ext -> nth i d None = if nb <=? N - length H then Some PInf else None) ->
    let e := oprune (mnn_score nsort m nb F) ext fuel H d in
    length e = N /\ (forall i, ~ In i H -> nth i e None = nth i d None) /\ (forall i, In i ext -> nth i e None = Some PInf) /\
    forall i, In i H -> ~ In i ext -> nth i e None = if (nb <=? N - length H) || ((nb <=? N - length H + fuel) && (nb <=? N - length H + cnt H i)) then Some PInf else None.
  Proof.
    induction fuel as [|fuel IH]; intros H d HS HB LD HL HX HV e.
    - cbn [oprune] in e. subst e. repeat split; auto. intros i Hi Ne. rewrite (HV i Hi Ne). rewrite Nat.add_0_r. destruct (nb <=? N - length H); reflexivity.
    - destruct HL as [HL|HL]; [|discriminate]. cbn [oprune] in e. set (row := map (fun i => nth i d None) H) in *. set (k := nth (oargmin row) H 0) in e. set (H1 := filter (fun i => negb (i =? k)) H) in e.
      assert (ND : NoDup H) by apply ss_nodup, HS.
      assert (RN : forall p, p < length H -> nth p row None = nth (nth p H 0) d None). { intros p Hp. unfold row. rewrite (nth_indep _ None (nth 0 d None)) by (rewrite map_length; lia). apply (map_nth (fun i => nth i d None)). }
      assert (LR : length row = length H) by apply map_length.
      assert (AR : oargmin row < length H /\ ((exists i, In i H /\ nth i d None = None) -> nth k d None = None /\ forall j, In j H -> j < k -> nth j d None <> None)).
      { unfold k, oargmin. destruct (existsb is_nan row) eqn:EN.
        - destruct (first_nan_spec row EN) as (A1 & A2 & A3). rewrite LR in A1. split; [exact A1|]. intros _. split.
          + rewrite <- RN by exact A1. rewrite (nth_indep _ None (Some PInf)) by lia. exact A2.
          + intros j Hj Lj. destruct (In_nth _ _ 0 Hj) as (p & Hp & Ep). assert (p < first_nan row). { destruct (lt_eq_lt_dec p (first_nan row)) as [[L|L]|L]; [exact L|subst p; lia|]. pose proof (StronglySorted_nth lt H 0 (first_nan row) p HS L Hp). lia. }
            rewrite <- Ep, <- RN by exact Hp. now apply A3.
        - destruct (xargmin_spec (map unsome row)) as [A1 _]; [intros E; apply map_eq_nil in E; rewrite E in LR; cbn in LR; lia|]. rewrite map_length, LR in A1. split; [exact A1|]. intros (i & Hi & Ei). exfalso. apply not_true_iff_false in EN. apply EN. apply existsb_exists.
          exists None. split; [|reflexivity]. unfold row. apply in_map_iff. eauto. }
      destruct AR as [A1 A2]. assert (Hk : In k H) by now apply nth_In.
      assert (I1 : forall i, In i H1 <-> In i H /\ i <> k) by (intros i; unfold H1; rewrite filter_In, negb_true_iff, Nat.eqb_neq; tauto).
      assert (SS1 : StronglySorted lt H1) by (unfold H1; apply ss_filter, HS).
      assert (ND1 : NoDup H1) by apply NoDup_filter, ND.
      assert (LH1 : S (length H1) = length H). { assert (P : Permutation (k :: H1) H). { apply NoDup_Permutation; auto. - apply NoDup_cons; [intros K; apply I1 in K; destruct K as [_ K]; now apply K|exact ND1]. - intros x. cbn [In]. rewrite I1. split; [intros [<- |[K _]]; [exact Hk|exact K]|]. intros K. destruct (Nat.eq_dec x k) as [E|E]; [left; congruence|right; split; auto]. }
        now apply Permutation_length in P. }
      assert (LHN : length H <= N) by (rewrite <- (seq_length N 0); apply NoDup_incl_length; [exact ND|]; intros x Hx; apply in_seq; specialize (HB x Hx); lia).
      assert (HB1 : forall j, In j H1 -> j < N) by (intros j Hj; apply HB, I1, Hj). set (d1 := owrite ext H1 (mnn_score nsort m nb F H1) d) in e.
      assert (W : forall i, length d1 = N /\ nth i d1 None = if existsb (Nat.eqb i) ext then Some PInf else if existsb (Nat.eqb i) H1 then mnn_score nsort m nb F H1 i else nth i d None).
      { intros i. destruct (owrite_nth ext H1 (mnn_score nsort m nb F H1) d i) as [W1 W2]; [intros x Hx; rewrite LD; auto|intros x Hx; rewrite LD; auto|]. split; [unfold d1; lia|exact W2]. }
      assert (NE : forall i, ~ In i ext -> existsb (Nat.eqb i) ext = false) by (intros i Hi; apply not_true_iff_false; intros K; apply Hi; now apply existsb_In).
      destruct (IH H1 d1) as (J1 & J2 & J3 & J4); auto.
      + apply (W 0).
      + lia.
      + intros i Hi. rewrite (proj2 (W i)). apply existsb_In in Hi. now rewrite Hi.
      + intros i Hi Hn. rewrite (proj2 (W i)), (NE i Hn). pose proof Hi as Hi2. apply existsb_In in Hi. rewrite Hi. now apply const_score.
      + fold e in J1, J2, J3, J4. split; [exact J1|]. assert (OUT : forall i, ~ In i H1 -> nth i e None = nth i d None). { intros i Hi. rewrite J2 by exact Hi. rewrite (proj2 (W i)). destruct (existsb (Nat.eqb i) ext) eqn:E1; [symmetry; apply HX; now apply existsb_In|]. destruct (existsb (Nat.eqb i) H1) eqn:E2; [exfalso; apply Hi; now apply existsb_In|reflexivity]. }
        split; [intros i Hi; apply OUT; intros K; apply Hi, I1, K|]. split; [exact J3|]. intros i Hi Hn. assert (Et : N - length H1 = S (N - length H)) by lia. rewrite Et in J4. set (t := N - length H) in *.
        destruct (Nat.eq_dec i k) as [-> |Hik].
        * rewrite OUT by (intros K; apply I1 in K; tauto). rewrite (HV k Hk Hn). destruct (Nat.leb_spec nb t) as [L|L]; [reflexivity|]. cbn [orb].
          (* k is the first point with NaN: no other one before *)
          assert (C0 : cnt H k = 0). { destruct A2 as [_ A3]; [exists k; split; [exact Hk|]; rewrite (HV k Hk Hn); now replace (nb <=? t) with false by (symmetry; apply Nat.leb_gt; lia)|]. unfold cnt. destruct (filter (fun j => negb (existsb (Nat.eqb j) ext) && (j <? k)) H) as [|y l] eqn:E; [reflexivity|exfalso].
            assert (K : In y (filter (fun j => negb (existsb (Nat.eqb j) ext) && (j <? k)) H)) by (rewrite E; now left). apply filter_In in K as [K1 K2]. apply andb_true_iff in K2 as [K2 K3]. apply Nat.ltb_lt in K3. apply (A3 y K1 K3). rewrite HV; auto.
            - intros Ky. apply existsb_In in Ky. rewrite Ky in K2. discriminate. }
          rewrite C0, Nat.add_0_r. replace (nb <=? t) with false by (symmetry; apply Nat.leb_gt; lia). now rewrite andb_false_r.
        * assert (Hi1 : In i H1) by (apply I1; auto). rewrite (J4 i Hi1 Hn).
          destruct (Nat.leb_spec nb t) as [L|L]; cbn [orb]. { replace (nb <=? S t) with true by (symmetry; apply Nat.leb_le; lia). reflexivity. }
          destruct A2 as [A3 A4]; [exists i; split; [exact Hi|]; rewrite (HV i Hi Hn); now replace (nb <=? t) with false by (symmetry; apply Nat.leb_gt; lia)|].
          assert (Hke : ~ In k ext) by (intros K; rewrite (HX k K) in A3; discriminate).
          assert (Hki : k < i). { destruct (lt_eq_lt_dec k i) as [[L2|L2]|L2]; [exact L2|congruence|]. exfalso. apply (A4 i Hi L2). rewrite (HV i Hi Hn). now replace (nb <=? t) with false by (symmetry; apply Nat.leb_gt; lia). }
          assert (CC : cnt H i = S (cnt H1 i)).
          { unfold cnt. assert (P : Permutation (filter (fun j => negb (existsb (Nat.eqb j) ext) && (j <? i)) H) (k :: filter (fun j => negb (existsb (Nat.eqb j) ext) && (j <? i)) H1)).
            { apply NoDup_Permutation; [apply NoDup_filter, ND| |].
              - apply NoDup_cons; [intros K; apply filter_In in K as [K _]; apply I1 in K; tauto|apply NoDup_filter, ND1].
              - intros x. cbn [In]. rewrite !filter_In, I1. split; [intros [X1 X2]; destruct (Nat.eq_dec k x); [now left|right; auto]|]. intros [<- |[[X1 _] X2]]; [split; [exact Hk|]|auto]. rewrite (NE k Hke). cbn. now apply Nat.ltb_lt. }
            now apply Permutation_length in P. }
          rewrite CC. replace (t + S fuel) with (S t + fuel) by lia. replace (t + S (cnt H1 i)) with (S t + cnt H1 i) by lia.
          destruct (Nat.leb_spec nb (S t)) as [L2|L2]; cbn [orb]; [|reflexivity]. replace (nb <=? S t + fuel) with true by (symmetry; apply Nat.leb_le; lia). replace (nb <=? S t + cnt H1 i) with true by (symmetry; apply Nat.leb_le; lia). reflexivity.
  Qed.
End Constant.

(** C100: what goes wrong with a constant objective ("mnn", "2nn"): no distance is a number.  The extreme points are infinite as always; the others are NaN - all of them if fewer than nb = m (or 2) points are dropped;
    otherwise the first nb of them, in the order of the points, and the rest is infinite *)
Theorem C100_constant : forall nsort m n_remove twonn F c, nsort_ok nsort -> m < length F -> c < m -> (forall i k, i < length F -> k < length F -> (entry F i c == entry F k c)%Q) -> (twonn = true -> 2 <= m) ->
  let d := calc_mnn_base nsort m n_remove twonn F in let nb := if twonn then 2 else m in let rounds := Nat.min (Z.to_nat (n_remove - 1)) (length F - m - 1) in
  length d = length F /\ (forall i, extreme m F i -> nth i d None = Some PInf) /\
  exists rest, StronglySorted lt rest /\ (forall i, In i rest <-> i < length F /\ ~ extreme m F i) /\
    forall p, p < length rest -> nth (nth p rest 0) d (Some PInf) = if (rounds <? nb) || (p <? nb) then None else Some PInf.
Proof.
  intros nsort m n_remove twonn F c HO Hm Hc HCc Htw d nb rnds. set (N := length F) in *. assert (HF : F <> []) by (intros ->; cbn in N; lia).
  assert (HC : has_constant m F = true). { apply existsb_exists. exists c. split; [apply in_seq; lia|]. unfold constant_col. apply Qeq_bool_iff. destruct (qmin_list_min (colF c F) (col_ne c F HF)) as [A1 _]. destruct (qmax_list_max (colF c F) (col_ne c F HF)) as [B1 _].
    destruct (In_nth _ _ 0%Q A1) as (a & Ha & Ea). destruct (In_nth _ _ 0%Q B1) as (b & Hb & Eb). rewrite lenC in Ha, Hb. rewrite col_entry in Ea, Eb by auto. rewrite <- Ea, <- Eb. rewrite (HCc b a) by auto. ring. }
  assert (Hnb : 1 <= nb <= m) by (unfold nb; destruct twonn; [specialize (Htw eq_refl)|]; lia).
  assert (ER : rounds N m n_remove = rnds) by apply rounds_value. set (ext := extremes m F). assert (Hext : forall i, In i ext -> i < N) by (apply extreme_lt; exact HF).
  set (d0 := owrite ext (seq 0 N) (mnn_score nsort m nb F (seq 0 N)) (repeat None N)).
  assert (ED : d = oprune (mnn_score nsort m nb F) ext rnds (seq 0 N) d0). { unfold d, calc_mnn_base. fold N. replace (N <=? m) with false by (symmetry; apply Nat.leb_gt; lia). cbv zeta. fold nb ext. rewrite ER. reflexivity. }
  assert (W : forall i, length d0 = N /\ nth i d0 None = if existsb (Nat.eqb i) ext then Some PInf else if existsb (Nat.eqb i) (seq 0 N) then mnn_score nsort m nb F (seq 0 N) i else nth i (repeat None N) None).
  { intros i. destruct (owrite_nth ext (seq 0 N) (mnn_score nsort m nb F (seq 0 N)) (repeat None N) i) as [W1 W2]; [intros x Hx; rewrite repeat_length; auto|intros x Hx; rewrite repeat_length; apply in_seq in Hx; lia|]. split; [unfold d0; rewrite W1; apply repeat_length|exact W2]. }
  destruct (const_prune nsort m nb F HO HC ltac:(lia) ltac:(fold N; lia) ext Hext rnds (seq 0 N) d0) as (P1 & P2 & P3 & P4).
  - apply seq_sorted.
  - intros j Hj. apply in_seq in Hj. lia.
  - apply (W 0).
  - rewrite seq_length. unfold rnds. fold N. lia.
  - intros i Hi. rewrite (proj2 (W i)). apply existsb_In in Hi. now rewrite Hi.
  - intros i Hi Hn. rewrite (proj2 (W i)). replace (existsb (Nat.eqb i) ext) with false by (symmetry; apply not_true_iff_false; intros K; apply Hn; now apply existsb_In). pose proof Hi as Hi2. apply existsb_In in Hi. rewrite Hi. apply const_score; auto; try (fold N; lia); [apply seq_NoDup|]. intros j Hj. apply in_seq in Hj. fold N. lia.
  - rewrite <- ED in *. split; [exact P1|]. split; [intros i Hi; apply P3; now apply extreme_iff|].
    set (ne := filter (fun j => negb (existsb (Nat.eqb j) ext)) (seq 0 N)). assert (SN : StronglySorted lt ne) by (apply (rest_sorted ext (seq 0 N)), seq_sorted).
    assert (IN : forall i, In i ne <-> i < N /\ ~ In i ext) by (intros i; apply (In_without ext N i)). exists ne. split; [exact SN|].
    split; [intros i; rewrite IN; unfold ext; rewrite (extreme_iff m F HF); reflexivity|].
    intros p Hp. set (i := nth p ne 0). assert (Hi : In i ne) by now apply nth_In. apply IN in Hi as [Hi1 Hi2]. rewrite (nth_indep _ (Some PInf) None) by (rewrite P1; fold N; lia). rewrite (P4 i) by (auto; apply in_seq; lia). rewrite seq_length, Nat.sub_diag. cbn [Nat.add].
    replace (nb <=? 0) with false by (symmetry; apply Nat.leb_gt; lia). cbn [orb].
    assert (CP : cnt ext (seq 0 N) i = p).
    { unfold cnt. replace (filter (fun j => negb (existsb (Nat.eqb j) ext) && (j <? i)) (seq 0 N)) with (firstn p ne).
      - rewrite firstn_length. lia.
      - assert (E : filter (fun j => negb (existsb (Nat.eqb j) ext) && (j <? i)) (seq 0 N) = filter (fun j => j <? i) ne) by (unfold ne; rewrite filter_filter; apply filter_ext; intros j; apply andb_comm). rewrite E. unfold i. clear - SN Hp. revert p Hp. induction SN as [|x l SN IH HF]; intros p Hp; [cbn in Hp; lia|].
        rewrite Forall_forall in HF. destruct p as [|p]; cbn [firstn nth filter].
        + rewrite Nat.ltb_irrefl. symmetry. apply filter_none. intros y Hy. apply Nat.ltb_ge. specialize (HF y Hy). lia.
        + cbn in Hp. replace (x <? nth p l 0) with true by (symmetry; apply Nat.ltb_lt, HF, nth_In; lia). f_equal. apply IH. lia. }
    rewrite CP. destruct (Nat.ltb_spec rnds nb), (Nat.ltb_spec p nb), (Nat.leb_spec nb rnds), (Nat.leb_spec nb p); cbn; auto; lia.
Qed.

(** C100: whatever is dropped, the extreme points of every objective are infinite *)
Lemma pruned_extreme value N k d R i : pruned_values value N k d R -> i < N -> (forall SV x, value SV i x -> x = PInf) -> nth i d PInf = PInf.
Proof.
  intros (P1 & P2 & P3 & P4 & P5 & P6) Hi HV. destruct (in_dec Nat.eq_dec i R) as [HR|HR].
  - destruct (In_nth _ _ 0 HR) as (t & Ht & Et). destruct (P5 t ltac:(lia)) as (_ & T2 & _). rewrite Et in T2. eapply HV; eauto.
  - eapply HV. apply P6. apply In_without. auto.
Qed.
Theorem C100_extremes : forall asort nsort m n_remove twonn F lo hi i, stable_ok asort -> nsort_ok nsort -> ranges m F lo hi -> extreme m F i ->
  nth i (calc_pcd asort m n_remove F) (Fin 0) = PInf /\
  ((forall c, c < m -> ~ (lo c == hi c)%Q) -> (twonn = true -> 2 <= m) -> nth i (calc_mnn_base nsort m n_remove twonn F) None = Some PInf).
Proof.
  intros asort nsort m n_remove twonn F lo hi i HA HO HR HE. assert (Hi : i < length F) by (destruct HE as (j & _ & H & _); exact H). assert (HF : F <> []) by (intros ->; cbn in Hi; lia). split.
  - destruct (C100_pcd asort m n_remove F lo hi HA HF HR) as (R & PV). assert (L : length (calc_pcd asort m n_remove F) = length F) by apply PV. rewrite (nth_indep _ (Fin 0) PInf) by lia. eapply pruned_extreme; [exact PV|exact Hi|]. intros SV x [[_ E]|[K _]]; [exact E|contradiction].
  - intros HN Htw. destruct (C100_mnn nsort m n_remove twonn F lo hi HO HR) as [M1 M2]. destruct (le_lt_dec (length F) m) as [L|L].
    + rewrite M1 by exact L. rewrite (nth_indep _ None (Some PInf)) by (now rewrite repeat_length). apply nth_repeat.
    + destruct (M2 L HN Htw) as (d & R & E & PV). rewrite E. assert (LD : length d = length F) by apply PV. rewrite nth_some by lia. f_equal. eapply pruned_extreme; [exact PV|exact Hi|]. intros SV x [[_ X]|[K _]]; [exact X|contradiction].
Qed.
