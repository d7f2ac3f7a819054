(** * C104: Omni-Optimizer: survival *)
From Coq Require Import List Arith Bool ZArith QArith Lia Lqa Permutation.
From Verif Require Import ListAux M_NDS S_Pareto S_NDS P_Peel P_NDS1 P_NDS2 M_Survival S_Survival P_Survival P_Survival2 M_Crowding Thm_Crowding Thm_Default2 Thm_Pruning4 Thm_Pruning6 M_Omni Thm_Omni Thm_Omni2 Thm_Omni3.
Import ListNotations.
Local Open Scope nat_scope.

(** contract of randomized_argsort(order="descending"): a permutation along which the keys do not increase *)
Definition qdsort_ok (dsort : list Q -> list nat) : Prop := forall keys, Permutation (dsort keys) (seq 0 (length keys)) /\
  forall p q, p < q -> q < length keys -> (nth (nth q (dsort keys) 0%nat) keys 0 <= nth (nth p (dsort keys) 0%nat) keys 0)%Q.

Lemma fold_crowd_q c front : forall s r, NoDup front ->
  let r' := fold_left (fun r ji => upd r (snd ji) (Some (nth (fst ji) c 0%Q))) (combine (seq s (length front)) front) r in
  length r' = length r /\ (forall i, ~ In i front -> nth i r' None = nth i r None) /\
  (forall j, j < length front -> nth j front 0 < length r -> nth (nth j front 0) r' None = Some (nth (s + j) c 0%Q)).
Proof.
  induction front as [|x front IH]; intros s r HN; cbn [length seq combine fold_left]; [split; auto; split; auto; cbn; lia|].
  apply NoDup_cons_iff in HN as [Hx HN]. cbn [fst snd]. destruct (IH (S s) (upd r x (Some (nth s c 0%Q))) HN) as (A & B & C). cbv zeta in *. rewrite length_upd in *. split; auto. split.
  - intros i Hi. rewrite B by (intros K; apply Hi; now right). apply nth_upd_neq. intros E. apply Hi. now left.
  - intros [|j] Hj Hb; cbn [nth] in *.
    + rewrite B by auto. rewrite Nat.add_0_r. now apply nth_upd_eq.
    + rewrite C by (cbn in Hj; auto; lia). f_equal. f_equal. lia.
Qed.

Section Surv.
  Variables (asort dsort : list Q -> list nat) (oc vc : bool) (delta : Q) (m d : nat) (F X : list (list Q)) (n : nat).
  Hypotheses (HS : stable_ok asort) (HD : qdsort_ok dsort) (Hon : oc || vc = true) (Hm : 0 < m) (Hd : 0 < d) (HF : F <> []) (HL : forall r, In r F -> length r = m) (HX : length X = length F) (Hn : n <= length F).
  Let N := length F.
  Definition crw (front : list nat) : list Q := match omni_crowding asort oc vc m d (gather [] F front) (gather [] X front) with Some c => c | None => [] end.
  Lemma crw_ok front : omni_crowding asort oc vc m d (gather [] F front) (gather [] X front) = Some (crw front) /\ length (crw front) = length front.
  Proof.
    clear HF HL Hn. unfold crw. set (A := gather [] F front). set (B := gather [] X front). assert (LA : length A = length front) by apply length_gather. assert (LB : length B = length front) by apply length_gather.
    destruct oc, vc; try discriminate.
    - destruct (comb_value asort m d A B HS Hm Hd ltac:(congruence)) as (c & E & LC & _). rewrite E. split; auto. congruence.
    - cbn. split; auto. destruct (C104_objective_crowding asort m A HS Hm) as [L _]. cbv zeta in L. congruence.
    - cbn. split; auto. destruct (C104_variable_crowding asort d B HS Hd) as [L _]. cbv zeta in L. congruence.
  Qed.
  Let csort (front : list nat) := dsort (crw front).
  Lemma csort_perm front : Permutation (csort front) (seq 0 (length front)).
  Proof. destruct (HD (crw front)) as [P _]. now rewrite (proj2 (crw_ok front)) in P. Qed.
  Lemma sel_good : sel_ok (pick csort) (fun _ => True).
  Proof. apply pick_ok. intros front _. apply csort_perm. Qed.
  Let step := omni_front asort oc vc m d F X dsort n.
  Lemma loop_inv fs : forall s st, NoDup (concat fs) -> (forall i, In i (concat fs) -> i < N) -> length (om_rank st) = N -> length (om_crowd st) = N ->
    exists st', fold_left step (combine (seq s (length fs)) fs) (Some st) = Some st' /\
    om_surv st' = fold_left (fill_step n (pick csort)) fs (om_surv st) /\
    (forall i, ~ In i (concat fs) -> nth i (om_rank st') None = nth i (om_rank st) None /\ nth i (om_crowd st') None = nth i (om_crowd st) None) /\
    (forall t j, t < length fs -> j < length (nth t fs []) ->
       nth (nth j (nth t fs []) 0) (om_rank st') None = Some (s + t) /\
       nth (nth j (nth t fs []) 0) (om_crowd st') None = Some (nth j (crw (nth t fs [])) 0%Q)).
  Proof.
    induction fs as [|f fs IH]; intros s st HN HB LR LC; cbn [length seq combine fold_left].
    - exists st. split; auto. split; auto. split; auto. cbn. intros; lia.
    - cbn [concat] in HN, HB. apply NoDup_app_iff in HN as (Nf & Nfs & Dis).
      unfold step at 2. unfold omni_front at 1. destruct (crw_ok f) as [E LE]. rewrite E.
      set (idx := if n <? length (om_surv st) + length f then firstn (n - length (om_surv st)) (dsort (crw f)) else seq 0 (length f)).
      set (st1 := {| om_surv := _; om_rank := _; om_crowd := _ |}).
      destruct (fold_crowd_q (crw f) f 0 (om_crowd st) Nf) as (C1 & C2 & C3). cbv zeta in C1, C2, C3. change (fold_left _ (combine (seq 0 (length f)) f) (om_crowd st)) with (om_crowd st1) in C1, C2, C3.
      destruct (IH (S s) st1) as (st' & E' & I1 & I2 & I3); auto; [intros i Hi; apply HB, in_app_iff; auto|unfold st1; cbn [om_rank]; now rewrite fold_upd_length|congruence|].
      exists st'. split; [exact E'|]. split.
      { rewrite I1. f_equal. unfold st1. cbn [om_surv]. unfold fill_step. f_equal. unfold idx. destruct (n <? length (om_surv st) + length f); [reflexivity|]. now rewrite gather_seq. }
      split.
      + intros i Hi. cbn [concat] in Hi. rewrite in_app_iff in Hi. destruct (I2 i ltac:(tauto)) as [J1 J2]. rewrite J1, J2. split; [unfold st1; cbn [om_rank]; apply fold_upd_notin; tauto|apply C2; tauto].
      + intros [|t] j Ht Hj; cbn [nth] in *.
        * assert (Hin : In (nth j f 0) f) by (now apply nth_In). destruct (I2 (nth j f 0)) as [J1 J2]; [intros K; eapply Dis; eauto|].
          assert (Hlt : nth j f 0 < N) by (apply HB, in_app_iff; auto). rewrite J1, J2. split; [rewrite Nat.add_0_r; unfold st1; cbn [om_rank]; apply fold_upd_in; auto; lia|].
          apply (C3 j); auto. lia.
        * cbn in Ht. destruct (I3 t j ltac:(lia) Hj) as [J1 J2]. split; [rewrite J1; f_equal; lia|exact J2].
  Qed.
  Definition stored_ok (full : list (list nat)) (st : omni_state) : Prop := forall i r c, In i (nth r full []) -> nth i (om_crowd st) None = Some c ->
    nth i (om_rank st) None = Some r /\ exists cs p, omni_crowding asort oc vc m d (gather [] F (nth r full [])) (gather [] X (nth r full [])) = Some cs /\ p < length (nth r full []) /\ nth p (nth r full []) 0 = i /\ c = nth p cs 0%Q.
  Lemma surv_spec : exists st full, omni_do asort oc vc delta m d dsort F X n = Some st /\ fast_nds_matrix (loose_matrix delta F) = Some full /\ is_peeling N (loose delta m F) full /\ selects N n (om_surv st) /\ stored_ok full st /\
    (forall i, In i (om_surv st) -> exists c, nth i (om_crowd st) None = Some c) /\
    (forall i j ri rj, In i (om_surv st) -> ~ In j (om_surv st) -> In i (nth ri full []) -> In j (nth rj full []) ->
       ri <= rj /\ (ri = rj -> exists ci cj, nth i (om_crowd st) None = Some ci /\ nth j (om_crowd st) None = Some cj /\ (cj <= ci)%Q)).
  Proof.
    destruct (loose_peeling delta m F HF HL) as (full & EF & HP). fold N in HP.
    pose proof HP as (HPP & HNE & HPF). pose proof (perm_seq_NoDup _ _ HPP) as HND.
    set (out := do_dominator_loop full n 0).
    assert (HFN : full <> []) by (intros ->; cbn in HPP; apply Permutation_nil in HPP; unfold N in HPP; destruct F; [congruence|discriminate]).
    assert (HST : stopped_at n full out).
    { unfold out. destruct (do_dominator_loop_spec full n 0) as (D1 & D2 & D3). pose proof (do_dominator_loop_prefix full n 0) as Hp. split; auto. split; auto. split.
      - destruct (Nat.lt_ge_cases (length (do_dominator_loop full n 0)) (length full)) as [H|H]; [right; now apply D1|]. left. destruct Hp as (r & Hr).
        assert (length r = 0) by (apply (f_equal (@length _)) in Hr; rewrite app_length in Hr; lia). destruct r; [now rewrite app_nil_r in Hr|discriminate].
      - exact D2. }
    pose proof HST as (Hpre & Hone & Hcase & Hmin).
    assert (Hsub : NoDup (concat out) /\ forall i, In i (concat out) -> i < N).
    { destruct Hpre as (r & Er). rewrite Er, concat_app in HND, HPP. apply NoDup_app_iff in HND as [H1 _]. split; auto. intros i Hi. apply (perm_seq_In _ _ i HPP). apply in_app_iff; auto. }
    destruct Hsub as [ND HB].
    destruct (loop_inv out 0 {| om_surv := []; om_rank := repeat None N; om_crowd := repeat None N |} ND HB) as (st & E & I1 & I2 & I3); [apply repeat_length|apply repeat_length|]. cbn [om_surv om_rank om_crowd] in I1, I2.
    exists st, full. split; [unfold omni_do; rewrite EF; exact E|]. split; auto. split; auto.
    destruct (fill_spec N (loose delta m F) n (pick csort) full out (fun _ => True) HP HST Hn sel_good (fun _ _ => Logic.I)) as (HSel & pre & lst & Eo & A1 & A2 & A3).
    rewrite <- I1 in HSel, A1, A2, A3. split; auto.
    assert (ST : stored_ok full st).
    { intros i r c Hi Hc. destruct (in_dec Nat.eq_dec i (concat out)) as [Hio|Hio].
      - apply in_concat_nth in Hio as (t & Ht & Hit). pose proof (prefix_nth out full t Hpre Ht) as Et. assert (t = r) by (eapply concat_NoDup_nth; [exact HND|rewrite Et; eauto|auto]). subst t.
        apply (In_nth _ _ 0) in Hit as (j & Hj & <-). destruct (I3 r j Ht Hj) as [J1 J2]. split; auto. rewrite Et. exists (crw (nth r out [])), j. split; [apply crw_ok|]. split; auto. split; auto. congruence.
      - destruct (I2 i Hio) as [_ J]. rewrite J in Hc. rewrite nth_repeat in Hc. discriminate. }
    split; auto.
    assert (HSO : forall i, In i (om_surv st) -> exists c, nth i (om_crowd st) None = Some c).
    { intros i Hi. assert (Hio : In i (concat out)) by (rewrite Eo, concat_app; apply in_app_iff; cbn; rewrite app_nil_r; auto).
      apply in_concat_nth in Hio as (t & Ht & Hit). apply (In_nth _ _ 0) in Hit as (j & Hj & <-). destruct (I3 t j Ht Hj) as [_ J2]. eauto. }
    split; auto. intros i j ri rj Hi Hj Hri Hrj. rewrite I1 in Hi, Hj.
    destruct (fill_ranks N (loose delta m F) n (pick csort) full out (fun _ => True) HP HST Hn sel_good (fun _ _ => Logic.I) i j ri rj Hi Hj Hri Hrj) as [R1 R2]. split; auto.
    intros ER. destruct (R2 ER) as (l & k & L1 & L2 & L3 & L4 & L5 & L6 & L7 & L8 & L9). clear R2. 
    destruct (pick_order csort l k i j (csort_perm l) L5 L4 L6) as (p & q & Hpq & Hq & Ei & Ej). pose proof (csort_perm l) as HPc. pose proof (perm_seq_length _ _ HPc) as HLc.
    destruct (In_nth _ _ [] L1) as (t & Ht & Et).
    destruct (I3 t (nth p (csort l) 0) Ht) as [_ J1]. { rewrite Et. apply (perm_seq_In _ _ _ HPc). apply nth_In. lia. }
    destruct (I3 t (nth q (csort l) 0) Ht) as [_ J2]. { rewrite Et. apply (perm_seq_In _ _ _ HPc). apply nth_In. lia. }
    rewrite Et in J1, J2. rewrite <- Ei in J1. rewrite <- Ej in J2. eexists. eexists. split; [exact J1|]. split; [exact J2|].
    destruct (HD (crw l)) as [_ O]. apply O; auto. rewrite (proj2 (crw_ok l)). lia.
  Qed.
End Surv.

(** C104: survival: exactly [n] different solutions survive; the recorded rank is the number of the front in the peeling by loose dominance and the recorded crowding the combined crowding
    within that front; no solution left out has a better rank than a survivor, or the same rank and a larger crowding *)
Theorem C104_survival : forall asort dsort oc vc delta m d F X n, stable_ok asort -> qdsort_ok dsort -> oc || vc = true -> 0 < m -> 0 < d -> F <> [] -> (forall r, In r F -> length r = m) -> length X = length F -> n <= length F ->
  exists st full, omni_do asort oc vc delta m d dsort F X n = Some st /\ is_peeling (length F) (loose delta m F) full /\ selects (length F) n (om_surv st) /\
  (forall i, In i (om_surv st) -> exists c, nth i (om_crowd st) None = Some c) /\
  (forall i r c, In i (nth r full []) -> nth i (om_crowd st) None = Some c -> nth i (om_rank st) None = Some r /\
     exists cs p, omni_crowding asort oc vc m d (gather [] F (nth r full [])) (gather [] X (nth r full [])) = Some cs /\ p < length (nth r full []) /\ nth p (nth r full []) 0 = i /\ c = nth p cs 0%Q) /\
  (forall i j ri rj, In i (om_surv st) -> ~ In j (om_surv st) -> In i (nth ri full []) -> In j (nth rj full []) ->
     ri <= rj /\ (ri = rj -> exists ci cj, nth i (om_crowd st) None = Some ci /\ nth j (om_crowd st) None = Some cj /\ (cj <= ci)%Q)).
Proof.
  intros asort dsort oc vc delta m d F X n HS HD Hon Hm Hd HF HL HX Hn. destruct (surv_spec asort dsort oc vc delta m d F X n HS HD Hon Hm Hd HF HL HX Hn) as (st & full & A & _ & B & C & D & E & G). exists st, full. auto 8.
Qed.
Print Assumptions C104_survival.
(** C104: it raises if crowding is disabled in both spaces *)
Theorem C104_no_crowding_raises : forall asort dsort delta m d F X n, F <> [] -> (forall r, In r F -> length r = m) -> omni_do asort false false delta m d dsort F X n = None.
Proof.
  intros asort dsort delta m d F X n HF HL. unfold omni_do. destruct (loose_peeling delta m F HF HL) as (full & E & HP). rewrite E.
  destruct (do_dominator_loop_spec full n 0) as (_ & _ & D3). assert (HFN : full <> []) by (intros ->; destruct HP as [P _]; cbn in P; apply Permutation_nil in P; destruct F; [congruence|discriminate]).
  specialize (D3 HFN). destruct (do_dominator_loop full n 0) as [|f fs]; [congruence|]. cbn [length seq combine fold_left]. unfold omni_front at 2. cbn [omni_crowding].
  generalize (combine (seq 1 (length fs)) fs). intros l. induction l as [|x l IH]; [reflexivity|exact IH].
Qed.
Print Assumptions C104_no_crowding_raises.
