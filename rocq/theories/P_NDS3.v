(** * The bi-objective sort and the tree-based sort *)
From Coq Require Import List ZArith Bool Lia Arith Permutation Floats.SpecFloat.
From Verif Require Import Flt ListAux M_Dominator M_NDS S_Pareto S_NDS P_Dominator P_Peel P_FastNDS P_NDS1 P_NDS2.
Import ListNotations.

Lemma fle_inf x : isnan x = false -> fleb x f_inf = true.
Proof. destruct x as [[]|[]| |[] m e]; simpl; intros; auto; discriminate. Qed.

(** ** generic: existence of minimal remaining points *)
Lemma minimal_remaining n (dom : nat -> nat -> Prop) removed :
  (forall i j, i < n -> j < n -> dom i j -> i < j) -> NoDup removed -> (forall i, In i removed -> i < n) ->
  length removed < n -> exists i, i < n /\ ~ In i removed /\ forall j, j < i -> In j removed.
Proof.
  intros _ Hnd Hb Hlt.
  assert (G : forall k, k <= n -> (exists i, i < k /\ ~ In i removed /\ forall j, j < i -> In j removed) \/ (forall j, j < k -> In j removed)).
  { induction k as [|k IH]; intros Hk; [right; intros; lia|]. destruct IH as [(i & Hi & H)|H]; [lia| |].
    - left. exists i. split; auto; lia.
    - destruct (in_dec Nat.eq_dec k removed) as [Hin|Hn].
      + right. intros j Hj. destruct (Nat.eq_dec j k) as [->|]; auto. apply H; lia.
      + left. exists k. split; auto. }
  destruct (G n (le_n _)) as [(i & Hi & H)|H]; [eauto|].
  assert (Hall : incl (seq 0 n) removed) by (intros i Hi; apply in_seq in Hi; apply H; lia).
  apply NoDup_incl_length in Hall; [|apply seq_NoDup]. rewrite seq_length in Hall. lia.
Qed.

(** ** bi-objective sweep *)
Section Biobj.
  Variables (sF : fltmat) (I : list nat) (n : nat).
  Hypothesis HF : forall p, p < n -> isnan (cell sF p 1) = false.
  Let f1 p := cell sF p 1.

  (** the relation the sweep really uses, on sorted positions *)
  Definition bdom (p q : nat) : Prop := p < q /\ fleb (f1 p) (f1 q) = true.

  Lemma bdom_trans i j k : bdom i j -> bdom j k -> bdom i k.
  Proof. intros [H1 H2] [H3 H4]. split; [lia|]. eapply fle_trans; eauto. Qed.

  Definition SInv (t : nat) (assigned0 : list bool) (st : list nat * list nat * list bool * flt) : Prop :=
    let '(front, idx, assigned, msec) := st in
    front = map (fun p => nth p I 0) idx /\ length assigned = n /\ isnan msec = false /\
    NoDup idx /\
    (forall p, In p idx -> p < t /\ nth p assigned0 false = false) /\
    (forall p, p < n -> nth p assigned false = nth p assigned0 false || mem idx p) /\
    (forall p, In p idx -> fleb msec (f1 p) = true) /\
    ((idx = [] /\ msec = f_inf) \/ exists p, In p idx /\ fleb (f1 p) msec = true) /\
    (forall p q, In p idx -> In q idx -> ~ bdom q p) /\
    (forall p, p < t -> nth p assigned0 false = false -> ~ In p idx -> exists q, In q idx /\ bdom q p).

  Lemma biobj_step_inv t a0 st : t < n -> length a0 = n -> SInv t a0 st -> SInv (S t) a0 (biobj_step I sF st t).
  Proof.
    intros Ht Ha0. destruct st as [[[front idx] assigned] msec].
    intros (E1 & E2 & Enan & E3 & E4 & E5 & E6 & E7 & E8 & E9). unfold biobj_step.
    assert (Hat : nth t assigned false = nth t a0 false).
    { rewrite E5 by auto. destruct (mem idx t) eqn:Em; [|apply orb_false_r].
      apply mem_iff in Em. apply E4 in Em. lia. }
    rewrite Hat. destruct (nth t a0 false) eqn:Ea.
    { (* already assigned *)
      repeat (split; [solve [auto] | ]). split; [intros p Hp; destruct (E4 p Hp); split; auto; lia|].
      repeat (split; [solve [auto] | ]). intros p Hp Hpa Hpi. destruct (Nat.eq_dec p t) as [->|]; [congruence|]. apply E9; auto; lia. }
    fold (f1 t).
    assert (Hdec : (match idx with [] => false | _ => fleb msec (f1 t) end) = true <-> exists q, In q idx /\ fleb (f1 q) (f1 t) = true).
    { destruct idx as [|i0 idx'] eqn:Ei.
      - split; [discriminate|]. intros (q & [] & _).
      - rewrite <- Ei in *. split.
        + intros H. destruct E7 as [[E7 _]|(q & Hq & Hle)]; [congruence|]. exists q. split; auto. eapply fle_trans; eauto.
        + intros (q & Hq & Hle). eapply fle_trans; [apply E6; eauto|auto]. }
    destruct (match idx with [] => false | _ => fleb msec (f1 t) end) eqn:Ed.
    - (* rejected *)
      repeat (split; [solve [auto] | ]). split; [intros p Hp; destruct (E4 p Hp); split; auto; lia|].
      repeat (split; [solve [auto] | ]). intros p Hp Hpa Hpi. destruct (Nat.eq_dec p t) as [->|]; [|apply E9; auto; lia].
      destruct (proj1 Hdec eq_refl) as (q & Hq & Hle). exists q. split; auto. split; auto. apply E4 in Hq. lia.
    - (* accepted *)
      assert (Hno : forall q, In q idx -> fleb (f1 q) (f1 t) = false).
      { intros q Hq. destruct (fleb (f1 q) (f1 t)) eqn:El; auto. exfalso.
        assert (false = true) by (apply Hdec; eauto). discriminate. }
      assert (Hti : ~ In t idx) by (intros H; apply E4 in H; lia).
      assert (Hnt : isnan (f1 t) = false) by (apply HF; auto).
      split; [now rewrite map_app, E1|]. split; [now rewrite length_upd|].
      split; [destruct (fltb (f1 t) msec); auto|].
      split; [apply NoDup_app_iff; split; auto; split; [repeat constructor; simpl; tauto|intros x Hx [<-|[]]; auto]|].
      split.
      { intros p Hp. apply in_app_iff in Hp as [Hp|[<-|[]]]; [destruct (E4 p Hp); split; auto; lia | auto]. }
      split.
      { intros p Hp. rewrite nth_upd. unfold mem. rewrite existsb_app. simpl. rewrite orb_false_r.
        destruct (Nat.eqb_spec p t) as [->|Hne]; simpl.
        - rewrite (proj2 (Nat.ltb_lt _ _)) by lia. now rewrite !orb_true_r.
        - rewrite E5 by auto. unfold mem. now rewrite orb_false_r. }
      split.
      { intros p Hp. destruct (fltb (f1 t) msec) eqn:El.
        - apply in_app_iff in Hp as [Hp|[<-|[]]]; [|now apply fle_refl].
          apply flt_le in El. eapply fle_trans; [exact El|auto].
        - apply in_app_iff in Hp as [Hp|[<-|[]]]; auto. now apply nlt_le. }
      split.
      { right. destruct (fltb (f1 t) msec) eqn:El.
        - exists t. rewrite in_app_iff. simpl. split; auto. now apply fle_refl.
        - destruct E7 as [[E7 Em]|(q & Hq & Hle)].
          + (* first point of the sweep: msec is still +infinity *)
            exists t. rewrite in_app_iff. simpl. split; auto. subst idx. simpl in *.
            destruct (flt_total (f1 t) msec Hnt Enan) as [H|[H|H]]; [congruence | now apply feq_le |].
            exfalso. subst msec. rewrite (fle_not_lt (f1 t) f_inf) in H; [discriminate | now apply fle_inf].
          + exists q. rewrite in_app_iff. auto. }
      split.
      { intros p q Hp Hq [Hlt Hle]. apply in_app_iff in Hp as [Hp|[<-|[]]]; apply in_app_iff in Hq as [Hq|[<-|[]]].
        - apply (E8 p q); auto. split; auto.
        - apply E4 in Hp. lia.
        - rewrite Hno in Hle by auto. discriminate.
        - lia. }
      intros p Hp Hpa Hpi. rewrite in_app_iff in Hpi. simpl in Hpi. destruct (Nat.eq_dec p t) as [->|]; [tauto|].
      destruct (E9 p) as (q & Hq & Hd); auto; [lia|]. exists q. rewrite in_app_iff. auto.
  Qed.

  Lemma biobj_sweep a0 : length a0 = n ->
    SInv n a0 (fold_left (biobj_step I sF) (seq 0 n) ([], [], a0, f_inf)).
  Proof.
    intros Ha0. assert (G : forall t, t <= n -> SInv t a0 (fold_left (biobj_step I sF) (seq 0 t) ([], [], a0, f_inf))); [|now apply G].
    induction t as [|t IH]; intros Ht.
    - simpl. split; auto. split; auto. split; auto. split; [constructor|]. split; [tauto|].
      split; [intros; now rewrite orb_false_r|]. split; [tauto|]. split; auto. split; [tauto|]. intros; lia.
    - rewrite seq_S, fold_left_app. cbn [fold_left plus]. apply biobj_step_inv; auto. apply IH; lia.
  Qed.

  Lemma biobj_while_spec fuel : forall assigned na fronts,
    length assigned = n -> ppeel n bdom fronts ->
    (forall p, p < n -> nth p assigned false = mem (concat fronts) p) ->
    na = length (concat fronts) -> n <= na + fuel ->
    exists out, biobj_while fuel n I sF assigned na (map (gather 0 I) fronts) = Some (map (gather 0 I) out) /\
                is_peeling n bdom out.
  Proof.
    induction fuel as [|fuel IH]; intros assigned na fronts Hla HP Has Hna Hfu; cbn [biobj_while].
    all: destruct (Nat.ltb_spec na n) as [Hlt|Hge]; try lia.
    1, 3: exists fronts; split; auto; apply ppeel_done; auto; lia.
    pose proof (biobj_sweep assigned Hla) as HS.
    destruct (fold_left (biobj_step I sF) (seq 0 n) ([], [], assigned, f_inf)) as [[[front idx] assigned'] msec].
    destruct HS as (E1 & E2 & Enan & E3 & E4 & E5 & E6 & E7 & E8 & E9).
    pose proof HP as (P1 & P2 & _).
    assert (Hmem : forall p, p < n -> (nth p assigned false = false <-> ~ In p (concat fronts))).
    { intros p Hp. rewrite Has by auto. rewrite <- mem_iff. destruct (mem _ _); intuition congruence. }
    assert (Hmin : forall i, In i idx <-> is_minimal n bdom (concat fronts) i).
    { apply kernel_minimal; auto.
      - intros i j k _ _ _. apply bdom_trans.
      - intros i Hi. destruct (E4 i Hi). split; auto. now apply Hmem.
      - intros i Hi Hr Hc. apply E9; auto. now apply Hmem. }
    destruct (minimal_remaining n bdom (concat fronts)) as (i0 & Hi0 & Hr0 & Hm0); auto; try lia.
    { intros i j _ _ [H _]. auto. }
    assert (Hidx : In i0 idx).
    { apply Hmin. split; auto. split; auto. intros j Hj Hjr [Hd _]. apply Hjr, Hm0. auto. }
    assert (Hfne : idx <> []) by (intros E; rewrite E in Hidx; destruct Hidx).
    assert (Hlen : length front = length idx) by (rewrite E1; apply map_length).
    replace (match front with [] => Some (map (gather 0 I) fronts)
             | _ :: _ => biobj_while fuel n I sF assigned' (na + length front) (map (gather 0 I) fronts ++ [front]) end)
      with (biobj_while fuel n I sF assigned' (na + length front) (map (gather 0 I) fronts ++ [front])).
    2: { destruct front; auto. destruct idx; [congruence|discriminate]. }
    assert (Hcc : concat (fronts ++ [idx]) = concat fronts ++ idx) by (rewrite concat_app; simpl; now rewrite app_nil_r).
    replace (map (gather 0 I) fronts ++ [front]) with (map (gather 0 I) (fronts ++ [idx])) by (rewrite map_app; simpl; now rewrite E1).
    apply IH; auto.
    - apply ppeel_extend; auto.
    - intros p Hp. rewrite E5, Has by auto. rewrite Hcc. unfold mem. now rewrite existsb_app.
    - rewrite Hcc, app_length. lia.
    - rewrite Hlen. destruct idx; [congruence|simpl; lia].
  Qed.
End Biobj.

(** what the bi-objective sort computes for every input: the peeling of the relation "sorted earlier and
    second objective not larger" *)
Lemma biobj_nds_spec m F I : rect m F -> 2 <= m -> mat_ok F -> is_argsort fltb f_nan (column F 0) I ->
  exists fronts, biobj_nds I F = Some (map (gather 0 I) fronts) /\ is_peeling (length F) (bdom (gather [] F I)) fronts.
Proof.
  intros Hr Hm Hok HI. unfold biobj_nds. pose proof HI as [HP _].
  assert (HC : length (column F 0) = length F) by (unfold column; apply map_length). rewrite HC in HP.
  pose proof (perm_seq_length _ _ HP) as HL.
  destruct (Nat.eqb_spec (length F) 0) as [H0|H0].
  - exists []. split; auto. rewrite H0. apply ppeel_done; [apply ppeel_nil | simpl; lia].
  - destruct (biobj_while_spec (gather [] F I) I (length F)) with (fuel := length F) (assigned := repeat false (length F)) (na := 0)
      (fronts := @nil (list nat)) as (out & E & HPe); auto.
    + intros p Hp. unfold cell. rewrite nth_gather by lia.
      assert (Hi : nth p I 0 < length F) by (now apply perm_nth_lt).
      pose proof (mat_ok_nth F (nth p I 0) Hok) as Hv. unfold vec_ok in Hv. rewrite Forall_forall in Hv. apply Hv, nth_In.
      rewrite (rect_nth m); auto.
    + apply repeat_length.
    + apply ppeel_nil.
    + intros p Hp. rewrite nth_repeat' by auto. reflexivity.
    + exists out. split; auto.
Qed.

(** first objectives pairwise distinct: the Pareto peeling *)

Lemma bdom_row_dom F I : rect 2 F -> mat_ok F -> distinct_first F -> is_argsort fltb f_nan (column F 0) I ->
  forall p q, p < length F -> q < length F ->
  (bdom (gather [] F I) p q <-> row_dom F (nth p I 0) (nth q I 0)).
Proof.
  intros Hr Hok Hdist [HP Hs] p q Hp Hq.
  assert (HC : length (column F 0) = length F) by (unfold column; apply map_length). rewrite HC in HP.
  pose proof (perm_seq_length _ _ HP) as HL.
  assert (Hlt : forall p, p < length F -> nth p I 0 < length F) by (intros; now apply perm_nth_lt).
  assert (Hfirst : forall p q, p < q -> q < length F -> fltb (cell F (nth p I 0) 0) (cell F (nth q I 0) 0) = true).
  { intros a c Hac Hc. specialize (Hs a c Hac ltac:(lia)). rewrite !column_nth in Hs by (apply Hlt; lia).
    assert (Hnn : forall i, i < length F -> isnan (cell F i 0) = false).
    { intros i Hi. unfold cell. pose proof (mat_ok_nth F i Hok) as Hv. unfold vec_ok in Hv. rewrite Forall_forall in Hv.
      apply Hv, nth_In. rewrite (rect_nth 2); auto. }
    assert (Ha' : isnan (cell F (nth a I 0) 0) = false) by (apply Hnn, Hlt; lia).
    assert (Hc' : isnan (cell F (nth c I 0) 0) = false) by (apply Hnn, Hlt; lia).
    destruct (flt_total _ _ Ha' Hc') as [H|[H|H]]; [exact H| |rewrite Hs in H; discriminate].
    rewrite Hdist in H; [discriminate| apply Hlt; lia .. |]. intros E. apply (perm_nth_inj I (length F)) in E; auto; lia. }
  assert (Hne : F <> []) by (intros ->; simpl in Hp; lia).
  rewrite (row_dom_cells 2) by auto. unfold bdom, cell. rewrite !nth_gather by lia. fold (cell F (nth p I 0) 1) (cell F (nth q I 0) 1).
  split.
  - intros [Hpq Hle]. pose proof (Hfirst p q Hpq Hq) as H0. split.
    + intros [|[|k]] Hk; try lia; [now apply flt_le | auto].
    + intros H. specialize (H 0 ltac:(lia)). apply fle_not_lt in H. unfold cell in H0. congruence.
  - intros [H1 H2]. split; [|apply H1; lia].
    destruct (Nat.lt_trichotomy p q) as [H|[->|H]]; auto; exfalso.
    + apply H2. exact H1.
    + specialize (H1 0 ltac:(lia)). apply fle_not_lt in H1. pose proof (Hfirst q p H Hp) as H3. unfold cell in H3. congruence.
Qed.

Lemma biobj_nds_peeling F I : rect 2 F -> mat_ok F -> distinct_first F -> is_argsort fltb f_nan (column F 0) I ->
  exists fronts, biobj_nds I F = Some fronts /\ is_peeling (length F) (row_dom F) fronts.
Proof.
  intros Hr Hok Hd HI. destruct (biobj_nds_spec 2 F I) as (out & E & HP); auto.
  exists (map (gather 0 I) out). split; auto. apply peeling_map.
  - destruct HI as [HI _]. unfold column in HI. now rewrite map_length in HI.
  - eapply is_peeling_ext; [|exact HP]. intros i j Hi Hj. cbn beta. now apply bdom_row_dom.
Qed.
