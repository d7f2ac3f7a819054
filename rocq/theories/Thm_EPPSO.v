(** * C94: EPPSO and NRBO *)
From Coq Require Import List Arith Bool QArith Lqa Lia Permutation.
From Verif Require Import Flt ListAux NpSort M_Survival M_Bounds M_Cross M_Swarm M_EPPSO S_Survival P_Survival4 Thm_Survival P_Bounds P_Cross Thm_GA Thm_DE Thm_PSO.
Import ListNotations.
Local Open Scope nat_scope.

(** ** ranks *)
Lemma pos_le l : forall a b, a < length l -> pos (nth b l 0) l <= b.
Proof.
  induction l as [|x l IH]; intros a b Ha; [cbn; lia|]. destruct b as [|b]; cbn [nth pos].
  - now rewrite Nat.eqb_refl.
  - destruct (x =? nth b l 0); [lia|]. destruct l as [|y l]; [cbn [pos]; lia|]. specialize (IH 0 b ltac:(cbn; lia)). lia.
Qed.
Lemma pos_nth l i : In i l -> nth (pos i l) l 0 = i /\ pos i l < length l.
Proof.
  induction l as [|x l IH]; intros H; [contradiction|]. cbn [pos]. destruct (Nat.eqb_spec x i) as [->|Hn]; [split; [reflexivity|cbn; lia]|].
  destruct H as [H|H]; [congruence|]. destruct (IH H) as [H1 H2]. split; [exact H1|cbn; lia].
Qed.

Section EP.
  Context {A : Type} (d : A) (view : A -> ind1) (close : A -> A -> bool) (hc : bool) (lex : list (flt * flt) -> list nat).
  Hypothesis HL : lex_ok lex.
  Definition good (a : A) : Prop := vok (view a) /\ consistent (view a).
  Notation key := (fun a => (o_cv (view a), o_f (view a))).
  Lemma pair_better a b : good a -> good b -> better (view a) (view b) -> pair_lt (key a) (key b) = true.
  Proof.
    clear HL. intros [[Fx Cx] [Nx Ex]] [[Fo Co] [No Eo]] H. unfold pair_lt. cbn [fst snd]. destruct H as [[H1 H2]|[(H1 & H2 & H3)|(H1 & H2 & H3)]].
    - rewrite Ex in H1. rewrite Eo in H2. replace (fltb (o_cv (view a)) (o_cv (view b))) with true; [reflexivity|]. symmetry.
      apply fle_lt_trans with f_zero; auto. destruct (fltb f_zero (o_cv (view b))) eqn:E; auto. apply nlt_le in E; [congruence|reflexivity|exact Co].
    - now rewrite H3.
    - rewrite Ex in H1. rewrite Eo in H2. assert (E1 : fleb (o_cv (view a)) (o_cv (view b)) = true) by (eapply fle_trans; eauto). assert (E2 : fleb (o_cv (view b)) (o_cv (view a)) = true) by (eapply fle_trans; eauto).
      rewrite (fle_not_lt _ _ E1), (fle_not_lt _ _ E2). exact H3.
  Qed.
  Lemma order_perm pop : (forall x, In x pop -> good x) -> Permutation (order view lex pop) (seq 0 (length pop)).
  Proof.
    intros HV. unfold order. destruct (HL (map key pop)) as [HP _]; [apply Forall_map, Forall_forall; intros a Ha; destruct (HV a Ha) as [[V1 V2] _]; split; auto|]. now rewrite map_length in HP.
  Qed.
  (** a smaller rank is never strictly worse *)
  Lemma rank_better pop i j : (forall x, In x pop -> good x) -> i < length pop -> j < length pop -> rank view lex pop i <= rank view lex pop j ->
    ~ better (view (nth j pop d)) (view (nth i pop d)).
  Proof.
    intros HV Hi Hj Hle HB. pose proof (order_perm pop HV) as HP. destruct (HL (map key pop)) as [_ HS]; [apply Forall_map, Forall_forall; intros a Ha; destruct (HV a Ha) as [[V1 V2] _]; split; auto|].
    destruct (pos_nth (order view lex pop) i) as [N1 N2]; [apply (perm_seq_In _ _ i HP); auto|]. destruct (pos_nth (order view lex pop) j) as [M1 M2]; [apply (perm_seq_In _ _ j HP); auto|].
    unfold rank in Hle. destruct (Nat.eq_dec (pos i (order view lex pop)) (pos j (order view lex pop))) as [E|E].
    - rewrite E, M1 in N1. subst j. now apply (better_irrefl (view (nth i pop d))).
    - specialize (HS _ _ ltac:(apply Nat.le_neq; split; [exact Hle|exact E]) M2). change (lex (map key pop)) with (order view lex pop) in HS. rewrite N1, M1 in HS.
      assert (KN : forall t, t < length pop -> nth t (map key pop) (f_nan, f_nan) = key (nth t pop d)) by (intros t Ht; rewrite (nth_indep _ _ (key d)) by (rewrite map_length; exact Ht); apply (map_nth key)).
      rewrite (KN i Hi), (KN j Hj) in HS. pose proof (pair_better _ _ (HV _ (nth_In pop d Hj)) (HV _ (nth_In pop d Hi)) HB) as PB. cbv beta in HS, PB. congruence.
  Qed.
  Lemma min_rank_spec (r : nat -> nat) msg : forall i0, In (min_rank r i0 msg) (i0 :: msg) /\ forall j, In j (i0 :: msg) -> r (min_rank r i0 msg) <= r j.
  Proof.
    clear. unfold min_rank. induction msg as [|m msg IH]; intros i0; cbn [fold_left].
    - split; [now left|]. intros j [<-|[]]. lia.
    - destruct (Nat.ltb_spec (r m) (r i0)) as [H|H].
      + destruct (IH m) as [I1 I2]. split; [now right|]. intros j [<-|Hj]; [specialize (I2 m (or_introl eq_refl)); lia|auto].
      + destruct (IH i0) as [I1 I2]. split; [destruct I1 as [I1|I1]; [now left|right; now right]|]. intros j [<-|[<-|Hj]]; [apply I2; now left|specialize (I2 i0 (or_introl eq_refl)); lia|apply I2; now right].
  Qed.
  Lemma isb_iff a b : isb view a b = true <-> better (view a) (view b).
  Proof.
    clear. unfold isb, better. destruct (o_feas (view a)) eqn:Ea, (o_feas (view b)) eqn:Eb; cbn [negb andb]; try (destruct (fltb _ _) eqn:Ef); intuition congruence.
  Qed.
  Lemma messages_In nbs k j : In j (messages nbs k) <-> j < length nbs /\ In k (nth j nbs []).
  Proof.
    clear. unfold messages. rewrite in_flat_map. split.
    - intros (j' & H1 & H2). apply in_seq in H1. apply in_map_iff in H2. destruct H2 as (k' & <- & H2). apply filter_In in H2. destruct H2 as [H2 H3]. apply Nat.eqb_eq in H3. subst. split; [lia|auto].
    - intros [H1 H2]. exists j. split; [apply in_seq; lia|]. apply in_map_iff. exists k. split; [reflexivity|]. apply filter_In. split; [auto|apply Nat.eqb_refl].
  Qed.

  Lemma receive_spec nbs pbest lbest k : (forall x, In x (pbest ++ lbest) -> good x) -> length nbs <= length pbest -> k < length lbest ->
    let l := nth k lbest d in let l' := receive d view lex nbs pbest lbest k in
    (l' = l \/ better (view l') (view l) /\ exists j, j < length nbs /\ In k (nth j nbs []) /\ l' = nth j pbest d) /\
    (forall j, j < length nbs -> In k (nth j nbs []) -> ~ better (view (nth j pbest d)) (view l')).
  Proof.
    intros HV Hn Hk l l'. unfold l', receive. fold l. pose proof (messages_In nbs k) as MI. destruct (messages nbs k) as [|i0 msg].
    - split; [now left|]. intros j Hj Hin. exfalso. apply (proj2 (MI j)). auto.
    - cbv zeta. destruct (min_rank_spec (rank view lex pbest) msg i0) as [R1 R2]. set (i := min_rank (rank view lex pbest) i0 msg) in *. apply MI in R1. destruct R1 as [R1 R3].
      assert (Gp : forall x, In x pbest -> good x) by (intros x Hx; apply HV, in_or_app; auto). assert (Gl : good l) by (apply HV, in_or_app; right; now apply nth_In).
      assert (Best : forall j, j < length nbs -> In k (nth j nbs []) -> ~ better (view (nth j pbest d)) (view (nth i pbest d))).
      { intros j Hj Hin. apply rank_better; auto; try lia. apply R2, MI; auto. }
      destruct (isb view (nth i pbest d) l) eqn:E.
      + apply isb_iff in E. split; [right; split; [exact E|]; exists i; auto|exact Best].
      + split; [now left|]. intros j Hj Hin HB. destruct (better_weak (view (nth j pbest d)) (view (nth i pbest d)) (view l)) as [H|H]; auto.
        * apply Gp, nth_In; lia. * apply Gp, nth_In; lia. * apply Gl. * now apply (Best j Hj Hin). * apply isb_iff in H. congruence.
  Qed.

  (** the personal bests of EPPSO are those of the particle swarm *)
  Hypothesis Hfeas : hc = false -> forall a, o_feas (view a) = true.
  Lemma ep_fst nbs gens : forall st, fst (fold_left (ep_advance d view close hc lex nbs) gens st) = pso_run d view close hc gens (fst st).
  Proof. clear. induction gens as [|off gens IH]; intros st; cbn [fold_left pso_run]; [reflexivity|]. now rewrite IH. Qed.
  Lemma advance_length_ pop off : length (pso_advance d view close hc pop off) = length pop.
  Proof. apply length_improvement. Qed.
  Lemma advance_incl pop off : length off = length pop -> incl (pso_advance d view close hc pop off) (pop ++ off).
  Proof.
    clear HL Hfeas. intros Ho x Hx. unfold pso_advance in Hx. destruct (In_nth _ _ d Hx) as (k & Hk & <-). rewrite length_improvement in Hk.
    rewrite improvement_slot by auto. destruct (_ && _); apply in_or_app; [right|left]; apply nth_In; lia.
  Qed.

  Lemma receive_all nbs pbest lbest k : length lbest = length pbest -> k < length pbest -> nth k (map (receive d view lex nbs pbest lbest) (seq 0 (length pbest))) d = receive d view lex nbs pbest lbest k.
  Proof.
    clear. intros _ Hk. rewrite (nth_indep _ d (receive d view lex nbs pbest lbest 0)) by (rewrite map_length, seq_length; exact Hk). rewrite map_nth. now rewrite seq_nth.
  Qed.
  (** one iteration *)
  Lemma ep_step nbs st off : length (snd st) = length (fst st) -> length off = length (fst st) -> length nbs = length (fst st) -> (forall x, In x (fst st ++ snd st ++ off) -> good x) ->
    let st' := ep_advance d view close hc lex nbs st off in
    length (fst st') = length (fst st) /\ length (snd st') = length (fst st) /\ incl (fst st') (fst st ++ off) /\ incl (snd st') (snd st ++ fst st') /\
    forall k, k < length (fst st) -> let l := nth k (snd st) d in let l' := nth k (snd st') d in
      (l' = l \/ better (view l') (view l) /\ exists j, j < length (fst st) /\ In k (nth j nbs []) /\ l' = nth j (fst st') d) /\
      forall j, j < length (fst st) -> In k (nth j nbs []) -> ~ better (view (nth j (fst st') d)) (view l').
  Proof.
    destruct st as [pb lb]. intros H1 H2 H3 HG st'. cbn [fst snd] in H1, H2, H3, HG. unfold ep_advance in st'. cbn [fst snd] in st'. set (pb' := pso_advance d view close hc pb off) in *.
    assert (LP : length pb' = length pb) by apply advance_length_. assert (IP : incl pb' (pb ++ off)) by now apply advance_incl.
    unfold st'. cbn [fst snd]. split; [exact LP|]. split; [rewrite map_length, seq_length; exact LP|]. split; [exact IP|].
    assert (GG : forall x, In x (pb' ++ lb) -> good x).
    { intros x Hx. apply HG. apply in_app_or in Hx. rewrite !in_app_iff. destruct Hx as [Hx|Hx]; [apply IP, in_app_or in Hx|]; tauto. }
    assert (RS := fun k (Hk : k < length lb) => receive_spec nbs pb' lb k GG ltac:(lia) Hk). cbv zeta in RS.
    split.
    - intros x Hx. apply in_map_iff in Hx. destruct Hx as (k & <- & Hk). apply in_seq in Hk. rewrite in_app_iff. destruct (RS k ltac:(lia)) as [[-> | (_ & j & Hj & _ & ->)] _]; [left|right]; apply nth_In; lia.
    - intros k Hk. cbv zeta. rewrite receive_all by lia. destruct (RS k ltac:(lia)) as [R1 R2]. split.
      + destruct R1 as [R1|(R1 & j & R3 & R4 & R5)]; [now left|right]. split; [exact R1|]. exists j. split; [lia|auto].
      + intros j Hj. apply R2. lia.
  Qed.
  Lemma ep_all nbs gens : forall st, length (snd st) = length (fst st) -> length nbs = length (fst st) -> Forall (fun off => length off = length (fst st)) gens ->
    (forall x, In x (fst st ++ snd st ++ concat gens) -> good x) ->
    let fin := fold_left (ep_advance d view close hc lex nbs) gens st in
    length (fst fin) = length (fst st) /\ length (snd fin) = length (fst st) /\ incl (fst fin) (fst st ++ concat gens) /\ incl (snd fin) (fst st ++ snd st ++ concat gens) /\
    forall k, k < length (fst st) -> nth k (snd fin) d = nth k (snd st) d \/ better (view (nth k (snd fin) d)) (view (nth k (snd st) d)).
  Proof.
    induction gens as [|off gens IH]; intros st H1 H3 HF HG fin.
    - unfold fin. cbn [fold_left concat]. repeat (split; [auto using incl_refl, incl_appl|]). + intros x Hx. rewrite !in_app_iff. auto. + intros k Hk. now left.
    - apply Forall_cons_iff in HF. destruct HF as [Ho HF]. cbn [concat] in HG.
      destruct (ep_step nbs st off H1 Ho H3) as (S1 & S2 & S3 & S4 & S5); [intros x Hx; apply HG; rewrite !in_app_iff in *; tauto|].
      unfold fin. cbn [fold_left]. set (st' := ep_advance d view close hc lex nbs st off) in *.
      destruct (IH st') as (I1 & I2 & I3 & I4 & I5); [lia|lia|rewrite S1; exact HF| |].
      { intros x Hx. apply HG. rewrite !in_app_iff in *. destruct Hx as [Hx|[Hx|Hx]]; [apply S3, in_app_or in Hx; tauto| |tauto]. apply S4, in_app_or in Hx. destruct Hx as [Hx|Hx]; [tauto|]. apply S3, in_app_or in Hx. tauto. }
      cbn [concat]. split; [lia|]. split; [lia|]. split; [|split].
      + intros x Hx. apply I3 in Hx. rewrite !in_app_iff in *. destruct Hx as [Hx|Hx]; [apply S3, in_app_or in Hx; tauto|tauto].
      + intros x Hx. apply I4 in Hx. rewrite !in_app_iff in *. destruct Hx as [Hx|[Hx|Hx]]; [apply S3, in_app_or in Hx; tauto| |tauto]. apply S4, in_app_or in Hx. destruct Hx as [Hx|Hx]; [tauto|]. apply S3, in_app_or in Hx. tauto.
      + intros k Hk. destruct (S5 k Hk) as [S6 _]. cbv zeta in S6. rewrite S1 in I5. destruct (I5 k Hk) as [E|E]; destruct S6 as [E'|[E' _]]; rewrite ?E, ?E' in *; auto. right. eapply better_trans; eauto.
  Qed.
End EP.

Lemma pso_history {A} (d : A) view close hc gens : forall pop, (hc = false -> forall a, o_feas (view a) = true) -> Forall (fun off => length off = length pop) gens ->
  forall k, k < length pop -> nth k (pso_run d view close hc gens pop) d = nth k pop d \/ better (view (nth k (pso_run d view close hc gens pop) d)) (view (nth k pop d)).
Proof.
  induction gens as [|off gens IH]; intros start Hf HG k Hk; cbn [pso_run]; [now left|].
  apply Forall_cons_iff in HG. destruct HG as [Ho HG]. assert (LA : length (pso_advance d view close hc start off) = length start) by apply length_improvement.
  assert (X : nth k (pso_advance d view close hc start off) d = nth k start d \/ better (view (nth k (pso_advance d view close hc start off) d)) (view (nth k start d))).
  { unfold pso_advance. destruct (C14_history A d view hc [(off, dup_idx d close off start)] start Hf) as [_ H]; [now repeat constructor|]. exact (H k Hk). }
  destruct (IH (pso_advance d view close hc start off) Hf ltac:(now rewrite LA) k ltac:(now rewrite LA)) as [E|E]; [rewrite E; exact X|]. right. destruct X as [X|X]; [now rewrite X in E|eapply better_trans; eauto].
Qed.
(** C94: over any run EPPSO reports exactly one evaluated solution, and no position ever evaluated beats it *)
Theorem C94_optimum (A : Type) (d : A) view close hc lex nbs gens init : (hc = false -> forall a, o_feas (view a) = true) -> lex_ok lex ->
  init <> [] -> Forall (fun off => length off = length init) gens ->
  deterministic view close (visited init gens) -> (forall x, In x (visited init gens) -> vok (view x) /\ consistent (view x)) ->
  let final := fst (ep_run d view close hc lex nbs init gens) in
  length final = length init /\ incl final (visited init gens) /\
  exists o, de_opt d view lex final = [o] /\ In o (visited init gens) /\ forall x, In x (visited init gens) -> ~ better (view x) (view o).
Proof.
  intros Hf HL Hne HG HD HV final. unfold final, ep_run. rewrite ep_fst. cbn [fst].
  destruct (pso_covers d view close hc Hf gens init HG HD ltac:(intros x Hx; apply HV; auto)) as (R1 & R2 & R3). split; [exact R1|]. split; [exact R2|].
  set (fin := pso_run d view close hc gens init) in *. destruct (opt_spec d view lex fin HL) as (o & O1 & O2 & O3); [destruct fin; [destruct init; [congruence|discriminate]|discriminate]|intros x Hx; apply HV; auto|].
  exists o. split; [exact O1|]. split; [auto|]. intros x Hx H. destruct (R3 x Hx) as (b & Hb & Hnb).
  destruct (better_weak (view x) (view b) (view o)) as [H1|H1]; auto; try (apply HV; auto). apply (O3 b Hb H1).
Qed.
(** C94: the same for NRBO, whose population is the sampled one, sorted *)
Theorem C94_nrbo (A : Type) (d : A) view close hc lex gens init : (hc = false -> forall a, o_feas (view a) = true) -> lex_ok lex ->
  init <> [] -> Forall (fun off => length off = length init) gens ->
  deterministic view close (visited init gens) -> (forall x, In x (visited init gens) -> vok (view x) /\ consistent (view x)) ->
  let start := nrbo_init d view lex init in let final := nrbo_run d view close hc lex init gens in
  Permutation start init /\ (forall i j, i < j -> j < length start -> ~ better (view (nth j start d)) (view (nth i start d))) /\
  length final = length init /\ incl final (visited init gens) /\
  (forall k, k < length init -> nth k final d = nth k start d \/ better (view (nth k final d)) (view (nth k start d))) /\
  exists o, de_opt d view lex final = [o] /\ In o (visited init gens) /\ forall x, In x (visited init gens) -> ~ better (view x) (view o).
Proof.
  intros Hf HL Hne HG HD HV start final. assert (Gi : forall x, In x init -> good view x) by (intros x Hx; apply HV, in_or_app; auto).
  pose proof (order_perm view lex HL init Gi) as HP.
  assert (PS : Permutation start init) by (apply Permutation_trans with (gather d init (seq 0 (length init))); [unfold start, nrbo_init, gather; now apply Permutation_map|rewrite gather_seq; apply Permutation_refl]).
  assert (LS : length start = length init) by now apply Permutation_length.
  assert (EQ : forall x, In x (visited start gens) <-> In x (visited init gens)).
  { intros x. unfold visited. rewrite !in_app_iff. split; intros [H|H]; auto; left; [eapply Permutation_in; eauto|eapply Permutation_in; [apply Permutation_sym|]; eauto]. }
  split; [exact PS|]. split.
  { intros i j Hij Hj. unfold start, nrbo_init. rewrite !nth_gather by (unfold start, nrbo_init in Hj; rewrite length_gather in Hj; lia).
    unfold start, nrbo_init in Hj. rewrite length_gather in Hj.
    assert (B : forall t, t < length (order view lex init) -> nth t (order view lex init) 0 < length init) by (intros t Ht; apply (perm_seq_In _ _ _ HP), nth_In; auto).
    apply (rank_better d view lex HL); auto; [apply B; lia|]. unfold rank.
    assert (PN : forall t, t < length (order view lex init) -> pos (nth t (order view lex init) 0) (order view lex init) = t).
    { intros t Ht. destruct (pos_nth (order view lex init) (nth t (order view lex init) 0)) as [N1 N2]; [now apply nth_In|]. assert (ND : NoDup (order view lex init)) by (eapply perm_seq_NoDup; eauto). eapply (proj1 (NoDup_nth _ 0) ND); eauto. }
    rewrite !PN by lia. lia. }
  assert (HG' : Forall (fun off => length off = length start) gens) by now rewrite LS.
  destruct (pso_covers d view close hc Hf gens start HG') as (R1 & R2 & R3); [intros a b Ha Hb; apply HD; now apply EQ|intros x Hx; apply HV; now apply EQ|]. change (pso_run d view close hc gens start) with final in R1, R2, R3.
  split; [lia|]. split; [intros x Hx; now apply EQ, R2|]. split.
  { intros k Hk. apply (pso_history d view close hc gens start Hf HG'). now rewrite LS. }
  destruct (opt_spec d view lex final HL) as (o & O1 & O2 & O3); [destruct final; [destruct init; [congruence|cbn in *; lia]|discriminate]|intros x Hx; apply HV, EQ; auto|].
  exists o. split; [exact O1|]. split; [now apply EQ, R2|]. intros x Hx H. apply EQ in Hx. destruct (R3 x Hx) as (b & Hb & Hnb).
  destruct (better_weak (view x) (view b) (view o)) as [H1|H1]; auto; try (apply HV, EQ; auto). apply (O3 b Hb H1).
Qed.

(** C94: in one iteration the local best of a particle stays or is replaced by a strictly better personal best of one of the particles it hears from, and afterwards none of those beats it *)
Theorem C94_local_best (A : Type) (d : A) view close hc lex nbs gens init off : lex_ok lex -> length nbs = length init ->
  Forall (fun off => length off = length init) (gens ++ [off]) -> (forall x, In x (visited init (gens ++ [off])) -> vok (view x) /\ consistent (view x)) ->
  let '(pbest, lbest) := ep_run d view close hc lex nbs init gens in let '(pbest', lbest') := ep_run d view close hc lex nbs init (gens ++ [off]) in
  length pbest' = length init /\ length lbest' = length init /\ incl lbest' (visited init (gens ++ [off])) /\
  forall k, k < length init ->
    (nth k lbest' d = nth k lbest d \/ better (view (nth k lbest' d)) (view (nth k lbest d)) /\ exists j, j < length init /\ In k (nth j nbs []) /\ nth k lbest' d = nth j pbest' d) /\
    forall j, j < length init -> In k (nth j nbs []) -> ~ better (view (nth j pbest' d)) (view (nth k lbest' d)).
Proof.
  intros HL Hn HG HV. unfold ep_run. rewrite fold_left_app. cbn [fold_left]. apply Forall_app in HG. destruct HG as [HG Ho]. apply Forall_inv in Ho.
  assert (HV' : forall x, In x (init ++ concat gens ++ off) -> good view x) by (intros x Hx; apply HV; unfold visited; rewrite concat_app; cbn [concat]; now rewrite app_nil_r).
  destruct (ep_all d view close hc lex HL nbs gens (init, init)) as (A1 & A2 & A3 & A4 & _); cbn [fst snd]; auto; [intros x Hx; apply HV'; rewrite !in_app_iff in *; tauto|].
  set (st := fold_left (ep_advance d view close hc lex nbs) gens (init, init)) in *. cbn [fst snd] in *.
  destruct (ep_step d view close hc lex HL nbs st off) as (S1 & S2 & S3 & S4 & S5); [lia|lia|lia| |].
  { intros x Hx. apply HV'. rewrite !in_app_iff in *. destruct Hx as [Hx|[Hx|Hx]]; [apply A3, in_app_or in Hx; tauto|apply A4 in Hx; rewrite !in_app_iff in Hx; tauto|tauto]. }
  set (st' := ep_advance d view close hc lex nbs st off) in *. destruct st as [pb lb], st' as [pb' lb']. cbn [fst snd] in *. rewrite A1 in S5.
  split; [lia|]. split; [lia|]. split; [|exact S5]. intros x Hx. unfold visited. rewrite concat_app. cbn [concat]. rewrite app_nil_r. apply S4, in_app_or in Hx. rewrite !in_app_iff.
  destruct Hx as [Hx|Hx]; [apply A4 in Hx; rewrite !in_app_iff in Hx; tauto|]. apply S3, in_app_or in Hx. destruct Hx as [Hx|Hx]; [apply A3, in_app_or in Hx; tauto|tauto].
Qed.
(** C94: with the star topology every particle hears from every particle: after the first iteration no position ever evaluated beats the local best of any particle *)
Theorem C94_star (A : Type) (d : A) view close hc lex gens init : (hc = false -> forall a, o_feas (view a) = true) -> lex_ok lex -> gens <> [] ->
  Forall (fun off => length off = length init) gens -> deterministic view close (visited init gens) -> (forall x, In x (visited init gens) -> vok (view x) /\ consistent (view x)) ->
  let lbest := snd (ep_run d view close hc lex (star_neighbors (length init)) init gens) in
  length lbest = length init /\ forall l, In l lbest -> In l (visited init gens) /\ forall x, In x (visited init gens) -> ~ better (view x) (view l).
Proof.
  intros Hf HL Hne HG HD HV. destruct (exists_last Hne) as (gens' & off & E). subst gens. set (nbs := star_neighbors (length init)).
  assert (Ln : length nbs = length init) by (unfold nbs, star_neighbors; now rewrite map_length, seq_length).
  pose proof (C94_local_best A d view close hc lex nbs gens' init off HL Ln HG HV) as HLB.
  pose proof (ep_fst d view close hc lex nbs (gens' ++ [off]) (init, init)) as EF. fold (ep_run d view close hc lex nbs init (gens' ++ [off])) in EF.
  destruct (pso_covers d view close hc Hf (gens' ++ [off]) init HG HD ltac:(intros x Hx; apply HV; auto)) as (R1 & R2 & R3). cbn [fst] in EF. rewrite <- EF in R1, R2, R3.
  destruct (ep_run d view close hc lex nbs init gens') as [pb lb]. destruct (ep_run d view close hc lex nbs init (gens' ++ [off])) as [pb' lb']. cbn [fst snd] in *.
  destruct HLB as (H1 & H2 & H3 & H4). split; [exact H2|]. intros l Hl. split; [now apply H3|]. intros x Hx HB.
  destruct (In_nth _ _ d Hl) as (k & Hk & <-). rewrite H2 in Hk. destruct (H4 k Hk) as [_ H5]. destruct (R3 x Hx) as (b & Hb & Hnb). destruct (In_nth _ _ d Hb) as (j & Hj & <-). rewrite H1 in Hj.
  destruct (better_weak (view x) (view (nth j pb' d)) (view (nth k lb' d))) as [H|H]; [apply HV; auto|apply HV, R2; auto|apply HV, H3; auto|exact HB|exact (Hnb H)|]. apply (H5 j Hj); [|exact H].
  unfold nbs, star_neighbors. rewrite (nth_indep _ _ ((fun _ => seq 0 (length init)) 0)) by (rewrite map_length, seq_length; exact Hj). rewrite (map_nth (fun _ => seq 0 (length init)) _ 0). apply in_seq. lia.
Qed.
Lemma ring_nth N j k : j < N -> (In k (nth j (ring_neighbors N) []) <-> (j + (N - 1)) mod N = k \/ j = k \/ (j + 1) mod N = k).
Proof.
  intros Hj. assert (E : nth j (ring_neighbors N) [] = [(j + (N - 1)) mod N; j; (j + 1) mod N]).
  { unfold ring_neighbors. rewrite (nth_indep _ _ (map (fun j => (j + 0 + N - 1) mod N) [0; 1; 2])) by (rewrite map_length, seq_length; exact Hj).
    rewrite (map_nth (fun k => map (fun j => (j + k + N - 1) mod N) [0; 1; 2]) _ 0). rewrite seq_nth by exact Hj. cbn [map]. f_equal; [f_equal; lia|]. f_equal.
    - replace (1 + (0 + j) + N - 1) with (j + 1 * N) by lia. rewrite Nat.mod_add by lia. now apply Nat.mod_small.
    - f_equal. replace (2 + (0 + j) + N - 1) with (j + 1 + 1 * N) by lia. now rewrite Nat.mod_add by lia. }
  rewrite E. cbn [In]. tauto.
Qed.
(** C94: with the ring topology particle k hears from itself and from the particles before and after it *)
Theorem C94_ring N k j : k < N -> (In j (messages (ring_neighbors N) k) <-> j < N /\ (j = k \/ j = (k + 1) mod N \/ k = (j + 1) mod N)).
Proof.
  intros Hk. rewrite messages_In. assert (LN : length (ring_neighbors N) = N) by (unfold ring_neighbors; now rewrite map_length, seq_length). rewrite LN.
  assert (P : j < N -> ((j + (N - 1)) mod N = k <-> j = (k + 1) mod N)).
  { intros Hj. destruct (Nat.eq_dec j 0) as [->|E1].
    - rewrite Nat.add_0_l, (Nat.mod_small (N - 1)) by lia. destruct (Nat.eq_dec (k + 1) N) as [E|E]; [rewrite E, Nat.mod_same by lia|rewrite Nat.mod_small by lia]; lia.
    - replace (j + (N - 1)) with (j - 1 + 1 * N) by lia. rewrite Nat.mod_add, Nat.mod_small by lia. destruct (Nat.eq_dec (k + 1) N) as [E|E]; [rewrite E, Nat.mod_same by lia|rewrite Nat.mod_small by lia]; lia. }
  split; intros [Hj H]; (split; [exact Hj|]); [rewrite ring_nth in H by exact Hj|rewrite ring_nth by exact Hj]; rewrite (P Hj) in *; intuition congruence.
Qed.
(** C94: and with the ring a particle only hears what the neighbours have found: it need not know the best solution *)
Theorem C94_ring_not_global_refuted : exists init gens, Forall (fun off => length off = length init) gens /\ 1 <= length gens /\
  exists l x, In l (snd (ep_run 9%Z zview Z.eqb false np_lex (ring_neighbors (length init)) init gens)) /\ In x (visited init gens) /\ better (zview x) (zview l).
Proof.
  exists [5; 6; 7; 8; 1]%Z, [[5; 6; 7; 8; 1]]%Z. split; [repeat constructor|]. split; [cbn; lia|]. exists 6%Z, 1%Z. split; [|split; [cbn; tauto|]].
  - assert (E : snd (ep_run 9%Z zview Z.eqb false np_lex (ring_neighbors 5) [5; 6; 7; 8; 1]%Z [[5; 6; 7; 8; 1]]%Z) = [1; 5; 6; 1; 1]%Z) by (vm_compute; reflexivity). cbn [length]. rewrite E. cbn; tauto.
  - unfold better. right. right. repeat split.
Qed.
(** "from the start the local best of the star topology is the best of the swarm" is false: the first generation uses each particle's own position *)
Theorem C94_star_start_refuted (A : Type) (d : A) view close hc lex nbs init : ep_run d view close hc lex nbs init [] = (init, init).
Proof. reflexivity. Qed.
Example C94_ex : let init := [5; 2; 7]%Z in let gens := [[4; 3; 1]; [6; 0; 1]]%Z in
  init <> [] /\ gens <> [] /\ Forall (fun off => length off = length init) gens /\ deterministic zview Z.eqb (visited init gens) /\ (forall x, In x (visited init gens) -> vok (zview x) /\ consistent (zview x)) /\
  ep_run 9%Z zview Z.eqb false np_lex (star_neighbors 3) init gens = ([4; 0; 1]%Z, [0; 0; 0]%Z) /\ nrbo_run 9%Z zview Z.eqb false np_lex init gens = [2; 0; 1]%Z.
Proof.
  split; [discriminate|]. split; [discriminate|]. split; [repeat constructor|]. split; [intros a b _ _ H; apply Z.eqb_eq in H; now subst|]. split; [|split; vm_compute; reflexivity].
  intros x Hx. cbn in Hx. decompose [or] Hx; subst; try (split; split; reflexivity). contradiction.
Qed.

(** ** movement *)
Local Open Scope Q_scope.
Lemma clamp_in x l u : l <= u -> l <= clampQ x l u /\ clampQ x l u <= u.
Proof. apply stb_in. Qed.
(** C94: a particle in the box stays there; the velocity it takes along is the way it went, and never exceeds the limit *)
Theorem C94_movement v x p l w c1 c2 r1 r2 V_max xl xu u1 u2 : xl <= x -> x <= xu -> match V_max with Some m => 0 <= m | None => True end ->
  0 <= u1 -> u1 < 1 -> 0 <= u2 -> u2 < 1 ->
  let '(x', v') := ep_move v x p l w c1 c2 r1 r2 V_max xl xu u1 u2 in
  xl <= x' /\ x' <= xu /\ x' == x + v' /\ match V_max with Some m => - (m * (xu - xl)) <= v' /\ v' <= m * (xu - xl) | None => True end /\
  (let raw := w * v + c1 * r1 * (p - x) + c2 * r2 * (l - x) in
   xl <= x + raw /\ x + raw <= xu -> match V_max with Some m => - (m * (xu - xl)) <= raw /\ raw <= m * (xu - xl) | None => True end -> v' == raw).
Proof.
  intros H1 H2 HM U1 U2 U3 U4. unfold ep_move. fold (ep_raw v x p l w c1 c2 r1 r2). set (raw := ep_raw v x p l w c1 c2 r1 r2).
  set (vp := match V_max with None => raw | Some m => clampQ raw (- m * (xu - xl)) (m * (xu - xl)) end). cbv zeta.
  destruct (random_init_box (x + vp) x xl xu u1 u2) as [B1 B2]; auto. split; [exact B1|]. split; [exact B2|]. split; [ring|].
  assert (Cases : let y := repair_random_init (x + vp) x xl xu u1 u2 in (xl <= x + vp /\ x + vp <= xu /\ y == x + vp) \/ (x + vp < xl /\ xl <= y /\ y <= x) \/ (xu < x + vp /\ x <= y /\ y <= xu)).
  { clear -H1 H2 U1 U2 U3 U4. unfold repair_random_init. pose proof (scale_range u1 (x - xl) U1 U2 ltac:(lra)). pose proof (scale_range u2 (xu - x) U3 U4 ltac:(lra)).
    cbv zeta. destruct (Qltb (x + vp) xl) eqn:E1; qb.
    - right. left. split; [exact E1|]. match goal with |- context [Qltb xu ?t] => destruct (Qltb xu t) eqn:E2 end; qb; lra.
    - destruct (Qltb xu (x + vp)) eqn:E2; qb; [right; right; lra|left; lra]. }
  cbv zeta in Cases. set (y := repair_random_init (x + vp) x xl xu u1 u2) in *. split.
  - destruct V_max as [m|]; [|exact Logic.I]. assert (P : 0 <= m * (xu - xl)) by (apply Qmult_le_0_compat; lra). destruct (clamp_in raw (- m * (xu - xl)) (m * (xu - xl)) ltac:(lra)) as [C1 C2]. change (clampQ raw (- m * (xu - xl)) (m * (xu - xl))) with vp in C1, C2.
    assert (E : - m * (xu - xl) == - (m * (xu - xl))) by ring. rewrite E in C1. lra.
  - intros [R1 R2] HR. assert (E : vp == raw).
    { unfold vp. destruct V_max as [m|]; [|reflexivity]. change clampQ with set_to_bounds. rewrite stb_id; [reflexivity| |lra]. assert (E : - m * (xu - xl) == - (m * (xu - xl))) by ring. rewrite E. apply HR. }
    rewrite <- E in R1, R2. rewrite <- E. fold (ep_raw v x p l w c1 c2 r1 r2) in R1, R2. lra.
Qed.
(** "every generation samples new solutions" is false: with the default velocity zero and with every particle as its own local best, the first generation evaluates the initial
    positions a second time *)
Theorem C94_first_generation_refuted x w c1 c2 r1 r2 V_max xl xu u1 u2 : xl <= x -> x <= xu -> match V_max with Some m => 0 <= m | None => True end ->
  let '(x', v') := ep_move 0 x x x w c1 c2 r1 r2 V_max xl xu u1 u2 in x' == x /\ v' == 0.
Proof.
  intros H1 H2 HM. unfold ep_move. cbv zeta. set (raw := ep_raw 0 x x x w c1 c2 r1 r2). assert (E0 : raw == 0) by (unfold raw, ep_raw; ring).
  set (vp := match V_max with None => raw | Some m => clampQ raw (- m * (xu - xl)) (m * (xu - xl)) end).
  assert (E : vp == 0).
  { unfold vp. destruct V_max as [m|]; [|exact E0]. change clampQ with set_to_bounds. assert (P : 0 <= m * (xu - xl)) by (apply Qmult_le_0_compat; lra). assert (E : - m * (xu - xl) == - (m * (xu - xl))) by ring.
    rewrite stb_id; [exact E0| |]; lra. }
  unfold repair_random_init. destruct (Qltb (x + vp) xl) eqn:E1; qb; [lra|]. destruct (Qltb xu (x + vp)) eqn:E2; qb; [lra|]. split; lra.
Qed.
(** C94: NRBO's positions are in the box whatever its search rule computes *)
Theorem C94_nrbo_box computed x xl xu u1 u2 : xl <= x -> x <= xu -> 0 <= u1 -> u1 < 1 -> 0 <= u2 -> u2 < 1 ->
  let y := nrbo_position computed x xl xu u1 u2 in xl <= y /\ y <= xu /\ (xl <= computed -> computed <= xu -> y = computed).
Proof.
  intros H1 H2 U1 U2 U3 U4 y. destruct (random_init_box computed x xl xu u1 u2) as [B1 B2]; auto. split; [exact B1|]. split; [exact B2|]. intros C1 C2.
  unfold y, nrbo_position, repair_random_init. destruct (Qltb computed xl) eqn:E1; qb; [lra|]. destruct (Qltb xu computed) eqn:E2; qb; [lra|reflexivity].
Qed.
(** C94: NRBO's step factor goes from 1 to -1 over max_iteration iterations *)
Theorem C94_delta n N : 0 <= n -> n <= N -> 0 < N -> -1 <= nrbo_delta n N /\ nrbo_delta n N <= 1.
Proof.
  intros H1 H2 H3. unfold nrbo_delta. set (t := 1 - 2 * n / N). assert (T : -1 <= t /\ t <= 1).
  { assert (Q : 0 <= n / N /\ n / N <= 1) by (split; [apply Qle_shift_div_l|apply Qle_shift_div_r]; lra). assert (E : 2 * n / N == 2 * (n / N)) by (field; lra). unfold t. rewrite E. lra. }
  change (t ^ 5) with (t * (t * t * (t * t))). assert (S1 : 0 <= t * t /\ t * t <= 1) by (split; nra). set (s := t * t) in *. assert (S2 : 0 <= s * s /\ s * s <= 1) by (split; nra). nra.
Qed.
(** and grows without bound in a run that is longer than max_iteration *)
Theorem C94_delta_refuted n N : 0 < N -> N < n -> nrbo_delta n N < -1.
Proof.
  intros H1 H2. unfold nrbo_delta. set (t := 1 - 2 * n / N). assert (T : t < -1).
  { assert (Q : 1 < n / N) by (apply Qlt_shift_div_l; lra). assert (E : 2 * n / N == 2 * (n / N)) by (field; lra). unfold t. rewrite E. lra. }
  change (t ^ 5) with (t * (t * t * (t * t))). assert (S1 : 1 < t * t) by nra. set (s := t * t) in *. assert (S2 : 1 < s * s) by nra. nra.
Qed.
