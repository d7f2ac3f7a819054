(** * C96: what NSGA-II reports *)
From Coq Require Import List Arith Bool Lia Permutation ZArith.
From Verif Require Import Flt ListAux NpSort M_NDS M_Survival M_Optimum M_GDE3 S_Pareto S_NDS S_Survival P_Peel P_NDS1 P_Survival P_Survival2 P_Survival3 P_Survival4 P_Optimum Thm_Survival M_AGE Thm_AGE M_RankOpt Thm_GDE3 Thm_GDE3b.
Import ListNotations.
Local Open Scope nat_scope.

(** what the proof needs of [_do]: survivors, rank 0 exactly to the non-dominated ones, at least one of them survives *)
Definition ranks_ok {A} (obj : A -> list flt) (m : nat) (inner : list A -> nat -> list nat) (rank0 : list A -> nat -> nat -> bool) : Prop :=
  inner_ok (fun a => row_ok m (obj a)) inner /\
  forall p n, p <> [] -> Forall (fun a => row_ok m (obj a)) p -> n <= length p ->
    (forall i, In i (inner p n) -> (rank0 p n i = true <-> i < length p /\ forall j, j < length p -> ~ row_dom (map obj p) j i)) /\
    (0 < n -> exists i, In i (inner p n) /\ rank0 p n i = true).

Section Generic.
  Context {A : Type}.
  Variables (d : A) (cv : A -> flt) (feas : A -> bool) (obj : A -> list flt) (asort : list flt -> list nat) (m : nat).
  Variables (inner : list A -> nat -> list nat) (rank0 : list A -> nat -> nat -> bool).
  Hypotheses (Ha : asort_ok asort) (HI : ranks_ok obj m inner rank0).

  Lemma rank_optimum_spec hc n (pop : list A) :
    Forall (fun a => row_ok m (obj a)) pop -> (forall a, In a pop -> isnan (cv a) = false) -> (hc = false -> forall a, In a pop -> feas a = true) -> pop <> [] -> 0 < n ->
    let S := survival_do d cv feas asort inner true hc (Some n) pop in let opt := rank_optimum d cv feas asort inner rank0 hc n pop in
    opt <> [] /\ incl opt S /\
    ((exists a, In a pop /\ feas a = true) ->
       forall i, In i opt <-> In i S /\ feas (nth i pop d) = true /\ forall b, In b pop -> feas b = true -> ~ dominates (obj b) (obj (nth i pop d))) /\
    ((forall a, In a pop -> feas a = false) -> exists i, opt = [i] /\ forall b, In b pop -> fleb (cv (nth i pop d)) (cv b) = true).
  Proof.
    intros Hw Hcv Hhc Hpop Hn0 S opt. destruct HI as [HI1 HI2].
    destruct (survival_do_spec d cv feas asort Ha (fun a => row_ok m (obj a)) _ true hc (Some n) pop HI1 Hw) as [(S1 & S2 & S3) SC']. fold S in S1, S2, S3, SC'. assert (SC := SC' eq_refl). clear SC'.
    assert (LP : 0 < length pop) by (destruct pop; [congruence|simpl; lia]).
    assert (SN : S <> []) by (intros E; rewrite E in S3; simpl in S3; lia).
    assert (ANY : (exists a, In a pop /\ feas a = true) <-> existsb (fun i => feas (nth i pop d)) S = true).
    { rewrite existsb_exists. split.
      - intros (a & Ia & Fa). destruct (In_nth _ _ d Ia) as (j & Hj & Ej). destruct S as [|s S0] eqn:ES; [congruence|]. rewrite <- ES in *.
        destruct (feas (nth s pop d)) eqn:Fs; [exists s; split; [rewrite ES; now left|exact Fs]|].
        exists j. rewrite Ej. split; [|exact Fa]. destruct hc.
        + apply (proj1 (SC eq_refl) s j); auto; [rewrite ES; now left|now rewrite Ej].
        + rewrite (Hhc eq_refl) in Fs; [discriminate|]. apply nth_In, S2. rewrite ES. now left.
      - intros (i & Hi & Fi). exists (nth i pop d). split; [apply nth_In; auto|exact Fi]. }
    assert (KEY : (exists a, In a pop /\ feas a = true) -> (forall i, In i S -> (attr_rank0 d cv feas asort rank0 hc n pop i = true <-> feas (nth i pop d) = true /\ forall b, In b pop -> feas b = true -> ~ dominates (obj b) (obj (nth i pop d)))) /\
              exists i, In i S /\ attr_rank0 d cv feas asort rank0 hc n pop i = true).
    { intros EX. unfold attr_rank0. set (n' := Nat.min n (length pop)).
      destruct hc.
      - assert (EF : exists fe infe, split_by_feasibility d cv feas asort pop = (fe, infe)) by (destruct (split_by_feasibility d cv feas asort pop); eauto). destruct EF as (fe & infe & EF).
        pose proof (split_spec d cv feas asort Ha pop) as SP. rewrite EF in *. destruct SP as (F1 & F2 & F3 & F4 & F5 & F6). cbn [fst].
        assert (Lf : 0 < length fe). { destruct EX as (a & Ia & Fa). destruct (In_nth _ _ d Ia) as (j & Hj & Ej). assert (In j fe) by (apply F3; rewrite Ej; auto). destruct fe; [contradiction|simpl; lia]. }
        set (G := gather d pop fe). set (k := Nat.min (length fe) n').
        assert (LG : length G = length fe) by (unfold G; now rewrite length_gather).
        assert (WG : Forall (fun a => row_ok m (obj a)) G). { apply Forall_forall. intros x Hx. apply in_map_iff in Hx as (q & <- & Hq). rewrite Forall_forall in Hw. apply Hw, nth_In, F3, Hq. }
        assert (GN : G <> []) by (intros E; rewrite E in LG; simpl in LG; lia).
        destruct (HI2 G k GN WG ltac:(rewrite LG; unfold k; lia)) as [A1 A2]. rewrite LG in A1.
        assert (ES : exists tl, S = gather 0 fe (inner G k) ++ tl /\ incl tl infe).
        { unfold S, survival_do. replace (length pop =? 0) with false by (symmetry; apply Nat.eqb_neq; lia). cbv zeta. cbn [andb]. rewrite EF. replace (length fe =? 0) with false by (symmetry; apply Nat.eqb_neq; lia). fold n' k G.
          destruct (0 <? _); [eexists; split; [reflexivity|intros x Hx; now apply firstn_In in Hx]|exists []; split; [now rewrite app_nil_r|intros x []]]. }
        destruct ES as (tl & ES & Htl).
        assert (GE : forall q, q < length fe -> nth q (map obj G) [] = obj (nth (nth q fe 0) pop d)).
        { intros q Hq. rewrite (nth_indep _ [] (obj d)) by (rewrite map_length; lia). unfold G. rewrite map_nth, nth_gather by lia. reflexivity. }
        destruct (HI1 G k GN WG ltac:(rewrite LG; unfold k; lia)) as (IN1 & IN2 & IN3). rewrite LG in IN2.
        split.
        + intros i Hi. rewrite andb_true_iff. destruct (feas (nth i pop d)) eqn:Fi; [|split; [intros [? _]|intros [? _]]; discriminate].
          assert (Hi' : In i (gather 0 fe (inner G k))). { rewrite ES in Hi. apply in_app_iff in Hi. destruct Hi as [Hi|Hi]; [exact Hi|]. apply Htl, F4 in Hi. destruct Hi. congruence. }
          apply In_gather in Hi'. destruct Hi' as (q & Q1 & Q2). assert (Hq := IN2 q Q1). assert (PL : place i fe = q) by (rewrite <- Q2; now apply place_of). rewrite PL, (A1 q Q1). split.
          * intros [_ [B2 B3]]. split; [reflexivity|]. intros b Ib Fb. destruct (In_nth _ _ d Ib) as (j & Hj & Ej). assert (Jf : In j fe) by (apply F3; rewrite Ej; auto).
            destruct (place_nth fe j Jf) as [P1 P2]. specialize (B3 (place j fe) P1). unfold row_dom in B3. rewrite !GE, P2, Q2, Ej in B3 by lia. exact B3.
          * intros [B1 B2]. split; [reflexivity|]. split; [exact Hq|]. intros j Hj. unfold row_dom. rewrite !GE, Q2 by lia. assert (Jf : In (nth j fe 0) fe) by (apply nth_In; lia). apply F3 in Jf. destruct Jf. apply B2; auto. now apply nth_In.
        + destruct (A2 ltac:(unfold k, n'; lia)) as (q & Q1 & Q2). exists (nth q fe 0). assert (Hq := IN2 q Q1).
          assert (Jf : In (nth q fe 0) fe) by (apply nth_In; lia). split.
          * rewrite ES. apply in_app_iff. left. apply In_gather. exists q. auto.
          * rewrite andb_true_iff. split; [apply F3; auto|]. rewrite place_of by auto. exact Q2.
      - assert (ES : S = inner pop n'). { unfold S, survival_do. replace (length pop =? 0) with false by (symmetry; apply Nat.eqb_neq; lia). reflexivity. }
        destruct (HI2 pop n' Hpop Hw ltac:(unfold n'; lia)) as [A1 A2].
        assert (GE : forall q, q < length pop -> nth q (map obj pop) [] = obj (nth q pop d)) by (intros q Hq; rewrite (nth_indep _ [] (obj d)) by (rewrite map_length; lia); apply map_nth).
        split.
        + intros i Hi. rewrite ES in Hi. rewrite (A1 i Hi). split.
          * intros [B1 B2]. split; [apply Hhc; auto; now apply nth_In|]. intros b Ib _. destruct (In_nth _ _ d Ib) as (j & Hj & Ej). specialize (B2 j Hj). unfold row_dom in B2. now rewrite !GE, Ej in B2 by auto.
          * intros [B1 B2]. assert (Hi' : i < length pop) by (apply S2; now rewrite ES).
            split; [exact Hi'|]. intros j Hj. unfold row_dom. rewrite !GE by auto. apply B2; [now apply nth_In|]. apply Hhc; auto. now apply nth_In.
        + rewrite ES. apply A2. unfold n'. lia. }
    unfold opt, rank_optimum. fold S. destruct (existsb (fun i => feas (nth i pop d)) S) eqn:EB.
    - assert (EX := proj2 ANY eq_refl). destruct (KEY EX) as [K1 (i & K2 & K3)].
      assert (IF : forall j, In j (filter (attr_rank0 d cv feas asort rank0 hc n pop) S) <-> In j S /\ feas (nth j pop d) = true /\ forall b, In b pop -> feas b = true -> ~ dominates (obj b) (obj (nth j pop d))).
      { intros j. rewrite filter_In. split; intros [J1 J2]; split; auto; apply K1; auto. }
      split; [intros E; assert (In i []) by (rewrite <- E; apply filter_In; auto); contradiction|]. split; [intros j Hj; apply filter_In in Hj; tauto|]. split; [intros _; exact IF|].
      intros Hno. destruct EX as (a & Ia & Fa). rewrite Hno in Fa; [discriminate|auto].
    - split; [discriminate|]. assert (VK : vec_ok (map (fun i => cv (nth i pop d)) S)). { apply Forall_forall. intros z Hz. apply in_map_iff in Hz as (j & <- & Hj). apply Hcv, nth_In. auto. }
      destruct (np_argmin_spec (map (fun i => cv (nth i pop d)) S)) as [M1 M2]; [destruct S; [congruence|discriminate]|exact VK|]. rewrite map_length in M1, M2. set (a := np_argmin (map (fun i => cv (nth i pop d)) S)) in *.
      assert (Ia : In (nth a S 0) S) by now apply nth_In.
      split; [intros j [<-|[]]; exact Ia|]. split; [intros EX; apply ANY in EX; congruence|].
      intros Hno. exists (nth a S 0). split; [reflexivity|]. intros b Ib.
      assert (KN : forall t, t < length S -> nth t (map (fun i => cv (nth i pop d)) S) f_nan = cv (nth (nth t S 0) pop d)).
      { intros t Ht. rewrite (nth_indep _ f_nan (cv (nth 0 pop d))) by (rewrite map_length; lia). exact (map_nth (fun i => cv (nth i pop d)) S 0 t). }
      destruct (In_nth _ _ d Ib) as (j & Hj & Ej). destruct (in_dec Nat.eq_dec j S) as [Hin|Hout].
      + destruct (In_nth _ _ 0 Hin) as (t & Ht & Et). specialize (M2 t Ht). rewrite !KN, Et, Ej in M2 by auto. exact M2.
      + destruct hc.
        * destruct (SC eq_refl) as [_ SC2]. apply nlt_le; [rewrite <- Ej; apply Hcv, nth_In; auto|apply Hcv, nth_In; auto|]. rewrite <- Ej. apply SC2; auto; apply Hno, nth_In; auto.
        * exfalso. pose proof (Hhc eq_refl b Ib) as X. rewrite Hno in X by auto. discriminate.
  Qed.
End Generic.

Lemma rank_zero_iff m F i : rect m F -> mat_ok F -> (pareto_rank F i 0 <-> i < length F /\ forall j, j < length F -> ~ row_dom F j i).
Proof.
  intros HR HM. split.
  - intros (full & HP & Hf). pose proof HP as (HPP & HN & HF). pose proof (nth_In_lt _ _ _ Hf) as Hlt. apply (HF 0 i Hlt) in Hf. destruct Hf as (H1 & _ & H3). split; [exact H1|]. intros j Hj. apply H3; auto. intros (k & Hk & _). lia.
  - intros [H1 H2]. destruct (C11_rank_exists_unique m F i HR HM H1) as [(r & full & HP & Hf) _]. exists full. split; [exact HP|]. pose proof HP as (_ & _ & HF). pose proof (nth_In_lt _ _ _ Hf) as Hlt. apply HF; [lia|]. split; [exact H1|]. split; [intros (k & Hk & _); lia|]. auto.
Qed.
Lemma rank_zero_exists m F : rect m F -> mat_ok F -> F <> [] -> exists j, pareto_rank F j 0.
Proof.
  intros HR HM Hne. assert (L : 0 < length F) by (destruct F; [congruence|simpl; lia]). destruct (C11_rank_exists_unique m F 0 HR HM L) as [(r & full & HP & Hf) _].
  pose proof HP as (_ & HN & _). pose proof (nth_In_lt _ _ _ Hf) as Hlt. specialize (HN 0 ltac:(lia)). destruct (nth 0 full []) as [|j l] eqn:E; [congruence|]. exists j, full. split; [exact HP|]. rewrite E. now left.
Qed.
Lemma rac_ranks_ok {A} (obj : A -> list flt) m dsort nds crowding : dsort_ok dsort -> (forall M r, length (crowding M r) = length M) -> nds_ok m nds ->
  ranks_ok obj m (rac_inner obj dsort nds crowding) (rac_rank0 obj dsort nds crowding).
Proof.
  intros Hd Hc Hn. split; [now apply inner_is_ok|]. intros p n Hne Hw Hle. destruct (P_Survival3.rows_ok m obj p Hw) as [HR HM]. set (F := map obj p) in *. assert (LF : length F = length p) by apply map_length.
  destruct (C11_rank_and_crowding m F crowding dsort nds n Hc Hd Hn) as ((R1 & R1' & R1'') & R2 & R3); auto; [unfold F; destruct p; [congruence|discriminate]|lia|]. cbv zeta in *. change (rs_surv (rac_do nds crowding dsort F n)) with (rac_inner obj dsort nds crowding p n) in R2, R3, R1, R1', R1''.
  assert (RZ : forall i, In i (rac_inner obj dsort nds crowding p n) -> (rac_rank0 obj dsort nds crowding p n i = true <-> pareto_rank F i 0)).
  { intros i Hi. destruct (C11_rank_exists_unique m F i HR HM (R1' i Hi)) as [(r & Hr) U]. destruct (R2 i r Hi Hr) as [E _]. unfold rac_rank0. fold F. rewrite E. split.
    - destruct r; [auto|discriminate].
    - intros H. now rewrite (U r 0 Hr H). }
  split.
  - intros i Hi. rewrite (RZ i Hi), (rank_zero_iff m F i HR HM). now rewrite LF.
  - intros Hn0. destruct (rank_zero_exists m F HR HM) as (j & Hj); [unfold F; destruct p; [congruence|discriminate]|].
    destruct (in_dec Nat.eq_dec j (rac_inner obj dsort nds crowding p n)) as [Hin|Hout]; [exists j; split; [exact Hin|now apply RZ]|].
    destruct (rac_inner obj dsort nds crowding p n) as [|i S0] eqn:ES; [simpl in R1''; lia|]. rewrite <- ES in *. assert (Hi : In i (rac_inner obj dsort nds crowding p n)) by (rewrite ES; now left). exists i. split; [exact Hi|]. apply RZ; [exact Hi|].
    destruct (C11_rank_exists_unique m F i HR HM (R1' i Hi)) as [(r & Hr) _]. pose proof (proj1 (rank_zero_iff m F j HR HM) Hj) as [Hjl _]. destruct (R3 i j r 0 Hi Hjl Hout Hr Hj) as [H _]. now replace r with 0 in Hr by lia.
Qed.

(** the optimum NSGA-II reports after a generation that merged the population [pop] and the offspring [infills] *)
Definition nsga2_optimum {A} (d : A) cv feas obj asort dsort nds crowding hc n (pop infills : list A) : list A :=
  gather d (pop ++ infills) (rank_optimum d cv feas asort (rac_inner obj dsort nds crowding) (rac_rank0 obj dsort nds crowding) hc n (pop ++ infills)).
(** C96: one generation (the initial one: [pop] = [] and n the number of initial solutions).  The reported solutions are survivors; if a feasible solution is there they are exactly the feasible
    survivors which no feasible solution of the merged population dominates; otherwise the one solution with least violation *)
Theorem C96_generation : forall (A : Type) (d : A) cv feas obj m asort dsort nds crowding hc n (pop infills : list A), asort_ok asort -> dsort_ok dsort -> (forall M r, length (crowding M r) = length M) -> nds_ok m nds ->
  let all := pop ++ infills in evaluated cv feas obj m hc all -> all <> [] -> 0 < n ->
  let new := gather d all (nsga2_advance d cv feas obj asort dsort nds crowding hc n pop infills) in let opt := nsga2_optimum d cv feas obj asort dsort nds crowding hc n pop infills in
  opt <> [] /\ incl opt new /\
  ((exists a, In a all /\ feas a = true) -> forall x, In x opt <-> In x new /\ feas x = true /\ forall b, In b all -> feas b = true -> ~ dominates (obj b) (obj x)) /\
  ((forall a, In a all -> feas a = false) -> exists x, opt = [x] /\ forall b, In b all -> fleb (cv x) (cv b) = true).
Proof.
  intros A d cv feas obj m asort dsort nds crowding hc n pop infills Ha Hd Hc Hn all (E1 & E2 & E3 & E4) Hne Hn0 new opt.
  rewrite Forall_forall in E1. destruct (rank_optimum_spec d cv feas obj asort m _ _ Ha (rac_ranks_ok obj m dsort nds crowding Hd Hc Hn) hc n all) as (O1 & O2 & O3 & O4); auto.
  { apply Forall_forall. intros a Ia. now apply E1. } { intros a Ia. now apply E1. }
  fold (nsga2_advance d cv feas obj asort dsort nds crowding hc n pop infills) in O2, O3. unfold opt, nsga2_optimum. fold all. set (J := rank_optimum d cv feas asort (rac_inner obj dsort nds crowding) (rac_rank0 obj dsort nds crowding) hc n all) in *.
  split; [unfold gather; destruct J; [congruence|discriminate]|]. split; [intros x Hx; apply in_map_iff in Hx as (i & <- & Hi); apply in_map_iff; exists i; auto|]. split.
  - intros EX x. split.
    + intros Hx. apply in_map_iff in Hx as (i & <- & Hi). apply (O3 EX) in Hi. destruct Hi as (Hi & Fi & Ui). split; [apply in_map_iff; exists i; auto|]. auto.
    + intros (Hx & Fx & Ux). apply in_map_iff in Hx as (i & <- & Hi). apply in_map_iff. exists i. split; [reflexivity|]. apply (O3 EX). auto.
  - intros Hno. destruct (O4 Hno) as (i & Ei & Hi). exists (nth i all d). split; [rewrite Ei; reflexivity|exact Hi].
Qed.

(** C96: a whole run.  If the feasible solutions nobody beats always fitted into the population, the report is exactly the set of non-dominated feasible solutions among all evaluated ones;
    as long as no feasible one was evaluated it is a solution with the least violation of all *)
Theorem C96_run : forall (A : Type) (d : A) cv feas obj m asort dsort nds crowding hc n gens (pop infills : list A), asort_ok asort -> dsort_ok dsort -> (forall M r, length (crowding M r) = length M) -> nds_ok m nds ->
  0 < n -> length pop = n -> let ever := pop ++ concat (gens ++ [infills]) in evaluated cv feas obj m hc ever ->
  let last := nsga2_run d cv feas obj asort dsort nds crowding hc n pop gens in let opt := nsga2_optimum d cv feas obj asort dsort nds crowding hc n last infills in
  opt <> [] /\ incl opt ever /\
  ((exists a, In a ever /\ feas a = true) -> Forall (fun x => feas x = true) opt) /\
  ((forall a, In a ever -> feas a = false) -> exists x, opt = [x] /\ forall b, In b ever -> fleb (cv x) (cv b) = true) /\
  ((exists a, In a ever /\ feas a = true) -> nsga2_fits d cv feas obj asort dsort nds crowding hc n pop (gens ++ [infills]) ->
     forall x, In x opt <-> In x ever /\ feas x = true /\ forall b, In b ever -> feas b = true -> ~ dominates (obj b) (obj x)).
Proof.
  intros A d cv feas obj m asort dsort nds crowding hc n gens pop infills Ha Hd Hc Hn Hn0 LP ever HE last opt.
  assert (EE : forall x, In x ever <-> In x (pop ++ concat gens) \/ In x infills).
  { intros x. unfold ever. rewrite concat_app. cbn [concat]. rewrite app_nil_r, !in_app_iff. tauto. }
  assert (HE1 : evaluated cv feas obj m hc (pop ++ concat gens)) by (eapply ev_incl; [|exact HE]; intros x Hx; apply EE; now left).
  destruct (C11_nsga2_run A d cv feas obj m asort dsort nds crowding hc n gens pop Ha Hd Hc Hn Hn0 LP HE1) as (R1 & R2 & R3 & R4). fold last in R1, R2, R3, R4.
  assert (IA : forall x, In x (last ++ infills) -> In x ever) by (intros x Hx; apply EE; apply in_app_iff in Hx; destruct Hx as [Hx|Hx]; [left; auto|now right]).
  assert (HE2 : evaluated cv feas obj m hc (last ++ infills)) by (eapply ev_incl; [|exact HE]; exact IA).
  assert (NA : last ++ infills <> []) by (destruct last; [simpl in R1; lia|discriminate]).
  destruct (C96_generation A d cv feas obj m asort dsort nds crowding hc n last infills Ha Hd Hc Hn HE2 NA Hn0) as (G1 & G2 & G3 & G4). fold opt in G1, G2, G3, G4.
  destruct (C11_nsga2_generation A d cv feas obj m asort dsort nds crowding hc n last infills Ha Hd Hc Hn Hn0 R1 HE2) as (N1 & N2 & N3 & N4 & N5). set (new := gather d (last ++ infills) (nsga2_advance d cv feas obj asort dsort nds crowding hc n last infills)) in *.
  pose proof HE as (_ & Ez & Ei & _).
  (* a feasible solution ever evaluated leaves a feasible one in the merged population *)
  assert (FE : (exists a, In a ever /\ feas a = true) -> exists a, In a (last ++ infills) /\ feas a = true).
  { intros (a & Ia & Fa). apply EE in Ia. destruct Ia as [Ia|Ia]; [|exists a; split; [apply in_app_iff; now right|exact Fa]].
    destruct (R3 a Ia) as (s & Is & Ls). exists s. split; [apply in_app_iff; now left|]. destruct (feas s) eqn:Fs; [reflexivity|exfalso].
    assert (L : fltb (cv a) (cv s) = true) by (apply Ei; auto; apply EE; left; auto). apply fle_not_lt in Ls. congruence. }
  split; [exact G1|]. split; [intros x Hx; apply IA; unfold new in *; apply N2; auto|]. split; [|split].
  - intros EX. apply Forall_forall. intros x Hx. apply (G3 (FE EX)) in Hx. tauto.
  - intros Hno. destruct G4 as (x & Ex & Hx); [intros a Ia; apply Hno, IA, Ia|]. exists x. split; [exact Ex|]. intros b Ib. apply EE in Ib. destruct Ib as [Ib|Ib]; [|apply Hx, in_app_iff; now right].
    destruct (R3 b Ib) as (s & Is & Ls). eapply fle_trans; [|exact Ls]. apply Hx, in_app_iff. now left.
  - intros EX HF.
    assert (HFs : nsga2_fits d cv feas obj asort dsort nds crowding hc n pop gens /\ fits d cv feas obj n (last ++ infills)).
    { unfold last. clear - HF. revert pop HF. induction gens as [|g gens IH]; intros pop HF; cbn [app] in HF; inversion HF as [|? ? ? H1 H2]; subst.
      - split; [constructor|exact H1].
      - destruct (IH _ H2) as [H3 H4]. split; [constructor; auto|exact H4]. }
    destruct HFs as [HF1 HF2]. specialize (R4 HF1).
    assert (IL : forall a, In a (last ++ infills) -> In a ever) by exact IA.
    intros x. rewrite (G3 (FE EX)). split.
    + intros (Hx & Fx & Ux). assert (Ix : In x ever) by (apply IA, N2, Hx). split; [exact Ix|]. split; [exact Fx|]. intros b Ib Fb D.
      pose proof Ib as Ib'. apply EE in Ib'. destruct Ib' as [Ib'|Ib']; [|apply (Ux b); auto; apply in_app_iff; now right].
      destruct (R4 b Ib' Fb) as (p & Ip & Hp). assert (Ip' : In p (last ++ infills)) by (apply in_app_iff; now left). destruct Hp as [-> | Hp]; [apply (Ux b); auto|].
      assert (Fp : feas p = true) by (eapply (beater_feasible cv feas obj m hc ever p b); eauto).
      apply (Ux p Ip' Fp). apply (cv_zero cv feas obj m hc ever p x); auto. apply beats_trans with b; [exact Hp|]. apply (cv_zero cv feas obj m hc ever b x); auto.
    + intros (Ix & Fx & Ux). assert (Hm : In x (last ++ infills)).
      { pose proof Ix as Ix'. apply EE in Ix'. destruct Ix' as [Ix'|Ix']; [|apply in_app_iff; now right]. destruct (R4 x Ix' Fx) as (p & Ip & Hp). assert (Ip' : In p (last ++ infills)) by (apply in_app_iff; now left). destruct Hp as [-> | Hp]; [exact Ip'|exfalso].
        assert (Fp : feas p = true) by (eapply (beater_feasible cv feas obj m hc ever p x); eauto). apply (Ux p); auto. apply (cv_zero cv feas obj m hc ever p x); auto. }
      assert (UB : unbeaten_in cv obj (last ++ infills) x).
      { intros b Ib Hb. assert (Fb : feas b = true) by (eapply (beater_feasible cv feas obj m hc ever b x); eauto). apply (Ux b); auto. apply (cv_zero cv feas obj m hc ever b x); auto. }
      split; [|split; [exact Fx|intros b Ib Fb; apply Ux; auto]].
      destruct (N4 HF2 x Hm Fx) as (p & Ip & Hp). destruct Hp as [-> | Hp]; [exact Ip|exfalso]. apply (UB p); auto.
Qed.

(** C96: without room for all non-dominated solutions the report may contain a solution dominated by one evaluated before *)
Theorem C96_forgets_refuted : ~ (forall (A : Type) (d : A) cv feas obj m asort dsort nds crowding hc n gens (pop infills : list A), asort_ok asort -> dsort_ok dsort -> (forall M r, length (crowding M r) = length M) -> nds_ok m nds ->
  0 < n -> length pop = n -> let ever := pop ++ concat (gens ++ [infills]) in evaluated cv feas obj m hc ever ->
  let last := nsga2_run d cv feas obj asort dsort nds crowding hc n pop gens in
  forall x b, In x (nsga2_optimum d cv feas obj asort dsort nds crowding hc n last infills) -> In b ever -> feas b = true -> ~ dominates (obj b) (obj x)).
Proof.
  intros H. apply (H _ ([], f_nan) snd ex_feas fst 2 np_argsort dsort_ex (default_nds pr_ref) crowd_two true 1 [[([fz 3; fz 1], fz 0)]] [([fz 1; fz 3], fz 0)] [([fz 2; fz 3], fz 0)] np_argsort_ok ex_dsort (fun M r => map_length _ M) ex_nds ltac:(lia) eq_refl)
    with (x := ([fz 2; fz 3], fz 0)) (b := ([fz 1; fz 3], fz 0)).
  - apply ex_evaluated. cbn [app concat]. repeat (apply Forall_cons; [split; [split; [reflexivity|repeat constructor]|eexists; split; [|reflexivity]; lia]|]). apply Forall_nil.
  - vm_compute. now left.
  - now left.
  - reflexivity.
  - split; [repeat constructor|]. exists 0, (fz 1), (fz 2). repeat split; reflexivity.
Qed.
(** the hypotheses are met: a run with one infeasible and dominated solutions whose report is the non-dominated feasible ones of everything evaluated *)
Definition r_pop : list (list flt * flt) := [([fz 3; fz 1], fz 0); ([fz 4; fz 4], fz 0); ([fz 0; fz 0], fz 1)].
Definition r_gens : list (list (list flt * flt)) := [[([fz 1; fz 3], fz 0); ([fz 5; fz 5], fz 0)]].
Definition r_off : list (list flt * flt) := [([fz 1; fz 2], fz 0)].
Theorem C96_run_example : evaluated snd ex_feas fst 2 true (r_pop ++ concat (r_gens ++ [r_off])) /\
  nsga2_optimum ([], f_nan) snd ex_feas fst np_argsort dsort_ex (default_nds pr_ref) crowd_two true 3 (nsga2_run ([], f_nan) snd ex_feas fst np_argsort dsort_ex (default_nds pr_ref) crowd_two true 3 r_pop r_gens) r_off
    = [([fz 3; fz 1], fz 0); ([fz 1; fz 2], fz 0)] /\
  nsga2_fits ([], f_nan) snd ex_feas fst np_argsort dsort_ex (default_nds pr_ref) crowd_two true 3 r_pop (r_gens ++ [r_off]).
Proof.
  split; [apply ex_evaluated; unfold r_pop, r_gens, r_off; cbn [app concat]; repeat (apply Forall_cons; [split; [split; [reflexivity|repeat constructor]|eexists; split; [|reflexivity]; lia]|]); apply Forall_nil|].
  split; [vm_compute; reflexivity|].
  assert (HN : forall L (bad : list nat) k, NoDup bad -> incl bad (seq 0 (length L)) -> length L <= k + length bad -> (forall i, In i bad -> ~ (ex_feas (nth i L ([], f_nan)) = true /\ unbeaten_in snd fst L (nth i L ([], f_nan)))) -> fits ([], f_nan) snd ex_feas fst k L).
  { intros L bad k NB IB LB HB J NJ HJ. assert (ND : NoDup (J ++ bad)). { apply NoDup_app_iff. split; [exact NJ|]. split; [exact NB|]. intros x X1 X2. apply (HB x X2). apply HJ, X1. }
    assert (IC : incl (J ++ bad) (seq 0 (length L))). { intros x Hx. apply in_app_iff in Hx. destruct Hx as [Hx|Hx]; [|auto]. apply in_seq. destruct (HJ x Hx). lia. }
    pose proof (NoDup_incl_length ND IC) as LL. rewrite app_length, seq_length in LL. lia. }
  constructor; [|constructor; [|constructor]].
  - apply (HN _ [1; 2; 4]); [repeat constructor; simpl; intuition lia|intros x [<-|[<-|[<-|[]]]]; vm_compute; tauto|vm_compute; lia|].
    intros i [<-|[<-|[<-|[]]]] [F U]; [| discriminate |].
    + apply (U ([fz 3; fz 1], fz 0)); [now left|]. right. split; [reflexivity|]. split; [repeat constructor|]. exists 0, (fz 3), (fz 4). repeat split; reflexivity.
    + apply (U ([fz 3; fz 1], fz 0)); [now left|]. right. split; [reflexivity|]. split; [repeat constructor|]. exists 0, (fz 3), (fz 5). repeat split; reflexivity.
  - match goal with |- fits _ _ _ _ _ ?L => assert (E : L = [([fz 3; fz 1], fz 0); ([fz 1; fz 3], fz 0); ([fz 4; fz 4], fz 0); ([fz 1; fz 2], fz 0)]) by (vm_compute; reflexivity) end. rewrite E.
    apply (HN _ [1; 2]); [repeat constructor; simpl; intuition lia|intros x [<-|[<-|[]]]; vm_compute; tauto|vm_compute; lia|].
    intros i [<-|[<-|[]]] [F U].
    + apply (U ([fz 1; fz 2], fz 0)); [simpl; tauto|]. right. split; [reflexivity|]. split; [repeat constructor|]. exists 1, (fz 2), (fz 3). repeat split; reflexivity.
    + apply (U ([fz 3; fz 1], fz 0)); [now left|]. right. split; [reflexivity|]. split; [repeat constructor|]. exists 0, (fz 3), (fz 4). repeat split; reflexivity.
Qed.
