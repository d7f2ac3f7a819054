(** * C95: AGE-MOEA, the survival and the optimum *)
From Coq Require Import List Arith Bool Lia Permutation ZArith.
From Verif Require Import Flt ListAux NpSort M_NDS M_Survival M_Optimum S_Pareto S_NDS S_Survival S_Optimum P_Peel P_NDS1 P_Survival P_Survival2 P_Survival3 P_Optimum P_Survival4 Thm_Survival M_AGE.
Import ListNotations.
Local Open Scope nat_scope.

Lemma existsb_In i l : existsb (Nat.eqb i) l = true <-> In i l.
Proof. rewrite existsb_exists. split; [intros (x & H & E); apply Nat.eqb_eq in E; now subst|intros H; exists i; split; [exact H|apply Nat.eqb_refl]]. Qed.
Lemma front_no_iff fronts i k : NoDup (concat fronts) -> (front_no fronts i = Some k <-> k < length fronts /\ In i (nth k fronts [])).
Proof.
  intros ND. unfold front_no. split.
  - intros H. apply find_some in H. destruct H as [H1 H2]. apply in_seq in H1. apply existsb_In in H2. split; [lia|exact H2].
  - intros [H1 H2]. destruct (find (fun k => existsb (Nat.eqb i) (nth k fronts [])) (seq 0 (length fronts))) as [r|] eqn:E.
    + apply find_some in E. destruct E as [E1 E2]. apply existsb_In in E2. f_equal. eapply concat_NoDup_nth; eauto.
    + exfalso. assert (Hk : In k (seq 0 (length fronts))) by (apply in_seq; lia). pose proof (find_none _ _ E k Hk) as H. cbv beta in H. apply existsb_In in H2. congruence.
Qed.
Lemma place_nth l i : In i l -> place i l < length l /\ nth (place i l) l 0 = i.
Proof.
  induction l as [|x l IH]; intros H; [contradiction|]. cbn [place]. destruct (Nat.eqb_spec x i) as [->|E]; [split; [cbn; lia|reflexivity]|]. destruct H as [H|H]; [congruence|]. destruct (IH H). split; [cbn; lia|auto].
Qed.
Lemma place_of l k : NoDup l -> k < length l -> place (nth k l 0) l = k.
Proof. intros ND Hk. destruct (place_nth l (nth k l 0)) as [H1 H2]; [now apply nth_In|]. eapply (proj1 (NoDup_nth l 0) ND); eauto. Qed.

Section AGE.
  Variables (asort : list flt -> list nat) (score : fltmat -> list flt) (mink : fltmat -> list flt -> flt).
  Hypothesis Ha : asort_ok asort.

  Lemma age_core F n full out : n <= length F -> is_peeling (length F) (row_dom F) full -> stopped_at n full out ->
    let S := age_select asort score mink F out n in let crowd := age_crowding score mink F out in
    exists pre lst chosen, out = pre ++ [lst] /\ NoDup chosen /\ length chosen = n - length (concat pre) /\ length (concat pre) <= n /\ incl chosen lst /\
      (forall i, In i S <-> In i (concat pre) \/ In i chosen) /\ S_Survival.selects (length F) n S /\
      (forall i, In i (concat out) -> i < length F) /\ NoDup (concat out) /\
      forall i j, In i chosen -> In j lst -> ~ In j chosen -> fltb (nth i crowd f_nan) (nth j crowd f_nan) = false.
  Proof.
    intros HnN (HP & HN & HF) (Hpre & Hne & Hcase & Hmin) S crowd. set (N := length F) in *.
    destruct (last_split out Hne) as (pre & lst & Eo). pose proof (perm_seq_NoDup _ _ HP) as HND.
    assert (Hsub : NoDup (concat out) /\ forall i, In i (concat out) -> i < N).
    { destruct Hpre as (r & Er). rewrite Er, concat_app in HND, HP. apply NoDup_app_iff in HND as [H1 _]. split; auto. intros i Hi. apply (perm_seq_In _ _ i HP). apply in_app_iff; auto. }
    destruct Hsub as [ND HB]. assert (Ec : concat out = concat pre ++ lst) by (rewrite Eo, concat_app; simpl; now rewrite app_nil_r).
    assert (LR : last_rank out = length pre) by (unfold last_rank; rewrite Eo, app_length; simpl; lia).
    pose proof ND as ND'. rewrite Ec in ND'. apply NoDup_app_iff in ND' as (ND1 & ND2 & ND3).
    assert (Bel : forall i, below out i = true <-> In i (concat pre)).
    { intros i. unfold below. rewrite LR. split.
      - destruct (front_no out i) as [r|] eqn:E; [|discriminate]. intros H. apply Nat.ltb_lt in H. apply front_no_iff in E; auto. destruct E as [E1 E2]. apply in_concat_nth. exists r. split; [exact H|].
        rewrite Eo, app_nth1 in E2 by exact H. exact E2.
      - intros H. apply in_concat_nth in H. destruct H as (r & Hr & Hi). assert (E : front_no out i = Some r). { apply front_no_iff; auto. split; [rewrite Eo, app_length; lia|]. rewrite Eo, app_nth1 by exact Hr. exact Hi. }
        rewrite E. now apply Nat.ltb_lt. }
    assert (Las : forall i, is_rank out (last_rank out) i = true <-> In i lst).
    { intros i. unfold is_rank. rewrite LR. split.
      - destruct (front_no out i) as [r|] eqn:E; [|discriminate]. intros H. apply Nat.eqb_eq in H. subst r. apply front_no_iff in E; auto. destruct E as [_ E]. rewrite Eo, app_nth2, Nat.sub_diag in E by lia. exact E.
      - intros H. assert (E : front_no out i = Some (length pre)). { apply front_no_iff; auto. split; [rewrite Eo, app_length; simpl; lia|]. rewrite Eo, app_nth2, Nat.sub_diag by lia. exact H. }
        rewrite E. apply Nat.eqb_refl. }
    assert (Hpn : length (concat pre) <= n).
    { destruct pre as [|p0 pre'] eqn:Epre; [simpl; lia|]. rewrite <- Epre in *. specialize (Hmin (length pre)). rewrite Eo in Hmin. rewrite firstn_app, Nat.sub_diag, firstn_all, app_nil_r in Hmin.
      assert (length (concat pre) < n); [|lia]. apply Hmin. rewrite app_length, Epre. simpl. lia. }
    assert (Htot : n <= length (concat pre) + length lst).
    { rewrite <- app_length, <- Ec. pose proof (perm_seq_length _ _ HP) as HPL. destruct Hcase as [Hc|Hc]; [rewrite Hc; lia|exact Hc]. }
    set (bl := where_ (below out) N). assert (Pbl : Permutation bl (concat pre)).
    { apply NoDup_Permutation; auto; [apply NoDup_where|]. intros i. unfold bl. rewrite In_where, Bel. split; [tauto|]. intros H. split; [|exact H]. apply HB. rewrite Ec. apply in_app_iff. auto. }
    set (la := where_ (is_rank out (last_rank out)) N). assert (Pla : Permutation la lst).
    { apply NoDup_Permutation; auto; [apply NoDup_where|]. intros i. unfold la. rewrite In_where, Las. split; [tauto|]. intros H. split; [|exact H]. apply HB. rewrite Ec. apply in_app_iff. auto. }
    set (keys := gather f_nan crowd la). assert (HA : is_argsort (fun x y => fltb y x) f_nan keys (rev (asort keys))) by apply (rev_argsort fltb f_nan keys), Ha.
    destruct HA as [HA1 HA2]. assert (Lk : length keys = length la) by (unfold keys; apply length_gather). rewrite Lk in HA1.
    set (rk := rev (asort keys)) in *. set (k := n - length (concat pre)). set (chosen := gather 0 la (firstn k rk)).
    assert (Lrk : length rk = length la) by (rewrite (Permutation_length HA1); apply seq_length). assert (Lla : length la = length lst) by now apply Permutation_length.
    assert (NDr : NoDup rk) by (eapply perm_seq_NoDup; eauto). assert (NDla : NoDup la) by apply NoDup_where.
    assert (NDc : NoDup chosen) by (unfold chosen; apply NoDup_gather; auto; [now apply NoDup_firstn|]; intros i Hi; apply firstn_In in Hi; apply (perm_seq_In _ _ i HA1); auto).
    assert (Lc : length chosen = k) by (unfold chosen; rewrite length_gather, firstn_length; lia).
    assert (Ic : incl chosen lst). { intros i Hi. unfold chosen in Hi. apply In_gather in Hi. destruct Hi as (q & Hq & <-). apply (Permutation_in _ Pla), nth_In. apply firstn_In in Hq. apply (perm_seq_In _ _ q HA1); auto. }
    assert (EqS : S = where_ (fun i => below out i || existsb (Nat.eqb i) chosen) N).
    { unfold S, age_select. fold N. fold la. fold bl. rewrite (Permutation_length Pbl). fold crowd. fold keys. fold rk. fold k. reflexivity. }
    assert (InS : forall i, In i S <-> In i (concat pre) \/ In i chosen).
    { intros i. rewrite EqS, In_where, orb_true_iff, Bel, existsb_In. split; [tauto|]. intros H. split; [|exact H]. apply HB. rewrite Ec. apply in_app_iff. destruct H; auto. }
    exists pre, lst, chosen. split; [exact Eo|]. split; [exact NDc|]. split; [exact Lc|]. split; [exact Hpn|]. split; [exact Ic|]. split; [exact InS|]. split; [|split; [exact HB|split; [exact ND|]]].
    - split; [rewrite EqS; apply NoDup_where|]. split; [intros i Hi; rewrite EqS in Hi; apply In_where in Hi; tauto|].
      assert (PS : Permutation S (concat pre ++ chosen)).
      { apply NoDup_Permutation; [rewrite EqS; apply NoDup_where| |intros i; rewrite InS, in_app_iff; tauto]. apply NoDup_app_iff. split; [exact ND1|]. split; [exact NDc|]. intros x H1 H2. apply (ND3 x H1), Ic, H2. }
      rewrite (Permutation_length PS), app_length, Lc. unfold k. lia.
    - intros i j Hi Hj Hnj. unfold chosen in Hi. apply In_gather in Hi. destruct Hi as (p0 & Hp0 & Ei). apply (In_firstn_nth rk k p0 0) in Hp0. destruct Hp0 as (p & Hp1 & Hp2 & Ep).
      apply (Permutation_in _ (Permutation_sym Pla)) in Hj. destruct (In_nth _ _ 0 Hj) as (q0 & Hq0 & Ej). assert (Hq0r : In q0 rk) by (apply (perm_seq_In _ _ q0 HA1); lia). destruct (In_nth _ _ 0 Hq0r) as (q & Hq & Eq).
      assert (Hkq : k <= q). { destruct (Nat.lt_ge_cases q k) as [H|H]; auto. exfalso. apply Hnj. unfold chosen. apply In_gather. exists q0. split; [|exact Ej]. apply (In_firstn_nth rk k q0 0). exists q. auto. }
      specialize (HA2 p q ltac:(lia) Hq). rewrite Ep, Eq in HA2. unfold keys in HA2. rewrite !nth_gather in HA2 by (try lia; apply (perm_seq_In _ _ p0 HA1); rewrite <- Ep; now apply nth_In). now rewrite Ei, Ej in HA2.
  Qed.

  Context {A : Type} (d : A) (cv : A -> flt) (feas : A -> bool) (obj : A -> list flt) (m : nat) (nds : fltmat -> nat -> list (list nat)).
  Hypothesis Hn : nds_ok m nds.
  Lemma age_inner_ok : inner_ok (fun a => row_ok m (obj a)) (age_inner asort nds score mink obj).
  Proof.
    intros p n Hne Hwf Hle. unfold age_inner, age_do. destruct (P_Survival3.rows_ok m obj p Hwf) as [H1 H2].
    destruct (Hn (map obj p) n) as (full & HP & HS); auto; [destruct p; [congruence|discriminate]|].
    destruct (age_core (map obj p) n full (nds (map obj p) n)) as (pre & lst & ch & _ & _ & _ & _ & _ & _ & R & _); auto; [now rewrite map_length|]. now rewrite map_length in R at 1.
  Qed.
End AGE.

(** C95: exactly n survivors; nobody is dropped in favour of a solution of a later front; within the front that is cut those with the larger crowding value stay *)
Theorem C95_survival : forall m F score mink asort nds n, asort_ok asort -> nds_ok m nds -> F <> [] -> rect m F -> mat_ok F -> n <= length F ->
  let S := age_do asort nds score mink F n in
  S_Survival.selects (length F) n S /\
  forall i j ri rj, In i S -> j < length F -> ~ In j S -> pareto_rank F i ri -> pareto_rank F j rj ->
    ri <= rj /\ (ri = rj -> let c := age_crowding score mink F (nds F n) in fltb (nth i c f_nan) (nth j c f_nan) = false).
Proof.
  intros m F score mink asort nds n Ha Hn Hne HR HM Hle S. destruct (Hn F n Hne HR HM) as (full & HP & HS).
  destruct (age_core asort score mink Ha F n full (nds F n) Hle HP HS) as (pre & lst & ch & Eo & C1 & C2 & C3 & C4 & C5 & C6 & C7 & C8 & C9). fold (age_do asort nds score mink F n) in C5, C6. fold S in C5, C6.
  split; [exact C6|]. intros i j ri rj Hi Hj Hnj Hri Hrj.
  assert (Hu : forall i r, pareto_rank F i r -> In i (nth r full [])) by (intros i0 r (f1 & P1 & H1); destruct (peeling_unique _ _ _ _ P1 HP) as [_ E]; now apply E).
  apply Hu in Hri. apply Hu in Hrj. pose proof HP as (HPP & _). pose proof (perm_seq_NoDup _ _ HPP) as HND. pose proof HS as (Hpre & _).
  assert (Hl : length (nds F n) = length pre + 1) by (rewrite Eo, app_length; simpl; lia).
  assert (Hlst : nth (length pre) full [] = lst) by (rewrite (prefix_nth (nds F n) full) by (auto; lia); rewrite Eo, app_nth2, Nat.sub_diag by lia; reflexivity).
  assert (Hprek : forall k, k < length pre -> nth k full [] = nth k pre []) by (intros k Hk; rewrite (prefix_nth (nds F n) full) by (auto; lia); rewrite Eo, app_nth1 by lia; reflexivity).
  assert (Hrj' : length pre <= rj). { destruct (Nat.lt_ge_cases rj (length pre)) as [H|H]; auto. exfalso. apply Hnj, C5. left. apply in_concat_nth. exists rj. split; auto. now rewrite <- Hprek. }
  apply C5 in Hi. destruct Hi as [Hi|Hi].
  - apply in_concat_nth in Hi as (k & Hk & H). rewrite <- Hprek in H by auto. assert (ri = k) by (eapply concat_NoDup_nth; eauto). split; lia.
  - pose proof (C4 _ Hi) as Hil. rewrite <- Hlst in Hil. assert (ri = length pre) by (eapply concat_NoDup_nth; eauto). subst ri. split; [lia|]. intros E c. subst rj. rewrite Hlst in Hrj. apply C9; auto. intros H. apply Hnj, C5. now right.
Qed.
(** C95: the non-dominated solutions all survive when there is room for them *)
Theorem C95_best_front : forall m F score mink asort nds n full, asort_ok asort -> nds_ok m nds -> F <> [] -> rect m F -> mat_ok F -> n <= length F ->
  is_peeling (length F) (row_dom F) full -> length (nth 0 full []) <= n ->
  forall i, i < length F -> (forall j, j < length F -> ~ row_dom F j i) -> In i (age_do asort nds score mink F n).
Proof.
  intros m F score mink asort nds n full Ha Hn Hne HR HM Hle HP Hlen i Hi Hnd.
  destruct (C95_survival m F score mink asort nds n Ha Hn Hne HR HM Hle) as (R1 & R3).
  apply (best_front_survives (length F) (row_dom F) full _ n HP R1 Hlen).
  - intros a b ra rb Ha' Hb Hra Hrb. apply (R3 a b ra rb); auto; try (exists full; auto).
    pose proof HP as (HPP & _). apply (perm_seq_In _ _ b HPP). apply in_concat_nth. exists rb. split; auto. eapply nth_In_lt; eauto.
  - pose proof HP as (HPP & HN & HF). destruct full as [|f0 full].
    + simpl in HPP. apply Permutation_nil in HPP. destruct (length F); [lia|discriminate].
    + apply HF; [simpl; lia|]. split; auto. split; [intros (k & Hk & _); lia|]. auto.
Qed.

(** C95 with constraints: feasible solutions first, infeasible ones by their constraint violation *)
Theorem C95_constraints : forall (A : Type) (d : A) cv feas obj asort nds score mink m hc n (pop : list A), asort_ok asort -> nds_ok m nds ->
  Forall (fun a => row_ok m (obj a)) pop ->
  let S := age_survival asort nds score mink d cv feas obj hc n pop in
  S_Survival.selects (length pop) (Nat.min n (length pop)) S /\
  (hc = true ->
    (forall i j, In i S -> feas (nth i pop d) = false -> j < length pop -> feas (nth j pop d) = true -> In j S) /\
    (forall i j, In i S -> feas (nth i pop d) = false -> j < length pop -> feas (nth j pop d) = false -> ~ In j S ->
       fltb (cv (nth j pop d)) (cv (nth i pop d)) = false)).
Proof.
  intros A d cv feas obj asort nds score mink m hc n pop Ha Hn Hw S.
  destruct (survival_do_spec d cv feas asort Ha (fun a => row_ok m (obj a)) _ true hc (Some n) pop (age_inner_ok asort score mink Ha obj m nds Hn) Hw) as [H1 H2].
  split; [exact H1|]. intros E. apply H2; auto.
Qed.

Lemma age_front0 m F score mink asort nds n : asort_ok asort -> nds_ok m nds -> F <> [] -> rect m F -> mat_ok F -> n <= length F ->
  (forall i, is_rank (nds F n) 0 i = true <-> i < length F /\ forall j, j < length F -> ~ row_dom F j i) /\
  (0 < n -> exists i, In i (age_do asort nds score mink F n) /\ is_rank (nds F n) 0 i = true).
Proof.
  intros Ha Hn Hne HR HM Hle. destruct (Hn F n Hne HR HM) as (full & HP & HS).
  destruct (age_core asort score mink Ha F n full (nds F n) Hle HP HS) as (pre & lst & ch & Eo & C1 & C2 & C3 & C4 & C5 & C6 & C7 & C8 & C9). fold (age_do asort nds score mink F n) in C5, C6.
  pose proof HS as (Hpre & _). pose proof HP as (HPP & HN & HF). assert (Lo : 0 < length (nds F n)) by (rewrite Eo, app_length; simpl; lia).
  assert (IR : forall i, is_rank (nds F n) 0 i = true <-> In i (nth 0 (nds F n) [])).
  { intros i. unfold is_rank. split.
    - destruct (front_no (nds F n) i) as [r|] eqn:E; [|discriminate]. intros H. apply Nat.eqb_eq in H. subst r. apply front_no_iff in E; auto. tauto.
    - intros H. assert (E : front_no (nds F n) i = Some 0) by (apply front_no_iff; auto). now rewrite E. }
  split.
  - intros i. rewrite IR, <- (prefix_nth (nds F n) full) by auto. assert (L0 : 0 < length full) by (destruct Hpre as (r & Er); rewrite Er, app_length; lia). rewrite (HF 0 i L0). split.
    + intros (H1 & H2 & H3). split; [exact H1|]. intros j Hj. apply H3; auto. intros (k & Hk & _). lia.
    + intros [H1 H2]. split; [exact H1|]. split; [intros (k & Hk & _); lia|]. intros j Hj _. auto.
  - intros Hn0. destruct pre as [|p0 pre].
    + destruct ch as [|c ch]; [simpl in C2; lia|]. exists c. split; [apply C5; right; now left|]. apply IR. rewrite Eo. apply C4. now left.
    + assert (Hp0 : p0 <> []). { assert (E : nth 0 full [] = p0) by (rewrite (prefix_nth (nds F n) full) by auto; rewrite Eo; reflexivity). rewrite <- E. apply HN. destruct Hpre as (r & Er); rewrite Er, app_length; lia. }
      destruct p0 as [|x p0]; [congruence|]. exists x. split; [apply C5; left; simpl; now left|]. apply IR. rewrite Eo. simpl. now left.
Qed.

(** C95: the reported optimum after a generation that merged and cut the population [pop] *)
Theorem C95_optimum : forall (A : Type) (d : A) cv feas obj asort nds score mink m hc n (pop : list A), asort_ok asort -> nds_ok m nds ->
  Forall (fun a => row_ok m (obj a)) pop -> (forall a, In a pop -> isnan (cv a) = false) -> (hc = false -> forall a, In a pop -> feas a = true) -> pop <> [] -> 0 < n ->
  let S := age_survival asort nds score mink d cv feas obj hc n pop in let opt := age_optimum asort nds score mink d cv feas obj hc n pop in
  opt <> [] /\ incl opt S /\
  ((exists a, In a pop /\ feas a = true) ->
     forall i, In i opt <-> In i S /\ feas (nth i pop d) = true /\ forall b, In b pop -> feas b = true -> ~ dominates (obj b) (obj (nth i pop d))) /\
  ((forall a, In a pop -> feas a = false) -> exists i, opt = [i] /\ forall b, In b pop -> fleb (cv (nth i pop d)) (cv b) = true).
Proof.
  intros A d cv feas obj asort nds score mink m hc n pop Ha Hn Hw Hcv Hhc Hpop Hn0 S opt.
  destruct (C95_constraints A d cv feas obj asort nds score mink m hc n pop Ha Hn Hw) as [(S1 & S2 & S3) SC]. fold S in S1, S2, S3, SC.
  assert (LP : 0 < length pop) by (destruct pop; [congruence|simpl; lia]).
  assert (SN : S <> []) by (intros E; rewrite E in S3; simpl in S3; lia).
  assert (ANY : (exists a, In a pop /\ feas a = true) <-> existsb (fun i => feas (nth i pop d)) S = true).
  { rewrite existsb_exists. split.
    - intros (a & Ia & Fa). destruct (In_nth _ _ d Ia) as (j & Hj & Ej). destruct S as [|s S0] eqn:ES; [congruence|]. rewrite <- ES in *.
      destruct (feas (nth s pop d)) eqn:Fs; [exists s; split; [rewrite ES; now left|exact Fs]|].
      exists j. rewrite Ej. split; [|exact Fa]. destruct hc.
      + apply (proj1 (SC eq_refl) s j); auto; [rewrite ES; now left|now rewrite Ej].
      + rewrite (Hhc eq_refl) in Fs; [discriminate|]. apply nth_In, S2. rewrite ES. now left.
    - intros (i & Hi & Fi). exists (nth i pop d). split; [apply nth_In; auto|exact Fi]. }
  assert (KEY : (exists a, In a pop /\ feas a = true) -> (forall i, In i S -> (rank_zero asort nds d cv feas obj hc n pop i = true <-> feas (nth i pop d) = true /\ forall b, In b pop -> feas b = true -> ~ dominates (obj b) (obj (nth i pop d)))) /\
            exists i, In i S /\ rank_zero asort nds d cv feas obj hc n pop i = true).
  { intros EX. unfold rank_zero, S, age_survival, survival_do. replace (length pop =? 0) with false by (symmetry; apply Nat.eqb_neq; lia). cbv zeta. set (n' := Nat.min n (length pop)).
    destruct hc; cbn [andb].
    - assert (EF : exists fe infe, split_by_feasibility d cv feas asort pop = (fe, infe)) by (destruct (split_by_feasibility d cv feas asort pop); eauto). destruct EF as (fe & infe & EF).
      pose proof (split_spec d cv feas asort Ha pop) as SP. rewrite EF in *. destruct SP as (F1 & F2 & F3 & F4 & F5 & F6). cbn [fst].
      assert (Lf : 0 < length fe). { destruct EX as (a & Ia & Fa). destruct (In_nth _ _ d Ia) as (j & Hj & Ej). assert (In j fe) by (apply F3; rewrite Ej; auto). destruct fe; [contradiction|simpl; lia]. }
      replace (length fe =? 0) with false by (symmetry; apply Nat.eqb_neq; lia). set (G := map obj (gather d pop fe)). set (k := Nat.min (length fe) n').
      assert (LG : length G = length fe) by (unfold G; now rewrite map_length, length_gather).
      assert (WG : Forall (fun a => row_ok m (obj a)) (gather d pop fe)). { apply Forall_forall. intros x Hx. apply in_map_iff in Hx as (q & <- & Hq). rewrite Forall_forall in Hw. apply Hw, nth_In, F3, Hq. }
      destruct (P_Survival3.rows_ok m obj _ WG) as [G1 G2]. fold G in G1, G2.
      assert (GN : G <> []) by (intros E; rewrite E in LG; simpl in LG; lia).
      destruct (age_front0 m G score mink asort nds k Ha Hn GN G1 G2 ltac:(rewrite LG; unfold k; lia)) as [A1 A2].
      assert (GE : forall q, q < length fe -> nth q G [] = obj (nth (nth q fe 0) pop d)).
      { intros q Hq. unfold G. rewrite (nth_indep _ [] (obj d)) by (rewrite map_length, length_gather; lia). rewrite map_nth, nth_gather by lia. reflexivity. }
      split.
      + intros i Hi. rewrite andb_true_iff. split.
        * intros [B1 B2]. split; [exact B1|]. apply A1 in B2. destruct B2 as [B2 B3]. intros b Ib Fb. destruct (In_nth _ _ d Ib) as (j & Hj & Ej). assert (Jf : In j fe) by (apply F3; rewrite Ej; auto).
          destruct (place_nth fe j Jf) as [P1 P2]. assert (If : In i fe) by (apply F3; split; [apply S2; unfold S, age_survival, survival_do|exact B1]; rewrite EF; replace (length pop =? 0) with false by (symmetry; apply Nat.eqb_neq; lia); cbv zeta; cbn [andb]; replace (length fe =? 0) with false by (symmetry; apply Nat.eqb_neq; lia); exact Hi).
          destruct (place_nth fe i If) as [P3 P4]. specialize (B3 (place j fe) ltac:(lia)). unfold row_dom in B3. rewrite !GE, P2, P4, Ej in B3 by lia. exact B3.
        * intros [B1 B2]. split; [exact B1|]. assert (If : In i fe) by (apply F3; split; [apply S2; unfold S, age_survival, survival_do|exact B1]; rewrite EF; replace (length pop =? 0) with false by (symmetry; apply Nat.eqb_neq; lia); cbv zeta; cbn [andb]; replace (length fe =? 0) with false by (symmetry; apply Nat.eqb_neq; lia); exact Hi).
          destruct (place_nth fe i If) as [P3 P4]. apply A1. split; [lia|]. intros j Hj. unfold row_dom. rewrite !GE, P4 by lia. assert (Jf : In (nth j fe 0) fe) by (apply nth_In; lia). apply F3 in Jf. destruct Jf. apply B2; auto. now apply nth_In.
      + destruct (A2 ltac:(unfold k, n'; lia)) as (q & Q1 & Q2). exists (nth q fe 0). assert (Hq : q < length fe) by (rewrite <- LG; apply A1; auto).
        assert (Jf : In (nth q fe 0) fe) by (apply nth_In; lia). split.
        * assert (In (nth q fe 0) (gather 0 fe (age_inner asort nds score mink obj (gather d pop fe) k))) by (apply In_gather; exists q; auto).
          destruct (0 <? _); [apply in_app_iff; auto|auto].
        * rewrite andb_true_iff. split; [apply F3; auto|]. rewrite place_of by auto. exact Q2.
    - destruct (P_Survival3.rows_ok m obj _ Hw) as [G1 G2]. assert (GN : map obj pop <> []) by (destruct pop; [congruence|discriminate]).
      destruct (age_front0 m (map obj pop) score mink asort nds n' Ha Hn GN G1 G2 ltac:(rewrite map_length; unfold n'; lia)) as [A1 A2]. rewrite map_length in A1.
      assert (GE : forall q, q < length pop -> nth q (map obj pop) [] = obj (nth q pop d)) by (intros q Hq; rewrite (nth_indep _ [] (obj d)) by (rewrite map_length; lia); apply map_nth).
      split.
      + intros i Hi. rewrite A1. split.
        * intros [B1 B2]. split; [apply Hhc; auto; now apply nth_In|]. intros b Ib _. destruct (In_nth _ _ d Ib) as (j & Hj & Ej). specialize (B2 j Hj). unfold row_dom in B2. now rewrite !GE, Ej in B2 by auto.
        * intros [B1 B2]. assert (Hi' : i < length pop) by (apply S2; unfold S, age_survival, survival_do; replace (length pop =? 0) with false by (symmetry; apply Nat.eqb_neq; lia); exact Hi).
          split; [exact Hi'|]. intros j Hj. unfold row_dom. rewrite !GE by auto. apply B2; [now apply nth_In|]. apply Hhc; auto. now apply nth_In.
      + apply A2. unfold n'. lia. }
  unfold opt, age_optimum. fold S. destruct (existsb (fun i => feas (nth i pop d)) S) eqn:EB.
  - assert (EX := proj2 ANY eq_refl). destruct (KEY EX) as [K1 (i & K2 & K3)].
    assert (IF : forall j, In j (filter (rank_zero asort nds d cv feas obj hc n pop) S) <-> In j S /\ feas (nth j pop d) = true /\ forall b, In b pop -> feas b = true -> ~ dominates (obj b) (obj (nth j pop d))).
    { intros j. rewrite filter_In. split; intros [J1 J2]; split; auto; apply K1; auto. }
    split; [intros E; assert (In i []) by (rewrite <- E; apply filter_In; auto); contradiction|]. split; [intros j Hj; apply filter_In in Hj; tauto|]. split; [intros _; exact IF|].
    intros Hno. destruct EX as (a & Ia & Fa). rewrite Hno in Fa; [discriminate|auto].
  - split; [discriminate|]. assert (VK : vec_ok (map (fun i => cv (nth i pop d)) S)). { apply Forall_forall. intros z Hz. apply in_map_iff in Hz as (j & <- & Hj). apply Hcv, nth_In. auto. }
    destruct (np_argmin_spec (map (fun i => cv (nth i pop d)) S)) as [M1 M2]; [destruct S; [congruence|discriminate]|exact VK|]. rewrite map_length in M1, M2. set (a := np_argmin (map (fun i => cv (nth i pop d)) S)) in *.
    assert (Ia : In (nth a S 0) S) by now apply nth_In.
    split; [intros j [<-|[]]; exact Ia|]. split; [intros EX; apply ANY in EX; congruence|].
    intros Hno. exists (nth a S 0). split; [reflexivity|]. intros b Ib.
    assert (KN : forall t, t < length S -> nth t (map (fun i => cv (nth i pop d)) S) f_nan = cv (nth (nth t S 0) pop d)).
    { intros t Ht. rewrite (nth_indep _ f_nan (cv (nth 0 pop d))) by (rewrite map_length; lia). exact (map_nth (fun i => cv (nth i pop d)) S 0 t). }
    destruct (In_nth _ _ d Ib) as (j & Hj & Ej). destruct (in_dec Nat.eq_dec j S) as [Hin|Hout].
    + destruct (In_nth _ _ 0 Hin) as (t & Ht & Et). specialize (M2 t Ht). rewrite !KN, Et, Ej in M2 by auto. exact M2.
    + destruct hc.
      * destruct (SC eq_refl) as [_ SC2]. apply nlt_le; [rewrite <- Ej; apply Hcv, nth_In; auto|apply Hcv, nth_In; auto|]. rewrite <- Ej. apply SC2; auto; apply Hno, nth_In; auto.
      * exfalso. pose proof (Hhc eq_refl b Ib). rewrite Hno in H by auto. discriminate.
Qed.

(** C95: when the non-dominated solutions alone fill the population, the corner solutions (infinite score) all survive, as long as there are not more of them than places *)
Theorem C95_corners : forall m F score mink asort nds n full ext, asort_ok asort -> nds_ok m nds -> F <> [] -> rect m F -> mat_ok F -> n <= length F ->
  is_peeling (length F) (row_dom F) full -> n <= length (nth 0 full []) ->
  let c := age_crowding score mink F (nds F n) in
  NoDup ext -> length ext <= n -> incl ext (nth 0 full []) ->
  (forall i, In i (nth 0 full []) -> (In i ext -> nth i c f_nan = f_inf) /\ (~ In i ext -> fltb (nth i c f_nan) f_inf = true)) ->
  incl ext (age_do asort nds score mink F n).
Proof.
  intros m F score mink asort nds n full ext Ha Hn Hne HR HM Hle HP Hlen c NE LE IE HC e He.
  destruct (in_dec Nat.eq_dec e (age_do asort nds score mink F n)) as [H|Hout]; [exact H|exfalso].
  destruct (C95_survival m F score mink asort nds n Ha Hn Hne HR HM Hle) as ((S1 & S2 & S3) & SR). cbv zeta in SR. fold c in SR. set (S := age_do asort nds score mink F n) in *.
  assert (HB : forall i, In i (nth 0 full []) -> i < length F). { intros i Hi. pose proof HP as (HPP & _). apply (perm_seq_In _ _ i HPP). apply in_concat_nth. exists 0. split; [eapply nth_In_lt; eauto|exact Hi]. }
  assert (IS : incl S (remove Nat.eq_dec e ext)).
  { intros i Hi. destruct (C11_rank_exists_unique m F i HR HM (S2 i Hi)) as [(r & Hr) _]. assert (He0 : pareto_rank F e 0) by (exists full; split; auto).
    destruct (SR i e r 0 Hi (HB e (IE e He)) Hout Hr He0) as [R1 R2]. assert (r = 0) by lia. subst r. specialize (R2 eq_refl).
    destruct Hr as (f1 & P1 & H1). assert (Hi0 : In i (nth 0 full [])) by (destruct (peeling_unique _ _ _ _ P1 HP) as [_ E]; now apply E).
    apply in_in_remove; [intros ->; contradiction|]. destruct (in_dec Nat.eq_dec i ext) as [Hx|Hx]; [exact Hx|exfalso].
    rewrite (proj1 (HC e (IE e He)) He) in R2. rewrite (proj2 (HC i Hi0) Hx) in R2. discriminate. }
  pose proof (NoDup_incl_length S1 IS) as L. pose proof (remove_length_lt Nat.eq_dec ext e He). lia.
Qed.

(** C95, refuted: a solution of the last front is not judged by its objective values when an earlier front exists: all of them have crowding 0, and the cut only depends on positions *)
Lemma crowd_last_zero score mink F out i : NoDup (concat out) -> i < length F -> 2 <= length out -> In i (nth (last_rank out) out []) -> nth i (age_crowding score mink F out) f_nan = f_zero.
Proof.
  intros ND Hi L2 Hin. unfold age_crowding. cbv zeta. match goal with |- context [map ?f _] => set (g := f) end. assert (KN : nth i (map g (seq 0 (length F))) f_nan = g i).
  { rewrite (nth_indep _ f_nan (g 0)) by (rewrite map_length, seq_length; lia). rewrite map_nth, seq_nth by lia. reflexivity. }
  rewrite KN. unfold g. assert (E : front_no out i = Some (last_rank out)) by (apply front_no_iff; auto; split; [unfold last_rank; lia|exact Hin]).
  rewrite E. assert (LR : last_rank out = S (length out - 2)) by (unfold last_rank; lia). rewrite LR at 1. rewrite <- LR. now rewrite Nat.ltb_irrefl.
Qed.
Theorem C95_last_front_refuted : forall m F F' score mink score' mink' asort nds n, asort_ok asort -> nds_ok m nds -> F <> [] -> rect m F -> mat_ok F -> n <= length F ->
  length F' = length F -> nds F' n = nds F n -> 2 <= length (nds F n) ->
  age_do asort nds score' mink' F' n = age_do asort nds score mink F n.
Proof.
  intros m F F' score mink score' mink' asort nds n Ha Hn Hne HR HM Hle HL HE L2. unfold age_do. rewrite HE. set (out := nds F n) in *.
  destruct (Hn F n Hne HR HM) as (full & HP & HS).
  destruct (age_core asort score mink Ha F n full (nds F n) Hle HP HS) as (pre & lst & ch & Eo & _ & _ & _ & _ & _ & _ & C7 & C8 & _). fold out in Eo, C7, C8.
  unfold age_select. cbv zeta. rewrite HL.
  assert (EQ : gather f_nan (age_crowding score' mink' F' out) (where_ (is_rank out (last_rank out)) (length F)) = gather f_nan (age_crowding score mink F out) (where_ (is_rank out (last_rank out)) (length F))).
  { unfold gather. apply map_ext_in. intros i Hi. apply In_where in Hi. destruct Hi as [H1 H2]. unfold is_rank in H2. destruct (front_no out i) as [r|] eqn:E; [|discriminate]. apply Nat.eqb_eq in H2. subst r. apply front_no_iff in E; auto. destruct E as [_ E].
    rewrite !crowd_last_zero; auto. lia. }
  now rewrite EQ.
Qed.

(** the hypotheses are met, with the reference sorter; [mink] = first entry of the row: the smaller front keeps, the larger last front is cut by position although its first member is the worst *)
Definition ex_score (M : fltmat) : list flt := map (fun r => nth 0 r f_nan) M.
Definition ex_mink (M : fltmat) (r : list flt) : flt := nth 0 r f_nan.
Definition ex_age (F : fltmat) (n : nat) := age_do np_argsort (default_nds pr_ref) ex_score ex_mink F n.
Definition ex_F : fltmat := [[fz 0; fz 1]; [fz 1; fz 0]; [fz 5; fz 9]; [fz 9; fz 5]; [fz 3; fz 10]].
Theorem C95_survival_example : asort_ok np_argsort /\ nds_ok 2 (default_nds pr_ref) /\ rect 2 ex_F /\ mat_ok ex_F /\
  default_nds pr_ref ex_F 3 = [[0; 1]; [2; 3; 4]] /\ ex_age ex_F 3 = [0; 1; 4] /\ ex_age ex_F 1 = [1] /\
  age_optimum np_argsort (default_nds pr_ref) ex_score ex_mink ([], f_nan) snd ex_feas fst true 3 ex_pop <> [].
Proof.
  split; [exact np_argsort_ok|]. split; [exact ex_nds|]. split; [repeat constructor|]. split; [repeat constructor|]. vm_compute. repeat split; discriminate.
Qed.
