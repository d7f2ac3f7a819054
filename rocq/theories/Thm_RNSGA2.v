(** * C97: R-NSGA-II, survivors, reference points and distance *)
From Coq Require Import List Arith Bool Lia Permutation ZArith Sorted.
From Verif Require Import Flt ListAux NpSort M_NDS M_Survival M_Optimum S_Pareto S_NDS S_Survival P_Peel P_NDS1 P_Survival P_Survival2 P_Survival3 P_Survival4 Thm_Survival M_AGE Thm_AGE M_RankOpt Thm_RankOpt M_RNSGA Thm_RNSGA.
Import ListNotations.
Local Open Scope nat_scope.

Definition full_nds (m : nat) (nds : fltmat -> list (list nat)) : Prop := forall F, F <> [] -> rect m F -> mat_ok F -> is_peeling (length F) (row_dom F) (nds F).

Section Core.
  Variables (asort : list flt -> list nat) (isort : list nat -> list nat) (osort : list (option nat) -> list nat) (n_ref : nat) (dref : nat -> list flt) (doth : nat -> nat -> flt) (eps : flt).
  Hypotheses (Ha : asort_ok asort) (Hi : isort_ok isort) (Ho : osort_ok osort) (Hr : 0 < n_ref).
  Notation crowd_of := (rn_crowding asort isort n_ref dref doth eps).
  Notation rdo := (rn_do asort isort osort n_ref dref doth eps).
  Lemma crowd_some f p : p < length f -> exists a, nth p (crowd_of f) None = Some a.
  Proof.
    intros Hp. destruct (C97_clearing asort isort n_ref dref doth eps f Ha Hi Hr) as (_ & kept & _ & K1 & K2 & _).
    destruct (in_dec Nat.eq_dec p kept) as [H|H]; [destruct (K1 p H) as [_ E]; eauto|destruct (K2 p Hp H) as [E _]; eauto].
  Qed.
  Lemma take_least f k : k <= length f -> let t := firstn k (osort (crowd_of f)) in
    NoDup t /\ length t = k /\ (forall p, In p t -> p < length f) /\
    forall p q, In p t -> q < length f -> ~ In q t -> exists a b, nth p (crowd_of f) None = Some a /\ nth q (crowd_of f) None = Some b /\ a <= b.
  Proof.
    intros Hk t. destruct (Ho (crowd_of f)) as [P1 P2]. set (s := osort (crowd_of f)) in *. rewrite crowd_length in P1 by auto. pose proof (perm_seq_length _ _ P1) as L.
    assert (NDs : NoDup s) by (eapply perm_seq_NoDup; eauto).
    split; [now apply NoDup_firstn|]. split; [unfold t; rewrite firstn_length; lia|]. split; [intros p Hp; apply (perm_seq_In _ _ p P1); unfold t in Hp; now apply firstn_In in Hp|].
    intros p q Hp Hq Hnq. assert (Hp' : p < length f) by (apply (perm_seq_In _ _ p P1); unfold t in Hp; now apply firstn_In in Hp).
    destruct (crowd_some f p Hp') as (a & Ea). destruct (crowd_some f q Hq) as (b & Eb). exists a, b. split; [exact Ea|]. split; [exact Eb|].
    destruct (In_nth _ _ 0 Hp) as (u & Hu & Eu). unfold t in Hu. rewrite firstn_length in Hu. unfold t in Eu. rewrite P_Perm.nth_firstn in Eu by lia.
    assert (Hqs : In q s) by (apply (perm_seq_In _ _ q P1); exact Hq). destruct (In_nth _ _ 0 Hqs) as (v & Hv & Ev).
    assert (k <= v). { destruct (Nat.lt_ge_cases v k) as [H|H]; [|exact H]. exfalso. apply Hnq. unfold t. rewrite <- Ev. rewrite <- (P_Perm.nth_firstn s k v 0) by lia. apply nth_In. rewrite firstn_length. lia. }
    specialize (P2 u v ltac:(lia) Hv). rewrite Eu, Ev, Ea, Eb in P2. cbn [olt] in P2. now apply Nat.ltb_ge in P2.
  Qed.
  Lemma rn_core N full n : n <= N -> Permutation (concat full) (seq 0 N) -> let S := fst (rdo n N full) in
    S_Survival.selects N n S /\
    ((n = N /\ Permutation S (seq 0 N)) \/
     exists pre f post t, full = pre ++ f :: post /\ length (concat pre) <= n < length (concat pre) + length f /\ t = firstn (n - length (concat pre)) (osort (crowd_of f)) /\
       forall i, In i S <-> In i (concat pre) \/ exists p, In p t /\ nth p f 0 = i).
  Proof.
    intros HnN HP S. unfold S, rn_do. destruct (fold_surv asort isort osort n_ref dref doth eps Ha Hi Ho Hr n full [] (repeat None N) ltac:(simpl; lia)) as (X & EX & HX). cbn [length app Nat.add] in EX, HX. rewrite EX.
    pose proof (perm_seq_NoDup _ _ HP) as HND. pose proof (perm_seq_length _ _ HP) as HL.
    destruct HX as [[X1 X2]|(pre & f & post & X1 & X2 & X3)].
    - assert (n = N) by lia. subst n. split; [|left; split; [reflexivity|now rewrite X2]]. rewrite X2. split; [exact HND|]. split; [intros i Hi'; now apply (perm_seq_In _ _ i HP)|lia].
    - rewrite Nat.sub_0_r in X3. set (t := firstn (n - length (concat pre)) (osort (crowd_of f))) in *.
      destruct (take_least f (n - length (concat pre)) ltac:(lia)) as (T1 & T2 & T3 & _). fold t in T1, T2, T3.
      assert (HND' := HND). rewrite X1, concat_app in HND'. cbn [concat] in HND'. apply NoDup_app_iff in HND' as (N1 & N2 & N3). apply NoDup_app_iff in N2 as (N2 & N4 & N5).
      split.
      + rewrite X3. split; [apply NoDup_app_iff; split; [exact N1|]; split; [now apply NoDup_gather|]; intros x Hx Hx'; apply (N3 x Hx); apply In_gather in Hx' as (p & Hp & <-); apply in_app_iff; left; apply nth_In; auto|].
        split; [|rewrite app_length, length_gather; lia]. intros i Hi'. apply (perm_seq_In _ _ i HP). rewrite X1, concat_app. cbn [concat]. apply in_app_iff in Hi'. rewrite !in_app_iff. destruct Hi' as [Hi'|Hi']; [now left|right; left]. apply In_gather in Hi' as (p & Hp & <-). apply nth_In. auto.
      + right. exists pre, f, post, t. split; [exact X1|]. split; [exact X2|]. split; [reflexivity|]. intros i. rewrite X3, in_app_iff, In_gather. tauto.
  Qed.
  Lemma front_value N full n pre f post p : Permutation (concat full) (seq 0 N) -> full = pre ++ f :: post -> p < length f ->
    nth (nth p f 0) (snd (rdo n N full)) None = if length (concat pre) + length f <=? n then Some (nth p (rn_ranking asort n_ref dref f) 0) else nth p (crowd_of f) None.
  Proof.
    intros HP E Hp. unfold rn_do. destruct (fold_crowd asort isort osort n_ref dref doth eps Ha Hi Ho Hr n full [] (repeat None N)) as (_ & _ & W); [simpl; lia|eapply perm_seq_NoDup; eauto|intros x Hx; rewrite repeat_length; now apply (perm_seq_In _ _ x HP)|].
    rewrite (W pre f post p E Hp). cbn [length Nat.add]. unfold values_of.
    replace (length f <=? n - Nat.min n (length (concat pre))) with (length (concat pre) + length f <=? n).
    - destruct (_ <=? n); [|reflexivity]. rewrite (nth_indep _ None (Some 0)) by (rewrite map_length, ranking_length; exact Hp). exact (map_nth Some _ 0 p).
    - destruct (Nat.leb_spec (length (concat pre) + length f) n), (Nat.leb_spec (length f) (n - Nat.min n (length (concat pre)))); try reflexivity; exfalso; lia.
  Qed.
End Core.

(** C97: exactly n survivors; nobody is dropped in favour of a solution of a later front; within the front that is cut the survivors have the smaller values *)
Theorem C97_survival : forall m F asort isort osort n_ref dref doth eps nds n, asort_ok asort -> isort_ok isort -> osort_ok osort -> 0 < n_ref -> full_nds m nds -> F <> [] -> rect m F -> mat_ok F -> n <= length F ->
  let S := fst (rn_do asort isort osort n_ref dref doth eps n (length F) (nds F)) in let c := snd (rn_do asort isort osort n_ref dref doth eps n (length F) (nds F)) in
  S_Survival.selects (length F) n S /\
  (forall i j ri rj, In i S -> j < length F -> ~ In j S -> pareto_rank F i ri -> pareto_rank F j rj ->
    ri <= rj /\ (ri = rj -> exists a b, nth i c None = Some a /\ nth j c None = Some b /\ a <= b)).
Proof.
  intros m F asort isort osort n_ref dref doth eps nds n Ha Hi Ho Hr Hn Hne HR HM Hle S c. pose proof (Hn F Hne HR HM) as HP. pose proof HP as (HPP & _). set (full := nds F) in *.
  destruct (rn_core asort isort osort n_ref dref doth eps Ha Hi Ho Hr (length F) full n Hle HPP) as [C1 C2]. fold S in C1, C2. split; [exact C1|].
  intros i j ri rj Ii Hj Hnj Hri Hrj. destruct C2 as [[En C2]|(pre & f & post & t & C2 & C3 & C4 & C5)]; [exfalso; apply Hnj; apply (perm_seq_In _ _ j C2); exact Hj|].
  assert (Hu : forall i r, pareto_rank F i r -> In i (nth r full [])) by (intros i0 r (f1 & P1 & H1); destruct (peeling_unique _ _ _ _ P1 HP) as [_ E]; now apply E).
  apply Hu in Hri. apply Hu in Hrj. pose proof (perm_seq_NoDup _ _ HPP) as HND.
  assert (Hf : nth (length pre) full [] = f) by (rewrite C2, app_nth2, Nat.sub_diag by lia; reflexivity).
  assert (Hpre : forall k, k < length pre -> nth k full [] = nth k pre []) by (intros k Hk; rewrite C2, app_nth1 by lia; reflexivity).
  assert (Hrj' : length pre <= rj). { destruct (Nat.lt_ge_cases rj (length pre)) as [H|H]; auto. exfalso. apply Hnj, C5. left. apply in_concat_nth. exists rj. split; auto. now rewrite <- Hpre. }
  destruct (take_least asort isort osort n_ref dref doth eps Ha Hi Ho Hr f (n - length (concat pre)) ltac:(lia)) as (T1 & T2 & T3 & T4). rewrite <- C4 in T1, T2, T3, T4.
  apply C5 in Ii. destruct Ii as [Ii|(p & Hp & Ep)].
  - apply in_concat_nth in Ii as (k & Hk & H). rewrite <- Hpre in H by auto. assert (ri = k) by (eapply concat_NoDup_nth; eauto). split; lia.
  - assert (Hil : In i (nth (length pre) full [])) by (rewrite Hf, <- Ep; apply nth_In; auto). assert (ri = length pre) by (eapply concat_NoDup_nth; eauto). subst ri. split; [lia|]. intros E. subst rj. rewrite Hf in Hrj.
    destruct (In_nth _ _ 0 Hrj) as (q & Hq & Eq). assert (Hnq : ~ In q t) by (intros K; apply Hnj, C5; right; exists q; auto).
    destruct (T4 p q Hp Hq Hnq) as (a & b & E1 & E2 & E3). exists a, b.
    pose proof (front_value asort isort osort n_ref dref doth eps Ha Hi Ho Hr (length F) full n pre f post p HPP C2 (T3 p Hp)) as V1. pose proof (front_value asort isort osort n_ref dref doth eps Ha Hi Ho Hr (length F) full n pre f post q HPP C2 Hq) as V2.
    fold c in V1, V2. rewrite Ep in V1. rewrite Eq in V2. replace (length (concat pre) + length f <=? n) with false in V1, V2 by (symmetry; apply Nat.leb_gt; lia). rewrite V1, V2. auto.
Qed.
(** C97: the values: the rank in a front that survives entirely, the cleared rank in all others *)
Theorem C97_values : forall m F asort isort osort n_ref dref doth eps nds n, asort_ok asort -> isort_ok isort -> osort_ok osort -> 0 < n_ref -> full_nds m nds -> F <> [] -> rect m F -> mat_ok F ->
  let c := snd (rn_do asort isort osort n_ref dref doth eps n (length F) (nds F)) in
  forall r p, r < length (nds F) -> let f := nth r (nds F) [] in p < length f ->
    nth (nth p f 0) c None = if length (concat (firstn (S r) (nds F))) <=? n then Some (nth p (rn_ranking asort n_ref dref f) 0) else nth p (rn_crowding asort isort n_ref dref doth eps f) None.
Proof.
  intros m F asort isort osort n_ref dref doth eps nds n Ha Hi Ho Hr Hn Hne HR HM c r p Hlt f Hp. pose proof (Hn F Hne HR HM) as (HPP & _). set (full := nds F) in *.
  assert (E : full = firstn r full ++ f :: skipn (S r) full). { clear - Hlt. unfold f. clear f. revert r Hlt. generalize full. clear. induction full as [|x l IH]; intros r Hlt; cbn [length] in Hlt; [lia|]. destruct r as [|r]; [reflexivity|]. cbn [firstn skipn nth app]. f_equal. apply IH. lia. }
  pose proof (front_value asort isort osort n_ref dref doth eps Ha Hi Ho Hr (length F) full n _ f _ p HPP E Hp) as V. fold c in V. rewrite V.
  replace (length (concat (firstn (S r) full))) with (length (concat (firstn r full)) + length f); [reflexivity|].
  assert (E2 : firstn (S r) full = firstn r full ++ [f]). { rewrite E at 1. rewrite firstn_app, firstn_firstn, firstn_length. replace (S r - Nat.min r (length full)) with 1 by lia. rewrite Nat.min_r by lia. reflexivity. }
  rewrite E2, concat_app, app_length. cbn [concat]. now rewrite app_nil_r.
Qed.

(** C97: the contract of [Survival._do], for the survival with constraints and the optimum *)
Lemma rn_ranks_ok {A} (obj : A -> list flt) m asort isort osort n_ref dref doth eps nds : asort_ok asort -> isort_ok isort -> osort_ok osort -> 0 < n_ref -> full_nds m nds ->
  ranks_ok obj m (rn_inner asort isort osort n_ref dref doth eps nds obj) (rn_rank0 nds obj).
Proof.
  intros Ha Hi Ho Hr Hn. split.
  - intros p n Hne Hw Hle. destruct (P_Survival3.rows_ok m obj p Hw) as [HR HM]. unfold rn_inner.
    destruct (C97_survival m (map obj p) asort isort osort n_ref (dref (map obj p)) (doth (map obj p)) eps nds n Ha Hi Ho Hr Hn) as [H _]; auto; [destruct p; [congruence|discriminate]|now rewrite map_length|]. now rewrite map_length in H.
  - intros p n Hne Hw Hle. destruct (P_Survival3.rows_ok m obj p Hw) as [HR HM]. set (F := map obj p) in *. assert (LF : length F = length p) by apply map_length. assert (NF : F <> []) by (unfold F; destruct p; [congruence|discriminate]).
    pose proof (Hn F NF HR HM) as HP. pose proof HP as (HPP & HN & HF).
    assert (L0 : 0 < length (nds F)). { destruct (nds F); [|simpl; lia]. cbn in HPP. apply Permutation_nil in HPP. destruct (length F) eqn:EL; [destruct F; [congruence|discriminate]|discriminate]. }
    assert (E0 : hd [] (nds F) = nth 0 (nds F) []) by (destruct (nds F); reflexivity).
    assert (RZ : forall i, rn_rank0 nds obj p n i = true <-> i < length p /\ forall j, j < length p -> ~ row_dom F j i).
    { intros i. unfold rn_rank0. fold F. rewrite existsb_In, E0, (HF 0 i L0), LF. split.
      - intros (H1 & H2 & H3). split; [exact H1|]. intros j Hj. apply H3; auto. intros (k & Hk & _). lia.
      - intros [H1 H2]. split; [exact H1|]. split; [intros (k & Hk & _); lia|]. intros j Hj _. auto. }
    split; [intros i _; apply RZ|]. intros Hn0.
    destruct (C97_survival m F asort isort osort n_ref (dref F) (doth F) eps nds n Ha Hi Ho Hr Hn NF HR HM ltac:(lia)) as [(S1 & S2 & S3) HS]. rewrite LF in S1, S2, S3, HS. change (fst (rn_do asort isort osort n_ref (dref F) (doth F) eps n (length p) (nds F))) with (rn_inner asort isort osort n_ref dref doth eps nds obj p n) in S1, S2, S3, HS. set (SS := rn_inner asort isort osort n_ref dref doth eps nds obj p n) in *.
    specialize (HN 0 L0). destruct (nth 0 (nds F) []) as [|j l] eqn:EN; [congruence|]. assert (Hj : In j (nth 0 (nds F) [])) by (rewrite EN; now left).
    assert (Rj : pareto_rank F j 0) by (exists (nds F); auto).
    assert (Tj : rn_rank0 nds obj p n j = true) by (unfold rn_rank0; fold F; rewrite existsb_In, E0; now left).
    destruct (in_dec Nat.eq_dec j SS) as [Hin|Hout]; [exists j; auto|].
    assert (Ei : exists i, In i SS) by (destruct SS as [|i SS0]; [simpl in S3; lia|exists i; now left]). destruct Ei as (i & Ii). exists i. split; [exact Ii|].
    destruct (C11_rank_exists_unique m F i HR HM) as [(r & Hri) _]; [rewrite LF; auto|]. destruct (HS i j r 0 Ii (proj1 (proj1 (RZ j) Tj)) Hout Hri Rj) as [H _]. assert (r = 0) by lia. subst r. apply RZ. rewrite <- LF. now apply (rank_zero_iff m F i HR HM).
Qed.
(** C97: with constraints all feasible solutions come before any infeasible one, infeasible ones with less violation first *)
Theorem C97_constraints : forall (A : Type) (d : A) cv feas obj m asort isort osort n_ref dref doth eps nds hc n (pop : list A), asort_ok asort -> isort_ok isort -> osort_ok osort -> 0 < n_ref -> full_nds m nds ->
  Forall (fun a => row_ok m (obj a)) pop -> let S := survival_do d cv feas asort (rn_inner asort isort osort n_ref dref doth eps nds obj) true hc (Some n) pop in
  S_Survival.selects (length pop) (Nat.min n (length pop)) S /\
  (hc = true -> (forall i j, In i S -> feas (nth i pop d) = false -> j < length pop -> feas (nth j pop d) = true -> In j S) /\
    forall i j, In i S -> feas (nth i pop d) = false -> j < length pop -> feas (nth j pop d) = false -> ~ In j S -> fltb (cv (nth j pop d)) (cv (nth i pop d)) = false).
Proof.
  intros A d cv feas obj m asort isort osort n_ref dref doth eps nds hc n pop Ha Hi Ho Hr Hn Hw S.
  destruct (survival_do_spec d cv feas asort Ha (fun a => row_ok m (obj a)) _ true hc (Some n) pop (proj1 (rn_ranks_ok obj m asort isort osort n_ref dref doth eps nds Ha Hi Ho Hr Hn)) Hw) as [H1 H2].
  split; [exact H1|]. intros E. destruct (H2 eq_refl E) as [H3 H4]. split; [exact H3|]. intros i j Ii Fi Hj Fj Hnj. now apply H4.
Qed.
(** C97: the report after a generation *)
Theorem C97_optimum : forall (A : Type) (d : A) cv feas obj m asort isort osort n_ref dref doth eps nds hc n (pop : list A), asort_ok asort -> isort_ok isort -> osort_ok osort -> 0 < n_ref -> full_nds m nds ->
  Forall (fun a => row_ok m (obj a)) pop -> (forall a, In a pop -> isnan (cv a) = false) -> (hc = false -> forall a, In a pop -> feas a = true) -> pop <> [] -> 0 < n ->
  let inner := rn_inner asort isort osort n_ref dref doth eps nds obj in let S := survival_do d cv feas asort inner true hc (Some n) pop in let opt := rank_optimum d cv feas asort inner (rn_rank0 nds obj) hc n pop in
  opt <> [] /\ incl opt S /\
  ((exists a, In a pop /\ feas a = true) ->
     forall i, In i opt <-> In i S /\ feas (nth i pop d) = true /\ forall b, In b pop -> feas b = true -> ~ dominates (obj b) (obj (nth i pop d))) /\
  ((forall a, In a pop -> feas a = false) -> exists i, opt = [i] /\ forall b, In b pop -> fleb (cv (nth i pop d)) (cv b) = true).
Proof.
  intros A d cv feas obj m asort isort osort n_ref dref doth eps nds hc n pop Ha Hi Ho Hr Hn Hw Hcv Hhc Hne Hn0 inner S opt.
  exact (rank_optimum_spec d cv feas obj asort m inner (rn_rank0 nds obj) Ha (rn_ranks_ok obj m asort isort osort n_ref dref doth eps nds Ha Hi Ho Hr Hn) hc n pop Hw Hcv Hhc Hne Hn0).
Qed.
Lemma round_half_pos n : 2 <= n -> 1 <= round_half n.
Proof.
  intros H. unfold round_half. assert (1 <= n / 2) by (apply (Nat.div_le_lower_bound n 2 1); lia). destruct (Nat.even n); [exact H0|]. destruct (Nat.even (n / 2)); lia.
Qed.
(** C97: in the front that is cut, if at least as many places are left as there are reference points, then for every reference point a solution of the front than which none is closer survives,
    or one closer than epsilon to it *)
Theorem C97_closest : forall m F asort isort osort n_ref dref doth eps nds n, asort_ok asort -> isort_ok isort -> osort_ok osort -> 0 < n_ref -> full_nds m nds -> F <> [] -> rect m F -> mat_ok F -> n <= length F ->
  let SV := fst (rn_do asort isort osort n_ref dref doth eps n (length F) (nds F)) in
  forall r, r < length (nds F) -> let f := nth r (nds F) [] in length (concat (firstn r (nds F))) + n_ref <= n ->
  forall j, j < n_ref -> exists x, In x f /\ (forall y, In y f -> fltb (nth j (dref y) f_nan) (nth j (dref x) f_nan) = false) /\ (In x SV \/ exists y, In y f /\ In y SV /\ fltb (doth y x) eps = true).
Proof.
  intros m F asort isort osort n_ref dref doth eps nds n Ha Hi Ho Hr Hn Hne HR HM Hle SV r Hlt f Hroom j Hj. pose proof (Hn F Hne HR HM) as HP. pose proof HP as (HPP & HN & _). set (full := nds F) in *.
  destruct (C97_ranking asort n_ref dref f Ha Hr) as (_ & R2 & R3). destruct (R2 (HN r Hlt) j Hj) as (p & Hp & Ep & Cp).
  exists (nth p f 0). split; [now apply nth_In|]. split.
  { intros y Hy. destruct (In_nth _ _ 0 Hy) as (q & Hq & <-). apply (Cp q Hq). }
  assert (CONC : forall s, s < length f -> nth s (rn_crowding asort isort n_ref dref doth eps f) None = Some 0 -> In (nth s f 0) SV).
  { intros s Hs Es. destruct (rn_core asort isort osort n_ref dref doth eps Ha Hi Ho Hr (length F) full n Hle HPP) as [C1 C2]. fold SV in C1, C2.
    assert (Hin : In (nth s f 0) (nth r full [])) by now apply nth_In.
    destruct C2 as [[En C2]|(pre & g & post & t & C2 & C3 & C4 & C5)].
    - apply (perm_seq_In _ _ _ C2). apply (perm_seq_In _ _ _ HPP). apply in_concat_nth. exists r. auto.
    - apply C5. assert (Hpre : forall k, k < length pre -> nth k full [] = nth k pre []) by (intros k Hk; rewrite C2, app_nth1 by lia; reflexivity).
      destruct (Nat.lt_trichotomy r (length pre)) as [H|[H|H]].
      + left. apply in_concat_nth. exists r. split; [exact H|]. rewrite <- Hpre by exact H. exact Hin.
      + right. assert (Hf : nth r full [] = g) by (rewrite C2, H, app_nth2, Nat.sub_diag by lia; reflexivity). fold f in Hf. rewrite <- Hf in *.
        assert (EP : firstn r full = pre) by (rewrite C2, H; rewrite firstn_app, Nat.sub_diag; cbn [firstn]; rewrite app_nil_r; apply firstn_all). rewrite EP in Hroom.
        destruct (take_least asort isort osort n_ref dref doth eps Ha Hi Ho Hr f (n - length (concat pre)) ltac:(lia)) as (T1 & T2 & T3 & T4). rewrite <- C4 in T1, T2, T3, T4.
        destruct (in_dec Nat.eq_dec s t) as [Hst|Hst]; [exists s; auto|exfalso].
        (* everyone taken has value 0 and rank 0: with s too many of rank 0 *)
        destruct (C97_clearing asort isort n_ref dref doth eps f Ha Hi Hr) as (_ & kept & _ & K1 & K2 & _). assert (HALF := round_half_pos (length f) ltac:(lia)).
        assert (Z : forall q, In q (s :: t) -> q < length f /\ nth q (rn_ranking asort n_ref dref f) 0 <= 0).
        { intros q Hq. assert (Hq' : q < length f) by (destruct Hq as [<-|Hq]; auto). split; [exact Hq'|].
          assert (V : nth q (rn_crowding asort isort n_ref dref doth eps f) None = Some 0).
          { destruct Hq as [<-|Hq]; [exact Es|]. destruct (T4 q s Hq Hs Hst) as (a & b & A1 & A2 & A3). rewrite Es in A2. injection A2 as <-. rewrite A1. f_equal. lia. }
          destruct (in_dec Nat.eq_dec q kept) as [Hk|Hk]; [destruct (K1 q Hk) as [_ E]; rewrite E in V; injection V as V; lia|destruct (K2 q Hq' Hk) as [E _]; rewrite E in V; injection V as V; lia]. }
        pose proof (R3 0 (s :: t) (NoDup_cons s Hst T1) Z) as L. cbn [length] in L. lia.
      + exfalso. (* the cut front comes before *)
        assert (EP : firstn r full = pre ++ g :: firstn (r - S (length pre)) post). { rewrite C2, firstn_app, firstn_all2 by lia. f_equal. replace (r - length pre) with (S (r - S (length pre))) by lia. reflexivity. }
        rewrite EP, concat_app in Hroom. cbn [concat] in Hroom. rewrite !app_length in Hroom. lia. }
  destruct (C97_clearing asort isort n_ref dref doth eps f Ha Hi Hr) as (_ & kept & _ & K1 & K2 & _).
  destruct (in_dec Nat.eq_dec p kept) as [Hk|Hk].
  - left. apply CONC; [exact Hp|]. destruct (K1 p Hk) as [_ E]. now rewrite Ep in E.
  - right. destruct (K2 p Hp Hk) as [_ (s & Hs & Cs & Ls)]. destruct (K1 s Hs) as [Hs' Es]. rewrite Ep in Ls. assert (E0 : nth s (rn_ranking asort n_ref dref f) 0 = 0) by lia. rewrite E0 in Es. exists (nth s f 0). split; [now apply nth_In|]. split; [now apply CONC|exact Cs].
Qed.
(** ** instances meeting the contracts, an example, and what the clearing does not give *)
Definition i_sort (keys : list nat) : list nat := argsort Nat.ltb 0 keys.
Definition o_sort (keys : list (option nat)) : list nat := argsort olt None keys.
Definition f_nds (F : fltmat) : list (list nat) := fronts_of_ranks (pr_ref F).
Lemma i_sort_ok : isort_ok i_sort.
Proof. intros keys. apply argsort_is_argsort; intros; repeat match goal with H : _ = true |- _ => apply Nat.ltb_lt in H | H : _ = false |- _ => apply Nat.ltb_ge in H end; try apply Nat.ltb_ge; try apply Nat.ltb_lt; lia. Qed.
Lemma o_sort_ok : osort_ok o_sort.
Proof.
  intros keys. apply argsort_is_argsort; intros; unfold olt in *; repeat match goal with |- context [match ?x with _ => _ end] => destruct x | H : context [match ?x with _ => _ end] |- _ => destruct x end; try discriminate; try reflexivity;
    repeat match goal with H : (_ <? _) = true |- _ => apply Nat.ltb_lt in H | H : (_ <? _) = false |- _ => apply Nat.ltb_ge in H end; try apply Nat.ltb_ge; try apply Nat.ltb_lt; lia.
Qed.
Lemma f_nds_ok m : full_nds m f_nds.
Proof. intros F Hne HR HM. apply fronts_of_ranks_peeling; [destruct F; [congruence|simpl; lia]|]. eapply pr_ref_ok; eauto. Qed.
(** six non-dominated solutions; the second is closer than epsilon to the first; one reference point at the first *)
Definition r_F : fltmat := map (fun i => [fz (Z.of_nat i); fz (5 - Z.of_nat i)]) (seq 0 6).
Definition r_ref (i : nat) : list flt := [fz (Z.of_nat i)].
Definition r_oth (i j : nat) : flt := if (i + j =? 1) then fz 0 else fz 1.
Theorem C97_example : asort_ok np_argsort /\ isort_ok i_sort /\ osort_ok o_sort /\ full_nds 2 f_nds /\ rect 2 r_F /\ mat_ok r_F /\
  rn_do np_argsort i_sort o_sort 1 r_ref r_oth (fz 1) 3 6 (f_nds r_F) = ([0; 2; 3], [Some 0; Some 4; Some 2; Some 3; Some 4; Some 5]) /\
  rn_do np_argsort i_sort o_sort 1 r_ref r_oth (fz 1) 6 6 (f_nds r_F) = ([0; 1; 2; 3; 4; 5], [Some 0; Some 1; Some 2; Some 3; Some 4; Some 5]).
Proof.
  split; [exact np_argsort_ok|]. split; [exact i_sort_ok|]. split; [exact o_sort_ok|]. split; [apply f_nds_ok|]. split; [repeat constructor|]. split; [repeat constructor|]. split; vm_compute; reflexivity.
Qed.
(** C97: a near-duplicate of a survivor can survive although a solution which is no near-duplicate of anybody is dropped: the discouragement is only half the size of the front *)
Theorem C97_duplicates_refuted : ~ (forall m F asort isort osort n_ref dref doth eps nds n, asort_ok asort -> isort_ok isort -> osort_ok osort -> 0 < n_ref -> full_nds m nds -> F <> [] -> rect m F -> mat_ok F -> n <= length F ->
  let SV := fst (rn_do asort isort osort n_ref dref doth eps n (length F) (nds F)) in
  forall x y z, In x SV -> In y SV -> x <> y -> fltb (doth x y) eps = true -> z < length F -> ~ In z SV -> (forall r, pareto_rank F z r <-> pareto_rank F y r) -> exists s, s < length F /\ s <> z /\ fltb (doth s z) eps = true).
Proof.
  intros H. assert (E : fst (rn_do np_argsort i_sort o_sort 1 r_ref r_oth (fz 1) 5 6 (f_nds r_F)) = [0; 2; 3; 1; 4]) by (vm_compute; reflexivity).
  assert (HR : rect 2 r_F) by repeat constructor. assert (HM : mat_ok r_F) by repeat constructor.
  destruct (H 2 r_F np_argsort i_sort o_sort 1 r_ref r_oth (fz 1) f_nds 5 np_argsort_ok i_sort_ok o_sort_ok ltac:(lia) (f_nds_ok 2) ltac:(discriminate) HR HM ltac:(cbn; lia) 0 1 5) as (s & H1 & H2 & H3).
  - change (length r_F) with 6. rewrite E. simpl. tauto.
  - change (length r_F) with 6. rewrite E. simpl. tauto.
  - lia.
  - reflexivity.
  - cbn. lia.
  - change (length r_F) with 6. rewrite E. simpl. lia.
  - pose proof (f_nds_ok 2 r_F ltac:(discriminate) HR HM) as HP. assert (EN : f_nds r_F = [[0; 1; 2; 3; 4; 5]]) by (vm_compute; reflexivity). rewrite EN in HP.
    assert (G : forall x, x < 6 -> pareto_rank r_F x 0) by (intros x Hx; exists [[0; 1; 2; 3; 4; 5]]; split; [exact HP|]; cbn; lia).
    intros r. split; intros K; destruct (C11_rank_exists_unique 2 r_F 5 HR HM ltac:(cbn; lia)) as [_ U5]; destruct (C11_rank_exists_unique 2 r_F 1 HR HM ltac:(cbn; lia)) as [_ U1].
    + rewrite (U5 r 0 K (G 5 ltac:(lia))). apply G. lia.
    + rewrite (U1 r 0 K (G 1 ltac:(lia))). apply G. lia.
  - change (length r_F) with 6 in H1. do 6 (destruct s as [|s]; [try discriminate H3; lia|]). lia.
Qed.
(** C97: with extreme_points_as_reference_points the reference points of every generation are kept: their number grows by the number of objectives in each *)
Theorem C97_ref_points_grow : forall (P : Type) (ref : list P) gens m, Forall (fun e => length e = m) gens ->
  length (rn_ref_points true ref gens) = length ref + length gens * m /\ (forall p, In p (rn_ref_points true ref gens) <-> In p ref \/ exists e, In e gens /\ In p e) /\ rn_ref_points false ref gens = ref.
Proof.
  intros P ref gens m. unfold rn_ref_points. revert ref. induction gens as [|e gens IH]; intros ref HF; cbn [fold_left length].
  - split; [lia|]. split; [|reflexivity]. intros p. split; [now left|]. intros [H|(e & [] & _)]. exact H.
  - inversion HF as [|? ? H1 H2]; subst. destruct (IH (ref ++ e) H2) as (A1 & A2 & _). destruct (IH ref H2) as (_ & _ & A3). split; [rewrite A1, app_length; cbn [length]; lia|]. split; [|exact A3].
    intros p. rewrite A2, in_app_iff. split.
    + intros [[H|H]|(e' & H & H')]; [now left|right; exists e; split; [now left|exact H]|right; exists e'; split; [now right|exact H']].
    + intros [H|(e' & [<-|H] & H')]; [left; now left|left; now right|right; exists e'; auto].
Qed.
