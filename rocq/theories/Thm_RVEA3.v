(** * Theorems C82, continued: collapse of the population, constraints, budget, what RVEA does not guarantee *)
From Coq Require Import List Arith Bool ZArith QArith Qround Reals Lra Lia Permutation.
From Verif Require Import Flt ListAux NpSort M_NSGA3R M_RVEA M_Survival S_RVEA S_Survival P_Survival Thm_NSGA3R Thm_RVEA Thm_RVEA2.
Import ListNotations.
Local Open Scope R_scope.

(** if an objective is constant in the population and a direction points along its axis, then adapting the directions makes every later survival keep only the first individual *)
Theorem C82_constant_objective : forall m U dirs st n_obj w F j k, state_ok m U st -> vectors m F -> F <> [] -> vectors m dirs -> (j < m)%nat -> (k < length dirs)%nat ->
  (forall i, i <> j -> nth i (nth k dirs []) 0 = 0) ->
  (forall z f, s_ideal (snd (apd_do n_obj w st F)) = Some z -> In f F -> nth j f 0 = nth j z 0) ->
  forall n_obj' w' F', F' <> [] -> fst (apd_do n_obj' w' (apd_adapt dirs (snd (apd_do n_obj w st F))) F') = [0%nat].
Proof.
  intros m U dirs st n_obj w F j k HS HF HN HD Hj Hk Hax Hc n_obj' w' F' HN'. apply C82_collapse; auto.
  destruct (C82_survivors m U st n_obj w F HS HF HN) as (z & Ez & _ & HL & HR & _). destruct (C82_nadir m U st n_obj w F HS HF HN) as (N & EN & LN & HNd).
  unfold apd_adapt. rewrite EN, Ez. cbn [s_V]. apply in_map_iff. exists (nth k dirs []). split; [|apply nth_In, Hk].
  assert (Lu : length (nth k dirs []) = m) by (unfold vectors in HD; rewrite Forall_forall in HD; apply HD, nth_In, Hk). set (u := nth k dirs []) in *.
  assert (Lz : length z = m). { destruct HS as (_ & _ & _ & _ & HI). injection Ez as <-. now apply new_ideal_len. }
  assert (Enz : nth j N 0 = nth j z 0). { destruct (HNd j Hj) as [_ (f & Hf & E)]. rewrite E. apply in_map_iff in Hf as (i & <- & Hi). apply Hc; auto. apply nth_In. now apply HR. }
  destruct (unit_row u) as [v|] eqn:Ev; auto. apply unit_row_zero. intros i. destruct (Nat.lt_ge_cases i m) as [Hi|Hi].
  - unfold unit_row in Ev. destruct (Req_EM_T (norm u) 0) as [E|E]; [discriminate|]. injection Ev as <-.
    rewrite (nth_map2R Rmult _ _ i m) by (auto; rewrite ?map_length, ?length_map2; lia). rewrite (nth_map2R Rminus _ _ i m) by auto.
    destruct (Nat.eq_dec i j) as [->|Hne]; [rewrite Enz; ring|]. rewrite (nth_indep _ 0 ((fun x => x / norm u) 0)) by (rewrite map_length; lia). rewrite (map_nth (fun x => x / norm u)). rewrite (Hax i Hne). unfold Rdiv. ring.
  - apply nth_overflow. rewrite length_map2. unfold unit_row in Ev. destruct (Req_EM_T (norm u) 0); [discriminate|]. injection Ev as <-. rewrite map_length. lia.
Qed.

(** ** constraints *)
Definition apd_inner {A} (obj : A -> list R) (n_obj : nat) (w : R) (st : apd_state) (p : list A) (n : nat) : list nat := fst (apd_do n_obj w st (map obj p)).
Theorem C82_population : forall (A : Type) (d : A) cv feas asort obj m U st n_obj w ns (pop : list A), asort_ok asort -> state_ok m U st -> Forall (fun a => length (obj a) = m) pop -> pop <> [] ->
  let n := Nat.min (match ns with None => length pop | Some n => n end) (length pop) in
  let S := survival_do d cv feas asort (apd_inner obj n_obj w st) true true ns pop in
  let fe := where_ (fun i => feas (nth i pop d)) (length pop) in
  let sf := filter (fun i => feas (nth i pop d)) S in let si := filter (fun i => negb (feas (nth i pop d))) S in
  NoDup S /\ (forall i, In i S -> (i < length pop)%nat) /\ (length sf <= length U)%nat /\ (fe <> [] -> (1 <= length sf)%nat) /\
  (forall i, In i sf <-> exists k, fe <> [] /\ In k (fst (apd_do n_obj w st (map (fun i => obj (nth i pop d)) fe))) /\ nth k fe 0%nat = i) /\
  length si = Nat.min (length pop - length fe) (n - length sf) /\
  (forall i j, In i S -> feas (nth i pop d) = false -> (j < length pop)%nat -> feas (nth j pop d) = false -> ~ In j S -> fltb (cv (nth j pop d)) (cv (nth i pop d)) = false).
Proof.
  intros A d cv feas asort obj m U st n_obj w ns pop Ha HS HO HN. cbv zeta. unfold survival_do. destruct (Nat.eqb_spec (length pop) 0) as [H0|H0]; [destruct pop; [congruence|discriminate]|]. cbn [andb].
  pose proof (split_spec d cv feas asort Ha pop) as HSp. unfold split_by_feasibility in *. set (fe := where_ (fun i => feas (nth i pop d)) (length pop)) in *. set (infe := gather 0%nat _ _) in *. destruct HSp as (F1 & F2 & F3 & F4 & F5 & F6).
  set (n := Nat.min _ (length pop)). set (T := fst (apd_do n_obj w st (map (fun i => obj (nth i pop d)) fe))).
  assert (EI : apd_inner obj n_obj w st (gather d pop fe) (Nat.min (length fe) n) = T) by (unfold apd_inner, T, gather; now rewrite map_map). rewrite EI. clear EI.
  set (sv := if Nat.eqb (length fe) 0 then [] else gather 0%nat fe T).
  assert (HT : fe <> [] -> NoDup T /\ (forall k, In k T -> (k < length fe)%nat) /\ (1 <= length T <= length U)%nat).
  { intros HF. destruct (C82_survivors m U st n_obj w (map (fun i => obj (nth i pop d)) fe) HS) as (z & _ & H1 & H2 & H3 & _).
    - apply Forall_forall. intros f Hf. apply in_map_iff in Hf as (i & <- & Hi). rewrite Forall_forall in HO. apply HO, nth_In, F3, Hi.
    - intros E. apply map_eq_nil in E. contradiction.
    - rewrite map_length in H3. fold T in H1, H2, H3. auto. }
  assert (Hsv : NoDup sv /\ (forall i, In i sv -> In i fe) /\ (length sv <= length U)%nat /\ (fe <> [] -> (1 <= length sv)%nat) /\ (forall i, In i sv <-> exists k, fe <> [] /\ In k T /\ nth k fe 0%nat = i)).
  { unfold sv. destruct (Nat.eqb_spec (length fe) 0) as [E|E].
    - assert (Ef : fe = []) by (destruct fe; [auto|discriminate]). split; [constructor|]. split; [intros i []|]. split; [cbn; lia|]. split; [congruence|]. intros i. split; [intros []|intros (k & H & _); congruence].
    - assert (Ef : fe <> []) by (intros C; rewrite C in E; cbn in E; lia). destruct (HT Ef) as (T1 & T2 & T3). split; [now apply NoDup_gather|]. split; [intros i Hi; apply In_gather in Hi as (k & Hk & <-); apply nth_In; auto|]. split; [rewrite length_gather; lia|]. split; [rewrite length_gather; lia|].
      intros i. rewrite In_gather. split; intros (k & Hk); exists k; tauto. }
  destruct Hsv as (S1 & S2 & S3 & S4 & S5).
  assert (Hres : (if (0 <? n - length sv)%nat then sv ++ firstn (n - length sv) infe else sv) = sv ++ firstn (n - length sv) infe).
  { destruct (Nat.ltb_spec 0 (n - length sv)); auto. replace (n - length sv)%nat with 0%nat by lia. simpl. now rewrite app_nil_r. }
  rewrite Hres. assert (Hfe : forall i, In i fe -> ~ In i infe) by (intros i Hi Hj; apply F3 in Hi; apply F4 in Hj; destruct Hi, Hj; congruence).
  assert (Ef : filter (fun i => feas (nth i pop d)) (sv ++ firstn (n - length sv) infe) = sv).
  { rewrite filter_app. assert (E1 : forall l, (forall i, In i l -> feas (nth i pop d) = true) -> filter (fun i => feas (nth i pop d)) l = l) by (induction l as [|x l IH]; intros H; cbn [filter]; auto; rewrite (H x) by (cbn; auto); f_equal; apply IH; intros; apply H; cbn; auto).
    assert (E2 : forall l, (forall i, In i l -> feas (nth i pop d) = false) -> filter (fun i => feas (nth i pop d)) l = []) by (induction l as [|x l IH]; intros H; cbn [filter]; auto; rewrite (H x) by (cbn; auto); apply IH; intros; apply H; cbn; auto).
    rewrite E1 by (intros i Hi; now apply F3, S2); rewrite E2 by (intros i Hi; apply firstn_In in Hi; now apply F4 in Hi). apply app_nil_r. }
  assert (Ei : filter (fun i => negb (feas (nth i pop d))) (sv ++ firstn (n - length sv) infe) = firstn (n - length sv) infe).
  { rewrite filter_app. assert (E1 : forall l, (forall i, In i l -> feas (nth i pop d) = true) -> filter (fun i => negb (feas (nth i pop d))) l = []) by (induction l as [|x l IH]; intros H; cbn [filter]; auto; rewrite (H x) by (cbn; auto); cbn [negb]; apply IH; intros; apply H; cbn; auto).
    assert (E2 : forall l, (forall i, In i l -> feas (nth i pop d) = false) -> filter (fun i => negb (feas (nth i pop d))) l = l) by (induction l as [|x l IH]; intros H; cbn [filter]; auto; rewrite (H x) by (cbn; auto); cbn [negb]; f_equal; apply IH; intros; apply H; cbn; auto).
    rewrite E1 by (intros i Hi; now apply F3, S2); rewrite E2 by (intros i Hi; apply firstn_In in Hi; now apply F4 in Hi). reflexivity. }
  rewrite Ef, Ei. split; [|split; [|split; [|split; [|split; [|split]]]]]; auto.
  - apply NoDup_app_iff. split; auto. split; [now apply NoDup_firstn|]. intros x Hx Hy. apply (Hfe x); auto. eapply firstn_In; eauto.
  - intros i Hi. apply in_app_iff in Hi as [Hi|Hi]; [apply S2, F3 in Hi; tauto|apply firstn_In, F4 in Hi; tauto].
  - rewrite firstn_length. lia.
  - intros i j Hi Hif Hj Hjf Hjn. apply in_app_iff in Hi as [Hi|Hi]; [apply S2, F3 in Hi; destruct Hi; congruence|].
    assert (Hjin : In j infe) by (apply F4; auto). apply (In_nth _ _ 0%nat) in Hjin as (q & Hq & Eq). apply (In_firstn_nth _ _ _ 0%nat) in Hi as (p & Hp1 & Hp2 & Ep). rewrite <- Ep, <- Eq.
    destruct (Nat.lt_ge_cases q (n - length sv)) as [Hqn|Hqn]; [|apply F6; lia]. exfalso. apply Hjn. apply in_app_iff. right. apply (In_firstn_nth _ _ _ 0%nat). exists q. auto.
Qed.
Print Assumptions C82_population.

(** ** budget: a budget of evaluations above the population size is never used up, and missed by at most one generation *)
Theorem C82_budget : forall E pop off, (0 < off)%nat -> ((pop < E)%nat -> (rvea_evals E pop off < E <= rvea_evals E pop off + off)%nat) /\ ((E <= pop)%nat -> rvea_evals E pop off = pop).
Proof.
  intros E pop off Ho. unfold rvea_evals, rvea_n_gen. set (q := ((inject_Z (Z.of_nat E) - inject_Z (Z.of_nat pop)) / inject_Z (Z.of_nat off))%Q). set (c := Qceiling q).
  assert (Hq : (q * inject_Z (Z.of_nat off) == inject_Z (Z.of_nat E - Z.of_nat pop))%Q). { unfold q. rewrite inject_Z_plus || idtac. unfold Qminus. rewrite <- inject_Z_opp, <- inject_Z_plus. replace (Z.of_nat E + - Z.of_nat pop)%Z with (Z.of_nat E - Z.of_nat pop)%Z by lia. apply Qmult_comm_div || (field; change 0%Q with (inject_Z 0); rewrite inject_Z_injective; lia). }
  assert (HO : (0 < inject_Z (Z.of_nat off))%Q) by (change 0%Q with (inject_Z 0); rewrite <- Zlt_Qlt; lia).
  pose proof (Qle_ceiling q) as H1. pose proof (Qceiling_lt q) as H2. fold c in H1, H2.
  assert (U1 : (Z.of_nat E - Z.of_nat pop <= c * Z.of_nat off)%Z). { rewrite Zle_Qle, inject_Z_mult, <- Hq. apply Qmult_le_compat_r; auto. apply Qlt_le_weak; auto. }
  assert (U2 : ((c - 1) * Z.of_nat off < Z.of_nat E - Z.of_nat pop)%Z). { rewrite Zlt_Qlt, inject_Z_mult, <- Hq. apply Qmult_lt_compat_r; auto. }
  split; intros H.
  - assert (Hc : (1 <= c)%Z) by nia. assert (EN : Z.of_nat ((Z.to_nat c - 1) * off) = ((c - 1) * Z.of_nat off)%Z) by (rewrite Nat2Z.inj_mul, Nat2Z.inj_sub by lia; rewrite Z2Nat.id by lia; lia). lia.
  - assert (Hc : (c <= 0)%Z) by nia. replace (Z.to_nat c - 1)%nat with 0%nat by lia. lia.
Qed.
Print Assumptions C82_budget.

(** ** what is not guaranteed *)
Definition dirs2 : list (list R) := [[1; 0]; [0; 1]].
Lemma norm2 x y : norm [x; y] = sqrt (x * x + y * y).
Proof. unfold norm, rsum. cbn. f_equal. ring. Qed.
Lemma state2 : state_ok 2 dirs2 (apd_init dirs2).
Proof.
  assert (E : calc_V dirs2 = map Some dirs2).
  { assert (E0 : norm [1; 0] = 1) by (rewrite norm2; replace (1 * 1 + 0 * 0) with 1 by ring; apply sqrt_1). assert (E1 : norm [0; 1] = 1) by (rewrite norm2; replace (0 * 0 + 1 * 1) with 1 by ring; apply sqrt_1).
    unfold calc_V, dirs2. cbn [map]. unfold unit_row. rewrite E0, E1. destruct (Req_EM_T 1 0); [lra|]. cbn [map]. replace (1 / 1) with 1 by field. replace (0 / 1) with 0 by field. reflexivity. }
  unfold state_ok, apd_init. cbn [s_V s_gamma s_ideal]. rewrite E. repeat split; auto; [|discriminate]. unfold dirs2. repeat constructor; unfold dot, rsum; cbn; ring.
Qed.
Lemma size_lt x y c : 0 < c -> / 10 ^ 64 < c -> x * x + y * y < c * c -> size [x; y] < c.
Proof. intros H1 H2 H3. unfold size. rewrite norm2. apply Rmax_lub_lt; auto. rewrite <- (sqrt_square c) by lra. apply sqrt_lt_1_alt. split; [pose proof (Rle_0_sqr x); pose proof (Rle_0_sqr y); unfold Rsqr in *; lra|auto]. Qed.
Lemma size_ge x y c : 0 <= c -> c * c <= x * x + y * y -> c <= size [x; y].
Proof. intros H1 H3. unfold size. rewrite norm2. eapply Rle_trans; [|apply Rmax_l]. rewrite <- (sqrt_square c) by lra. now apply sqrt_le_1_alt. Qed.
Lemma tiny_lt_1 : / 10 ^ 64 < 1.
Proof. rewrite <- Rinv_1. apply Rinv_lt_contravar; [rewrite Rmult_1_l; apply pow_lt; lra|]. apply Rlt_pow_R1; [lra|lia]. Qed.
Lemma closest2 x y k : closest dirs2 [x; y] k -> (x < y -> k = 1%nat) /\ (y < x -> k = 0%nat).
Proof.
  intros [Hk H]. cbn in Hk. destruct k as [|[|k]]; [| |lia]; split; intros L; auto; exfalso.
  - specialize (H 1%nat ltac:(cbn; lia)). unfold dot, rsum in H. cbn in H. lra.
  - specialize (H 0%nat ltac:(cbn; lia)). unfold dot, rsum in H. cbn in H. lra.
Qed.
Lemma minus0 x y : minus [x; y] [0; 0] = [x; y].
Proof. unfold minus. cbn. f_equal; [ring|f_equal; ring]. Qed.
Lemma apd0 v g n p : apd_of v g (n * 0) p = size p.
Proof. unfold apd_of. ring. Qed.

Definition F82 : list (list R) := [[0; 3]; [1; 2]; [3; 0]].
Lemma ideal82 : new_ideal None F82 = [0; 0].
Proof. unfold F82. cbn. rewrite (Rmin_left 0 1), (Rmin_left 0 3), (Rmin_right 3 2), (Rmin_right 2 0) by lra. reflexivity. Qed.
Lemma lost82 : ~ In 0%nat (fst (apd_do 2 0 (apd_init dirs2) F82)).
Proof.
  intros H0. destruct (C82_survivors 2 dirs2 (apd_init dirs2) 2 0 F82 state2) as (z & Ez & _ & _ & _ & ni & HC & HU & HM); [repeat constructor|discriminate|].
  assert (z = [0; 0]) by (injection Ez as <-; apply ideal82). subst z.
  pose proof (HC 0%nat ltac:(cbn; lia)) as C0. pose proof (HC 1%nat ltac:(cbn; lia)) as C1. cbn [nth F82] in C0, C1. rewrite minus0 in C0, C1. apply closest2 in C0 as [C0 _], C1 as [C1 _]. specialize (C0 ltac:(lra)). specialize (C1 ltac:(lra)).
  destruct (HM 1%nat ltac:(cbn; lia)) as (i & g & Hi & Hn & _ & Hle). assert (i = 0%nat) by (apply HU; auto; congruence). subst i. rewrite !apd0 in Hle. cbn [nth F82] in Hle. rewrite !minus0 in Hle.
  pose proof (size_ge 0 3 3 ltac:(lra) ltac:(lra)). pose proof tiny_lt_1. pose proof (size_lt 1 2 3 ltac:(lra) ltac:(lra) ltac:(lra)). lra.
Qed.
(** "the best value of every objective survives" is false: of (0,3), (1,2), (3,0) the first, alone best in the first objective, is removed - although nothing forces a removal *)
Theorem C82_extreme_refuted : ~ (forall m U st n_obj w F, state_ok m U st -> vectors m F -> F <> [] -> forall q, (q < m)%nat ->
  exists i, In i (fst (apd_do n_obj w st F)) /\ forall j, (j < length F)%nat -> nth q (nth i F []) 0 <= nth q (nth j F []) 0).
Proof.
  intros H. destruct (H 2%nat dirs2 (apd_init dirs2) 2%nat 0 F82 state2 ltac:(repeat constructor) ltac:(discriminate) 0%nat ltac:(lia)) as (i & Hi & Hm).
  destruct (C82_survivors 2 dirs2 (apd_init dirs2) 2 0 F82 state2) as (z & _ & _ & _ & HR & _); [repeat constructor|discriminate|]. pose proof (HR i Hi) as Li. cbn in Li. destruct i as [|[|[|i]]]; [now apply lost82| | |lia]; specialize (Hm 0%nat ltac:(cbn; lia)); cbn in Hm; lra.
Qed.
(** "no survivor is dominated by another one" (hence "the reported optimum is non-dominated") is false *)
Definition F82b : list (list R) := [[1; 2]; [4; 3]; [0; 10]; [10; 0]].
Lemma ideal82b : new_ideal None F82b = [0; 0].
Proof. unfold F82b. cbn. rewrite (Rmin_left 1 4), (Rmin_right 1 0), (Rmin_left 0 10), (Rmin_left 2 3), (Rmin_left 2 10), (Rmin_right 2 0) by lra. reflexivity. Qed.
Theorem C82_dominated_refuted : ~ (forall m U st n_obj w F, state_ok m U st -> vectors m F -> F <> [] -> forall i j, In i (fst (apd_do n_obj w st F)) -> In j (fst (apd_do n_obj w st F)) ->
  ~ (forall q, (q < m)%nat -> nth q (nth i F []) 0 < nth q (nth j F []) 0)).
Proof.
  intros H. specialize (H 2%nat dirs2 (apd_init dirs2) 2%nat 0 F82b state2 ltac:(repeat constructor) ltac:(discriminate)).
  destruct (C82_survivors 2 dirs2 (apd_init dirs2) 2 0 F82b state2) as (z & Ez & _ & _ & HR & ni & HC & HU & HM); [repeat constructor|discriminate|]. assert (z = [0; 0]) by (injection Ez as <-; apply ideal82b). subst z.
  pose proof (HC 0%nat ltac:(cbn; lia)) as C0. pose proof (HC 1%nat ltac:(cbn; lia)) as C1. pose proof (HC 2%nat ltac:(cbn; lia)) as C2. pose proof (HC 3%nat ltac:(cbn; lia)) as C3. cbn [nth F82b] in C0, C1, C2, C3. rewrite minus0 in C0, C1, C2, C3.
  apply closest2 in C0 as [C0 _], C1 as [_ C1], C2 as [C2 _], C3 as [_ C3]. specialize (C0 ltac:(lra)). specialize (C1 ltac:(lra)). specialize (C2 ltac:(lra)). specialize (C3 ltac:(lra)). pose proof tiny_lt_1.
  assert (I0 : In 0%nat (fst (apd_do 2 0 (apd_init dirs2) F82b))).
  { destruct (HM 0%nat ltac:(cbn; lia)) as (i & g & Hi & Hn & _ & Hle). pose proof (HR i Hi) as Li. cbn in Li. rewrite !apd0 in Hle. destruct i as [|[|[|[|i]]]]; auto; try lia; try congruence. cbn [nth F82b] in Hle. rewrite !minus0 in Hle.
    pose proof (size_ge 0 10 10 ltac:(lra) ltac:(lra)). pose proof (size_lt 1 2 3 ltac:(lra) ltac:(lra) ltac:(lra)). lra. }
  assert (I1 : In 1%nat (fst (apd_do 2 0 (apd_init dirs2) F82b))).
  { destruct (HM 1%nat ltac:(cbn; lia)) as (i & g & Hi & Hn & _ & Hle). pose proof (HR i Hi) as Li. cbn in Li. rewrite !apd0 in Hle. destruct i as [|[|[|[|i]]]]; auto; try lia; try congruence. cbn [nth F82b] in Hle. rewrite !minus0 in Hle.
    pose proof (size_ge 10 0 10 ltac:(lra) ltac:(lra)). pose proof (size_lt 4 3 6 ltac:(lra) ltac:(lra) ltac:(lra)). lra. }
  apply (H 0%nat 1%nat I0 I1). intros q Hq. destruct q as [|[|q]]; [| |lia]; cbn; lra.
Qed.
(** "feasible solutions first" is false, and infeasible solutions are reported as optimal next to feasible ones *)
Definition pop82 : list (list R * bool) := [([0; 3], true); ([1; 2], true); ([3; 0], true); ([9; 9], false)].
Theorem C82_feasible_first_refuted : forall cv asort argmin_cv, asort_ok asort ->
  let S := survival_do ([], false) cv snd asort (apd_inner fst 2 0 (apd_init dirs2)) true true (Some 3%nat) pop82 in
  ~ In 0%nat S /\ In 3%nat S /\ In ([9; 9], false) (rvea_opt ([], false) snd argmin_cv (gather ([], false) pop82 S)).
Proof.
  intros cv asort argmin_cv Ha S. destruct (C82_population (list R * bool) ([], false) cv snd asort fst 2 dirs2 (apd_init dirs2) 2 0 (Some 3%nat) pop82 Ha state2) as (N & R & L1 & L2 & HF & HI & _); [repeat constructor|discriminate|].
  fold S in N, R, L1, L2, HF, HI. assert (Efe : where_ (fun i => snd (nth i pop82 ([], false))) (length pop82) = [0; 1; 2]%nat) by reflexivity. rewrite Efe in *. cbn [length pop82 dirs2] in L1, HI.
  assert (H3 : In 3%nat S).
  { set (si := filter (fun i => negb (snd (nth i pop82 ([], false)))) S) in *. assert (Hs : si <> []) by (intros E; rewrite E in HI; cbn [length] in HI; lia). destruct si as [|i l] eqn:E; [congruence|]. assert (Hi : In i (filter (fun i => negb (snd (nth i pop82 ([], false)))) S)) by (fold si; rewrite E; cbn; auto).
    apply filter_In in Hi as [Hi Hn]. pose proof (R i Hi) as Li. cbn in Li. destruct i as [|[|[|[|i]]]]; try discriminate; [auto|lia]. }
  split; [|split; auto].
  - intros H0. assert (Hs : In 0%nat (filter (fun i => snd (nth i pop82 ([], false))) S)) by (apply filter_In; auto). apply HF in Hs as (k & _ & Hk & E). destruct k as [|[|[|k]]]; try discriminate; [now apply lost82|].
    destruct (C82_survivors 2 dirs2 (apd_init dirs2) 2 0 F82 state2) as (z & _ & _ & _ & HR & _); [repeat constructor|discriminate|]. apply HR in Hk. cbn in Hk. lia.
  - unfold rvea_opt. assert (HE : existsb snd (gather ([], false) pop82 S) = true).
    { set (sf := filter (fun i => snd (nth i pop82 ([], false))) S) in *. specialize (L2 ltac:(discriminate)). destruct sf as [|i l] eqn:E; [cbn in L2; lia|]. assert (Hi : In i (filter (fun i => snd (nth i pop82 ([], false))) S)) by (fold sf; rewrite E; cbn; auto).
      apply filter_In in Hi as [Hi Hs]. apply existsb_exists. exists (nth i pop82 ([], false)). split; auto. unfold gather. apply in_map_iff. exists i. auto. }
    rewrite HE. unfold gather. apply in_map_iff. exists 3%nat. auto.
Qed.
(** the hypotheses of C82_constant_objective are met: every solution has the same first objective *)
Example C82_constant_case : forall n_obj w F', F' <> [] -> fst (apd_do n_obj w (apd_adapt dirs2 (snd (apd_do 2 0 (apd_init dirs2) [[0; 1]; [0; 2]; [0; 5]]))) F') = [0%nat].
Proof.
  intros n_obj w F' HN. apply (C82_constant_objective 2 dirs2 dirs2 (apd_init dirs2) 2 0 [[0; 1]; [0; 2]; [0; 5]] 0 0); [apply state2|repeat constructor|discriminate|repeat constructor|lia|cbn; lia| | |exact HN].
  - intros [|[|i]] Hi; cbn; auto; [congruence|destruct i; auto].
  - intros z f Ez Hf. injection Ez as <-. cbn [In] in Hf. decompose [or] Hf; subst; try contradiction; cbn; rewrite !(Rmin_left 0 0) by lra; reflexivity.
Qed.
