(** * C104: Omni-Optimizer: the best solution of every objective survives *)
From Coq Require Import List Arith Bool ZArith QArith Lia Lqa Permutation.
From Verif Require Import Flt ListAux M_NDS S_Pareto S_NDS P_Peel P_NDS1 P_NDS2 M_Survival S_Survival P_Survival P_Survival2 M_Crowding Thm_Crowding Thm_Default2 Thm_Pruning4 Thm_Pruning6 M_Omni Thm_Omni Thm_Omni2 Thm_Omni3 Thm_Omni4.
From Verif Require NpSort Thm_Survival.
Import ListNotations.
Local Open Scope nat_scope.

Lemma pareto_dec m F i j : pareto m F i j \/ ~ pareto m F i j.
Proof.
  unfold pareto. destruct (forallb (fun k => Qle_bool (val F i k) (val F j k)) (seq 0 m)) eqn:E1.
  - destruct (existsb (fun k => qlt (val F i k) (val F j k)) (seq 0 m)) eqn:E2.
    + left. split.
      * intros k Hk. rewrite forallb_forall in E1. apply Qle_bool_iff, E1, in_seq. lia.
      * apply existsb_exists in E2 as (k & Hk & K). apply in_seq in Hk. exists k. split; [lia|]. now apply qlt_iff.
    + right. intros [_ (k & Hk & K)]. apply not_true_iff_false in E2. apply E2, existsb_exists. exists k. split; [apply in_seq; lia|now apply qlt_iff].
  - right. intros [A _]. apply not_true_iff_false in E1. apply E1, forallb_forall. intros k Hk. apply in_seq in Hk. apply Qle_bool_iff, A. lia.
Qed.
(** a Pareto-non-dominated solution attains the least value of an objective *)
Lemma nondominated_least m F k : F <> [] -> k < m -> exists i, i < length F /\ (forall j, j < length F -> ~ pareto m F j i) /\ forall j, j < length F -> (val F i k <= val F j k)%Q.
Proof.
  intros HF Hk. set (v := col F k). assert (HV : v <> []) by (unfold v, col; destruct F; [congruence|discriminate]).
  assert (VN : forall i, i < length F -> nth i v 0%Q = val F i k).
  { intros i Hi. unfold v, col, val. rewrite (nth_indep _ 0%Q (nth k [] 0%Q)) by now rewrite map_length. rewrite (map_nth (fun r => nth k r 0%Q)). reflexivity. }
  destruct (Thm_Crowding.qmin_list_min v HV) as [QI QM]. set (mn := M_RefDirs2.qmin_list v) in *.
  set (l := filter (fun i => Qeq_bool (val F i k) mn) (seq 0 (length F))).
  assert (HL : l <> []).
  { destruct (In_nth _ _ 0%Q QI) as (i & Hi & E). unfold v, col in Hi. rewrite map_length in Hi. intros K. assert (In i l) by (apply filter_In; split; [apply in_seq; lia|]; apply Qeq_bool_iff; rewrite <- VN by auto; rewrite E; reflexivity). rewrite K in H. destruct H. }
  destruct (minimal_exists (pareto m F) (pareto_dec m F) l (pareto_irrefl m F) (pareto_trans m F) HL) as (x & Hx & Hmin).
  apply filter_In in Hx as [Hx1 Hx2]. apply in_seq in Hx1. apply Qeq_bool_iff in Hx2. assert (LE : forall j, j < length F -> (mn <= val F j k)%Q) by (intros j Hj; rewrite <- VN by auto; apply QM, nth_In; unfold v, col; now rewrite map_length).
  exists x. split; [lia|]. split; [|intros j Hj; rewrite Hx2; auto]. intros j Hj HD. apply (Hmin j); auto. apply filter_In. split; [apply in_seq; lia|]. apply Qeq_bool_iff. destruct HD as [HD _]. specialize (HD k Hk). specialize (LE j Hj). lra.
Qed.
Lemma gather_nth_row (F : list (list Q)) (front : list nat) p : p < length front -> nth p (gather [] F front) [] = nth (nth p front 0) F [].
Proof. intros Hp. unfold gather. rewrite (nth_indep _ [] (nth 0 F [])) by now rewrite map_length. apply (map_nth (fun i => nth i F [])). Qed.

Section Best.
  Variables (asort dsort : list Q -> list nat) (vc : bool) (delta : Q) (m d : nat) (F X : list (list Q)) (n : nat).
  Hypotheses (HS : stable_ok asort) (HD : qdsort_ok dsort) (Hm : 0 < m) (Hd : 0 < d) (HF : F <> []) (HL : forall r, In r F -> length r = m) (HX : length X = length F) (Hn : n <= length F).
  Lemma crowd_cases G Y cs : length Y = length G -> omni_crowding asort true vc m d G Y = Some cs -> 3 <= length G -> forall i, i < length G -> (boundary m G i -> nth i cs 0%Q = 10%Q) /\ (~ boundary m G i -> (nth i cs 0 <= 2)%Q).
  Proof.
    clear HF HL HX Hn HD. intros LY E H3 i Hi. destruct vc.
    - destruct (C104_combined_crowding asort m d G Y HS Hm Hd LY) as (c & E' & _ & _ & C). assert (c = cs) by congruence. subst c. destruct (C H3 i Hi) as (A & B & _). split; auto. intros K. apply B, K.
    - cbn in E. injection E as <-. destruct (C104_objective_crowding asort m G HS Hm) as (_ & _ & O). cbv zeta in O. destruct (O H3 i Hi) as [A B]. split; auto. intros K. destruct (B K) as (_ & _ & K'). lra.
  Qed.
  Lemma boundary_few G l : 3 <= length G -> NoDup l -> (forall p, In p l -> p < length G /\ boundary m G p) -> length l <= m.
  Proof.
    clear HF HL HX Hn HD Hd. intros H3 HN H. assert (incl l (map (fun j => nth 0 (asort (col G j)) 0) (seq 0 m))).
    { intros p Hp. destruct (H p Hp) as [Hlt (j & Hj & B)]. apply in_map_iff. exists j. split; [|apply in_seq; lia]. apply (nth0_first asort (col G j) HS); rewrite ?len_col; auto. }
    apply NoDup_incl_length in H0; auto. now rewrite map_length, seq_length in H0.
  Qed.
  Lemma best_ok k : m <= n -> 2 <= n -> k < m -> exists st i, omni_do asort true vc delta m d dsort F X n = Some st /\ In i (om_surv st) /\ i < length F /\ forall j, j < length F -> (val F i k <= val F j k)%Q.
  Proof.
    intros Hmn H2 Hk. destruct (surv_spec asort dsort true vc delta m d F X n HS HD eq_refl Hm Hd HF HL HX Hn) as (st & full & E & EF & HP & HSel & HST & HSO & HO).
    exists st. pose proof HP as (HPP & HNE & HPF). pose proof (perm_seq_NoDup _ _ HPP) as HND.
    destruct (nondominated_least m F k HF Hk) as (x & Hx & HXN & HXM).
    destruct (C104_fronts delta m F HF HL) as (full' & E' & _ & FR & _). assert (full' = full) by congruence. subst full'. pose proof (FR x Hx HXN) as Hx0.
    set (f0 := nth 0 full []) in *. destruct (Nat.le_gt_cases (length f0) n) as [LE|GT].
    - exists x. split; auto. split; [|split; auto]. apply (best_front_survives (length F) (loose delta m F) full (om_surv st) n HP HSel LE); auto. intros i j ri rj A B C D. apply (HO i j ri rj A B C D).
    - set (G := gather [] F f0). set (Y := gather [] X f0). assert (LG : length G = length f0) by apply length_gather. assert (LY : length Y = length G) by (unfold G, Y; now rewrite !length_gather).
      assert (F0N : forall i, In i f0 -> i < length F).
      { intros i Hi. apply (perm_seq_In _ _ i HPP). apply in_concat_nth. exists 0. split; auto. eapply nth_In_lt; exact Hi. }
      assert (NDF : NoDup f0).
      { unfold f0. destruct full as [|f fs]; [constructor|]. cbn in HND |- *. now apply NoDup_app_iff in HND as [A _]. }
      (* the first of the least in objective k within the front *)
      set (p := nth 0 (asort (col G k)) 0).
      assert (LCG : length (col G k) = length G) by apply len_col.
      assert (LP : p < length G) by (unfold p; rewrite <- LCG; apply (J_lt asort (col G k) HS); lia).
      assert (FP : first_of (col G k) p) by (apply (nth0_first asort (col G k) HS); rewrite ?len_col; auto; lia).
      assert (CG : forall q, q < length G -> nth q (col G k) 0%Q = val F (nth q f0 0) k).
      { intros q Hq. unfold col, val. rewrite (nth_indep _ 0%Q (nth k [] 0%Q)) by now rewrite map_length. rewrite (map_nth (fun r => nth k r 0%Q)). unfold G. rewrite gather_nth_row by lia. reflexivity. }
      set (b := nth p f0 0). assert (HB : In b f0) by (apply nth_In; lia).
      assert (BM : forall j, j < length F -> (val F b k <= val F j k)%Q).
      { intros j Hj. apply Qle_trans with (val F x k); [|auto]. destruct (In_nth _ _ 0 Hx0) as (q & Hq & Eq). destruct (Nat.eq_dec q p) as [->|Hne]; [unfold b; rewrite Eq; lra|].
        destruct FP as [_ FP]. specialize (FP q ltac:(rewrite len_col; lia) Hne). apply bef_le in FP. rewrite !CG in FP by lia. rewrite Eq in FP. exact FP. }
      exists b. split; auto. split; [|split; auto].
      destruct (in_dec Nat.eq_dec b (om_surv st)) as [|NB]; auto. exfalso.
      destruct HSel as (S1 & S2 & S3).
      assert (ALL : forall i, In i (om_surv st) -> exists q, q < length f0 /\ nth q f0 0 = i /\ boundary m G q).
      { intros i Hi. pose proof (S2 i Hi) as Hlt. apply (perm_seq_In _ _ i HPP) in Hlt. apply in_concat_nth in Hlt as (ri & Hri & Hir). destruct (HO i b ri 0 Hi NB Hir HB) as [R1 R2]. assert (ri = 0) by lia. subst ri.
        destruct (R2 eq_refl) as (ci & cb & C1 & C2 & C3). destruct (HST i 0 ci Hir C1) as [_ (cs & q & Q1 & Q2 & Q3 & Q4)]. destruct (HST b 0 cb HB C2) as [_ (cs' & q' & Q1' & Q2' & Q3' & Q4')].
        fold f0 in Q1, Q2, Q3, Q1', Q2', Q3'. fold G in Q1, Q1'. fold Y in Q1, Q1'. assert (cs' = cs) by congruence. subst cs'.
        assert (q' = p) by (apply (proj1 (NoDup_nth f0 0) NDF); auto; lia). subst q'.
        destruct (crowd_cases G Y cs LY Q1 ltac:(lia) p LP) as [KP _]. rewrite KP in Q4' by (exists k; auto). 
        exists q. split; auto. split; auto. destruct (is_boundary asort m G q) eqn:EB; [apply (is_boundary_iff asort m G q HS); auto; lia|].
        exfalso. destruct (crowd_cases G Y cs LY Q1 ltac:(lia) q ltac:(lia)) as [_ KQ]. assert (~ boundary m G q) by (intros K; apply (is_boundary_iff asort m G q HS ltac:(lia) ltac:(lia)) in K; congruence). specialize (KQ H). subst. lra. }
      (* more than m marked solutions *)
      set (ix := map (fun i => index_of i f0) (b :: om_surv st)).
      assert (IX : forall i, In i (b :: om_surv st) -> In i f0 /\ boundary m G (index_of i f0)).
      { intros i [<-|Hi].
        - split; auto. unfold b. rewrite index_of_nth by (auto; lia). exists k. auto.
        - destruct (ALL i Hi) as (q & Hq & Eq & Bq). subst i. split; [now apply nth_In|]. now rewrite index_of_nth by auto. }
      assert (length ix <= m).
      { apply (boundary_few G); [lia| |].
        - unfold ix. assert (GEN : forall l, NoDup l -> (forall i, In i l -> In i f0) -> NoDup (map (fun i => index_of i f0) l)).
          { induction l as [|y l IH]; intros HN HI; [constructor|]. apply NoDup_cons_iff in HN as [N1 N2]. cbn. apply NoDup_cons; [|apply IH; auto; intros; apply HI; now right].
            intros K. apply in_map_iff in K as (z & Ez & Hz). destruct (index_of_spec y f0 (HI y ltac:(now left))) as [_ Y1]. destruct (index_of_spec z f0 (HI z ltac:(now right))) as [_ Z1]. rewrite Ez in Z1. congruence. }
          apply GEN; [apply NoDup_cons; auto|]. intros i Hi. apply IX, Hi.
        - intros q Hq. apply in_map_iff in Hq as (i & <- & Hi). destruct (IX i Hi) as [I1 I2]. split; auto. rewrite LG. apply index_of_spec, I1. }
      unfold ix in H. rewrite map_length in H. cbn in H. lia.
  Qed.
End Best.

(** C104: if crowding in the objective space is enabled and at least two and at least as many survive as there are objectives, then for every objective a solution with the least value survives *)
Theorem C104_best_survives : forall asort dsort vc delta m d F X n k, stable_ok asort -> qdsort_ok dsort -> 0 < d -> F <> [] -> (forall r, In r F -> length r = m) -> length X = length F ->
  m <= n -> 2 <= n -> n <= length F -> k < m ->
  exists st i, omni_do asort true vc delta m d dsort F X n = Some st /\ In i (om_surv st) /\ i < length F /\ forall j, j < length F -> (val F i k <= val F j k)%Q.
Proof. intros. apply best_ok; auto; lia. Qed.
Print Assumptions C104_best_survives.

(** a descending argsort for the examples *)
Definition dsort_ex (keys : list Q) : list nat := st_sort (map Qopp keys).
Lemma dsort_ex_ok : qdsort_ok dsort_ex.
Proof.
  intros keys. unfold dsort_ex. destruct (st_sort_stable (map Qopp keys)) as [P O]. rewrite map_length in *. split; auto. intros p q Hpq Hq. specialize (O p q Hpq Hq). cbv zeta in O.
  change 0%Q with (Qopp 0%Q) in O. rewrite !map_nth in O. destruct O as [O|[O _]]; lra.
Qed.
(** C104: without crowding in the objective space the only best solution of an objective may be lost *)
Theorem C104_best_lost_refuted : exists F X st, (forall r, In r F -> length r = 2) /\ length X = length F /\ omni_do st_sort false true 0 2 1 dsort_ex F X 3 = Some st /\
  ~ In 1 (om_surv st) /\ forall j, j < length F -> j <> 1 -> (val F 1 0 < val F j 0)%Q.
Proof.
  exists [[1; 2]; [0; 3]; [2; 1]; [3; 0]]%Q, [[1]; [0]; [4]; [10]]%Q. eexists. split; [intros r [<-|[<-|[<-|[<-|[]]]]]; reflexivity|]. split; [reflexivity|]. split; [vm_compute; reflexivity|].
  split; [cbn; intuition discriminate|]. intros [|[|[|[|j]]]] Hj Hne; cbn in Hj; try lia; vm_compute; reflexivity.
Qed.
Print Assumptions C104_best_lost_refuted.
Example C104_best_ex : exists F X st, (forall r, In r F -> length r = 2) /\ omni_do st_sort true true (1 # 1000) 2 1 dsort_ex F X 3 = Some st /\ In 1 (om_surv st) /\ length F = 4.
Proof.
  exists [[1; 2]; [0; 3]; [2; 1]; [3; 0]]%Q, [[0]; [1]; [4]; [10]]%Q. eexists. split; [intros r [<-|[<-|[<-|[<-|[]]]]]; reflexivity|]. split; [vm_compute; reflexivity|]. split; [cbn; auto|reflexivity].
Qed.

(** ** with constraints: core/survival.py calls it on the feasible solutions *)
Section Constr.
  Context {A : Type}.
  Variables (a0 : A) (cv : A -> flt) (feas : A -> bool) (obj var : A -> list Q) (fsort : list flt -> list nat).
  Variables (asort dsort : list Q -> list nat) (oc vc : bool) (delta : Q) (m d : nat).
  Definition omni_inner (pop : list A) (n : nat) : list nat := match omni_do asort oc vc delta m d dsort (map obj pop) (map var pop) n with Some st => om_surv st | None => [] end.
  Hypotheses (HFS : NpSort.asort_ok fsort) (HS : stable_ok asort) (HD : qdsort_ok dsort) (Hon : oc || vc = true) (Hm : 0 < m) (Hd : 0 < d).
  Definition owf (a : A) : Prop := length (obj a) = m.
  Lemma omni_inner_ok : inner_ok owf omni_inner.
  Proof.
    clear HFS. intros pop n HN HW Hn. unfold omni_inner.
    destruct (surv_spec asort dsort oc vc delta m d (map obj pop) (map var pop) n HS HD Hon Hm Hd) as (st & full & E & _ & _ & SEL & _).
    - destruct pop; [congruence|discriminate].
    - intros r Hr. apply in_map_iff in Hr as (a & <- & Ha). rewrite Forall_forall in HW. apply HW, Ha.
    - now rewrite !map_length.
    - now rewrite map_length.
    - rewrite E. now rewrite map_length in SEL.
  Qed.
End Constr.
(** C104: with constraints: as many as requested survive, an infeasible solution survives only if all feasible ones do and no infeasible one with a smaller violation is lost; and a best feasible solution of every
    objective survives, if crowding in the objective space is enabled and at least two and at least as many survive as there are objectives *)
Theorem C104_constrained : forall (A : Type) (a0 : A) cv feas obj var fsort asort dsort oc vc delta m d n (pop : list A), NpSort.asort_ok fsort -> stable_ok asort -> qdsort_ok dsort -> oc || vc = true -> 0 < m -> 0 < d ->
  (forall a, In a pop -> length (obj a) = m) ->
  let SV := survival_do a0 cv feas fsort (omni_inner obj var asort dsort oc vc delta m d) true true (Some n) pop in
  selects (length pop) (Nat.min n (length pop)) SV /\
  (forall i j, In i SV -> feas (nth i pop a0) = false -> j < length pop -> feas (nth j pop a0) = true -> In j SV) /\
  (forall i j, In i SV -> feas (nth i pop a0) = false -> j < length pop -> feas (nth j pop a0) = false -> ~ In j SV -> fltb (cv (nth j pop a0)) (cv (nth i pop a0)) = false) /\
  (oc = true -> m <= n -> 2 <= n -> forall k, k < m -> (exists i, i < length pop /\ feas (nth i pop a0) = true) ->
     exists i, In i SV /\ feas (nth i pop a0) = true /\ forall j, j < length pop -> feas (nth j pop a0) = true -> (nth k (obj (nth i pop a0)) 0 <= nth k (obj (nth j pop a0)) 0)%Q).
Proof.
  intros A a0 cv feas obj var fsort asort dsort oc vc delta m d n pop HFS HS HD Hon Hm Hd HW SV.
  assert (FW : Forall (owf obj m) pop) by (apply Forall_forall; exact HW).
  pose proof (omni_inner_ok obj var asort dsort oc vc delta m d HS HD Hon Hm Hd) as IO.
  destruct (Thm_Survival.C10_survival_do A a0 cv feas fsort (owf obj m) (omni_inner obj var asort dsort oc vc delta m d) true true (Some n) pop HFS IO FW) as [S1 S2]. fold SV in S1, S2. destruct (S2 eq_refl eq_refl) as [S3 S4].
  split; auto. split; auto. split; auto. intros -> Hmn H2 k Hk (i0 & Hi0 & Hf0).
  pose proof (split_spec a0 cv feas fsort HFS pop) as SP. unfold SV, survival_do. destruct (Nat.eqb_spec (length pop) 0) as [E0|E0]; [lia|]. cbn [andb].
  destruct (split_by_feasibility a0 cv feas fsort pop) as [fe infe]. destruct SP as (F1 & F2 & F3 & F4 & F5 & F6).
  assert (FE : forall i, In i fe <-> i < length pop /\ feas (nth i pop a0) = true) by (intros i; tauto || apply F1 || apply F2 || apply F3).
  assert (I0 : In i0 fe) by (apply FE; auto). assert (LFE : 0 < length fe) by (destruct fe; [destruct I0|cbn; lia]).
  destruct (Nat.eqb_spec (length fe) 0) as [|_]; [lia|].
  set (inn := omni_inner obj var asort dsort true vc delta m d (gather a0 pop fe) (Nat.min (length fe) (Nat.min n (length pop)))).
  assert (LP : length fe <= length pop).
  { assert (NF : NoDup fe) by tauto. assert (IN : incl fe (seq 0 (length pop))) by (intros i Hi; apply FE in Hi; apply in_seq; lia). apply NoDup_incl_length in IN; auto. now rewrite seq_length in IN. }
  assert (WG : Forall (owf obj m) (gather a0 pop fe)).
  { apply Forall_forall. intros a Ha. apply in_map_iff in Ha as (i & <- & Hi). apply FE in Hi. apply HW, nth_In. tauto. }
  assert (LG : length (gather a0 pop fe) = length fe) by apply length_gather.
  assert (NG : gather a0 pop fe <> []) by (intros K; rewrite K in LG; cbn in LG; lia).
  assert (SI : selects (length fe) (Nat.min (length fe) (Nat.min n (length pop))) inn) by (rewrite <- LG at 1; apply IO; auto; rewrite LG; lia).
  assert (GN : forall p, p < length fe -> nth p (gather a0 pop fe) a0 = nth (nth p fe 0) pop a0).
  { intros p Hp. unfold gather. rewrite (nth_indep _ a0 (nth 0 pop a0)) by now rewrite map_length. apply (map_nth (fun i => nth i pop a0)). }
  assert (MN : forall p, p < length fe -> val (map obj (gather a0 pop fe)) p k = nth k (obj (nth (nth p fe 0) pop a0)) 0%Q).
  { intros p Hp. unfold val. rewrite (nth_indep _ [] (obj a0)) by (now rewrite map_length, LG). rewrite map_nth, GN by auto. reflexivity. }
  assert (BEST : exists p, In p inn /\ p < length fe /\ forall q, q < length fe -> (val (map obj (gather a0 pop fe)) p k <= val (map obj (gather a0 pop fe)) q k)%Q).
  { assert (MF : map obj (gather a0 pop fe) <> []) by (destruct (gather a0 pop fe); [congruence|discriminate]).
    destruct (Nat.le_gt_cases (length fe) n) as [LE|GT].
    - destruct (nondominated_least m (map obj (gather a0 pop fe)) k MF Hk) as (p & Hp & _ & HM). rewrite map_length, LG in Hp, HM. exists p. split; [|split; auto].
      destruct SI as (N1 & N2 & N3). assert (IN : incl (seq 0 (length fe)) inn) by (apply NoDup_length_incl; auto; [rewrite seq_length; lia|intros x Hx; apply in_seq; specialize (N2 x Hx); lia]). apply IN, in_seq. lia.
    - assert (EN : Nat.min (length fe) (Nat.min n (length pop)) = n) by lia. unfold inn. rewrite EN. unfold omni_inner.
      destruct (C104_best_survives asort dsort vc delta m d (map obj (gather a0 pop fe)) (map var (gather a0 pop fe)) n k HS HD Hd MF) as (st & p & E & P1 & P2 & P3); auto; try (rewrite !map_length; auto; lia).
      + intros r Hr. apply in_map_iff in Hr as (a & <- & Ha). rewrite Forall_forall in WG. apply WG, Ha.
      + rewrite E. rewrite map_length, LG in P2, P3. exists p. auto. }
  destruct BEST as (p & P1 & P2 & P3). exists (nth p fe 0).
  assert (IG : In (nth p fe 0) (gather 0 fe inn)) by (apply In_gather; eauto).
  split; [destruct (0 <? Nat.min n (length pop) - length (gather 0 fe inn)); [apply in_app_iff; auto|exact IG]|].
  split; [apply FE, nth_In; auto|]. intros j Hj Hfj. assert (IJ : In j fe) by (apply FE; auto). destruct (In_nth _ _ 0 IJ) as (q & Hq & <-). rewrite <- !MN by auto. apply P3, Hq.
Qed.
Print Assumptions C104_constrained.
