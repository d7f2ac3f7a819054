(** * Theorems C59: NSGA-III's survival *)
From Coq Require Import List Arith Bool ZArith Lia Permutation.
From Verif Require Import Flt ListAux NpSort M_NDS M_Survival M_Optimum M_NSGA3 S_Pareto S_NDS S_Survival S_NSGA3 P_Dominator P_Peel P_Survival P_Survival2 P_Survival3 P_Survival4 P_Perm P_Optimum P_NSGA3.
Import ListNotations.
Local Open Scope nat_scope.

(** C59: niching picks exactly as many members as requested, all different, always from a least occupied niche that still has members, and
    the closest one when the niche is empty; whatever the random permutations and shuffles.  The loop ends without an exception. *)
Theorem C59_niching : forall perm shuf niche dist count r,
  (forall k n, Permutation (perm k n) (seq 0 n)) -> (forall k l, Permutation (shuf k l) l) ->
  (forall i, i < length niche -> nth i niche 0 < length count) -> length dist = length niche -> vec_ok dist ->
  r <= length niche ->
  exists st, niching perm shuf niche dist r count = Some st /\
    length (n_surv st) = r /\ NoDup (n_surv st) /\ (forall i, In i (n_surv st) -> i < length niche) /\
    fills_niches (length niche) (fun i => nth i niche 0) (fun i => nth i dist f_nan) (fun v => nth v count 0) (n_surv st) /\
    (forall v, v < length count -> nth v (n_count st) 0 = nth v count 0 + count_occ Nat.eq_dec (map (fun i => nth i niche 0) (n_surv st)) v).
Proof.
  intros perm shuf niche dist count r Hp Hs Hn Hd1 Hd2 Hr.
  destruct (niching_spec perm shuf niche dist count Hp Hs Hn (conj Hd1 Hd2) r Hr) as (st & E & (I1 & I2 & I3 & I4 & I5) & HL).
  exists st. split; auto. split; auto. split; [eapply fills_NoDup; eauto|]. split; [eapply fills_bound; eauto|]. split; auto.
Qed.
Print Assumptions C59_niching.

(** C59: more members requested than there are: an exception (the minimum of an empty array) *)
Theorem C59_too_many : forall perm shuf niche dist count r,
  (forall k n, Permutation (perm k n) (seq 0 n)) -> (forall k l, Permutation (shuf k l) l) ->
  (forall i, i < length niche -> nth i niche 0 < length count) -> length dist = length niche -> vec_ok dist ->
  length niche < r -> niching perm shuf niche dist r count = None.
Proof.
  intros perm shuf niche dist count r Hp Hs Hn Hd1 Hd2 Hr.
  apply niching_none; auto.
Qed.

(** ** the counts *)
Theorem C59_niche_count : forall n niches v, v < n -> (forall x, In x niches -> x < n) ->
  length (calc_niche_count n niches) = n /\ nth v (calc_niche_count n niches) 0 = count_occ Nat.eq_dec niches v.
Proof. intros n niches v Hv _. split; [apply calc_niche_count_length|now apply calc_niche_count_spec]. Qed.
Print Assumptions C59_niche_count.

Lemma renumber_app a : forall c b, renumber c (a ++ b) = renumber c a ++ renumber (c + length (concat a)) b.
Proof.
  induction a as [|x a IH]; intros c b; simpl; [now rewrite Nat.add_0_r|]. now rewrite IH, app_length, Nat.add_assoc.
Qed.
Lemma concat_renumber a : forall c, concat (renumber c a) = seq c (length (concat a)).
Proof.
  induction a as [|x a IH]; intros c; simpl; auto. rewrite IH, app_length, seq_app. reflexivity.
Qed.
Lemma renumber_length a : forall c, length (renumber c a) = length a.
Proof. induction a as [|x a IH]; intros c; simpl; auto. Qed.
Lemma gather_app_l {A} (d : A) l l' I : (forall i, In i I -> i < length l) -> gather d (l ++ l') I = gather d l I.
Proof. intros H. unfold gather. apply map_ext_in. intros i Hi. apply app_nth1. auto. Qed.
Lemma gather_app_r {A} (d : A) l l' I : gather d (l ++ l') (map (fun i => length l + i) I) = gather d l' I.
Proof. unfold gather. rewrite map_map. apply map_ext. intros i. rewrite app_nth2 by lia. f_equal. lia. Qed.
Lemma gather_seq_shift p L I : (forall i, In i I -> i < L) -> gather 0 (seq p L) I = map (fun i => p + i) I.
Proof. intros H. unfold gather. apply map_ext_in. intros i Hi. apply seq_nth. auto. Qed.
Lemma seq_shift_map p L : seq p L = map (fun i => p + i) (seq 0 L).
Proof. revert p; induction L as [|L IH]; intros p; simpl; auto. rewrite (IH (S p)), <- seq_shift, map_map, Nat.add_0_r. f_equal. apply map_ext. intros; lia. Qed.

Section Surv.
  Variables (perm : nat -> nat -> list nat) (shuf : nat -> list nat -> list nat).
  Variables (nds : fltmat -> nat -> list (list nat)) (n_dirs m : nat) (drow : list flt -> list flt).
  Hypothesis Hperm : forall k n, Permutation (perm k n) (seq 0 n).
  Hypothesis Hshuf : forall k l, Permutation (shuf k l) l.
  Hypothesis Hnds : nds_ok m nds.
  Hypothesis Hdirs : 0 < n_dirs.
  Hypothesis Hrow : forall f, row_ok m f -> row_ok n_dirs (drow f).
  Variables (F : fltmat) (n : nat).
  Hypothesis HF : F <> [] /\ rect m F /\ mat_ok F /\ n <= length F.

  Definition near (i : nat) : nat := np_argmin (drow (nth i F [])).
  Definition ndist (i : nat) : flt := nth (near i) (drow (nth i F [])) f_nan.

  Lemma row_at i : i < length F -> row_ok m (nth i F []).
  Proof.
    intros Hi. destruct HF as (_ & HR & HM & _). split.
    - unfold rect in HR. rewrite Forall_forall in HR. apply HR, nth_In; auto.
    - unfold mat_ok in HM. rewrite Forall_forall in HM. apply HM, nth_In; auto.
  Qed.
  Lemma near_spec i : i < length F ->
    near i < n_dirs /\ forall v, v < n_dirs -> fltb (nth v (drow (nth i F [])) f_nan) (ndist i) = false.
  Proof.
    intros Hi. destruct (Hrow _ (row_at i Hi)) as [HL HV]. unfold near, ndist.
    destruct (np_argmin_spec (drow (nth i F []))) as [A B]; auto.
    - intros E. rewrite E in HL. simpl in HL. lia.
    - rewrite HL in *. split; auto. intros v Hv. specialize (B v Hv). fold (near i) in *.
      destruct (fltb (nth v (drow (nth i F [])) f_nan) (nth (near i) (drow (nth i F [])) f_nan)) eqn:E; auto. exfalso.
      pose proof (flt_le_trans _ _ _ E B) as X. rewrite flt_irrefl in X. discriminate.
  Qed.
  Lemma ndist_ok i : i < length F -> isnan (ndist i) = false.
  Proof.
    intros Hi. destruct (Hrow _ (row_at i Hi)) as [HL HV]. destruct (near_spec i Hi) as [A _]. unfold vec_ok in HV. rewrite Forall_forall in HV.
    apply HV, nth_In. lia.
  Qed.

  Lemma survival_shape full : is_peeling (length F) (row_dom F) full -> stopped_at n full (nds F n) ->
    exists S opt pre lst, nds F n = pre ++ [lst] /\ ref_dir_survival perm shuf nds n_dirs drow F n = Some (S, opt) /\
      S_Survival.selects (length F) n S /\
      ((S = concat pre ++ lst /\ length (concat pre ++ lst) = n) \/
       exists P, S = concat pre ++ gather 0 lst P /\ length (concat pre) + length P = n /\
         fills_niches (length lst) (fun p => near (nth p lst 0)) (fun p => ndist (nth p lst 0))
           (fun v => count_occ Nat.eq_dec (map near (concat pre)) v) P) /\
      opt <> [] /\ (forall x, In x opt -> In x (nth 0 full [])).
  Proof.
    intros HP HS. pose proof HF as (Fne & FR & FM & Fn). pose proof HP as (HPP & HN & HFr). destruct HS as (Hpre & Hne & Hcase & Hmin).
    destruct (last_split _ Hne) as (pre & lst & Eo). pose proof (perm_seq_NoDup _ _ HPP) as HND.
    assert (Hsub : NoDup (concat (nds F n)) /\ forall i, In i (concat (nds F n)) -> i < length F).
    { destruct Hpre as (r & Er). rewrite Er, concat_app in HND, HPP. apply NoDup_app_iff in HND as [H1 _]. split; auto.
      intros i Hi. apply (perm_seq_In _ _ i HPP). apply in_app_iff; auto. }
    destruct Hsub as [ND HB].
    assert (Ec : concat (nds F n) = concat pre ++ lst) by (rewrite Eo, concat_app; simpl; now rewrite app_nil_r).
    pose proof (perm_seq_length _ _ HPP) as HPL.
    assert (HnJ : n <= length (concat (nds F n))). { destruct Hcase as [Hc|Hc]; [rewrite Hc|]; lia. }
    assert (Hpn : length (concat pre) < n \/ pre = []).
    { destruct pre as [|p0 pre'] eqn:Epre; auto. left. rewrite <- Epre in *. specialize (Hmin (length pre)).
      rewrite Eo in Hmin. rewrite firstn_app, Nat.sub_diag, firstn_all, app_nil_r in Hmin. apply Hmin. rewrite app_length, Epre. simpl. lia. }
    assert (Hpn' : length (concat pre) <= n) by (destruct Hpn as [H|H]; [lia | rewrite H; simpl; lia]).
    rewrite Ec in ND, HB, HnJ. pose proof ND as ND'. apply NoDup_app_iff in ND' as (ND1 & ND2 & ND3).
    set (p := length (concat pre)) in *. set (L := length lst).
    set (J := concat pre ++ lst) in *.
    assert (ER : renumber 0 (nds F n) = renumber 0 pre ++ [seq p L]) by (rewrite Eo, renumber_app; reflexivity).
    assert (EJ : forall i, In i (seq 0 (length J)) -> i < length J) by (intros i Hi; apply in_seq in Hi; lia).
    assert (ENic : map niche_of (map drow (gather [] F J)) = map near J) by (unfold gather; rewrite !map_map; reflexivity).
    assert (EDis : map dist_of (map drow (gather [] F J)) = map ndist J) by (unfold gather; rewrite !map_map; reflexivity).
    unfold ref_dir_survival. cbv zeta. rewrite Ec. fold J. rewrite ENic, EDis, ER.
    set (opt0 := intersect _ _). set (opt := if length opt0 =? 0 then _ else opt0).
    assert (Eh : nth 0 (renumber 0 pre ++ [seq p L]) [] = seq 0 (length (nth 0 (pre ++ [lst]) []))).
    { destruct pre as [|p0 pre']; simpl; auto. }
    assert (Hf0 : nth 0 full [] = nth 0 (pre ++ [lst]) []).
    { rewrite <- Eo. apply prefix_nth; auto. rewrite Eo, app_length. simpl. lia. }
    assert (Hfirst : nth 0 full [] <> []). { apply HN. destruct Hpre as (r0 & ->). rewrite Eo, !app_length. simpl. lia. }
    assert (Hopt : opt <> [] /\ incl opt (seq 0 (length (nth 0 (pre ++ [lst]) [])))).
    { unfold opt. destruct (Nat.eqb_spec (length opt0) 0) as [E|E].
      - rewrite Eh. rewrite <- Hf0. destruct (nth 0 full []) as [|a b]; [congruence|]. split; [discriminate|apply incl_refl].
      - split; [intros X; rewrite X in E; simpl in E; lia|]. unfold opt0, intersect. intros x Hx. apply filter_In in Hx as [Hx _]. rewrite Eh in Hx. exact Hx. }
    destruct Hopt as [Ho1 Ho2].
    assert (Hoptg : gather 0 J opt <> [] /\ forall x, In x (gather 0 J opt) -> In x (nth 0 full [])).
    { split; [destruct opt; [congruence|discriminate]|]. intros x Hx. apply In_gather in Hx as (i & Hi & <-). apply Ho2, in_seq in Hi.
      rewrite Hf0. unfold J. destruct pre as [|p0 pre']; simpl in Hi |- *; [apply nth_In; lia|]. rewrite <- app_assoc, app_nth1 by lia. apply nth_In. lia. }
    destruct Hoptg as [Hog1 Hog2].
    assert (HlJ : length J = p + L) by (unfold J; rewrite app_length; reflexivity).
    destruct (Nat.ltb_spec n (length J)) as [Hlt|Hge].
    2: { exists J, (gather 0 J opt), pre, lst. split; auto. split; auto. assert (EnJ : length J = n) by lia.
         split; [split; auto|]. split; [left; auto|auto]. }
    rewrite last_last. rewrite removelast_last. rewrite concat_renumber. fold p. rewrite app_length, renumber_length. cbn [length].
    set (cnt0 := calc_niche_count n_dirs (map near (concat pre))).
    assert (Eu : (if length pre + 1 =? 1 then [] else seq 0 p) = seq 0 p).
    { destruct pre; simpl; auto. destruct (length pre + 1 =? 0) eqn:E; auto. apply Nat.eqb_eq in E. lia. }
    rewrite Eu. rewrite seq_length.
    assert (Hr : (if length pre + 1 =? 1 then n else n - p) = n - p).
    { destruct (length pre + 1 =? 1) eqn:E; auto. apply Nat.eqb_eq in E. destruct pre; [simpl in p; subst p; simpl; lia|simpl in E; lia]. }
    rewrite Hr.
    assert (Egn : gather 0 (map near J) (seq 0 p) = map near (concat pre)).
    { unfold J. rewrite map_app. rewrite gather_app_l; [|intros i Hi; apply in_seq in Hi; rewrite map_length; lia].
      replace p with (length (map near (concat pre))) by (rewrite map_length; auto). apply gather_seq. }
    rewrite Egn. fold cnt0.
    set (cnt := if length pre + 1 =? 1 then repeat 0 n_dirs else cnt0).
    assert (Hcnt : length cnt = n_dirs /\ forall v, v < n_dirs -> nth v cnt 0 = count_occ Nat.eq_dec (map near (concat pre)) v).
    { unfold cnt. destruct (length pre + 1 =? 1) eqn:E.
      - apply Nat.eqb_eq in E. destruct pre; [|simpl in E; lia]. simpl. rewrite repeat_length. split; auto. intros v Hv. apply nth_repeat.
      - split; [apply calc_niche_count_length|]. intros v Hv. now apply calc_niche_count_spec. }
    destruct Hcnt as [Hc1 Hc2].
    assert (Egl : forall {B} (d : B) (f : nat -> B), gather d (map f J) (seq p L) = map f lst).
    { intros B d0 f. unfold J. rewrite map_app, seq_shift_map. replace p with (length (map f (concat pre))) by (rewrite map_length; auto).
      rewrite gather_app_r. replace L with (length (map f lst)) by (rewrite map_length; auto). apply gather_seq. }
    rewrite !Egl.
    assert (Hlt' : forall i, i < L -> nth i lst 0 < length F).
    { intros i Hi. apply HB. apply in_app_iff. right. apply nth_In; auto. }
    destruct (C59_niching perm shuf (map near lst) (map ndist lst) cnt (n - p)) as (st & E & N1 & N2 & N3 & N4 & N5); auto.
    { intros i Hi. rewrite map_length in Hi. rewrite (nth_indep _ 0 (near 0)) by (rewrite map_length; auto). rewrite map_nth, Hc1.
      apply near_spec. auto. }
    { now rewrite !map_length. }
    { unfold vec_ok. apply Forall_forall. intros x Hx. apply in_map_iff in Hx as (i & <- & Hi). apply ndist_ok. apply HB. apply in_app_iff. auto. }
    { rewrite map_length. fold L. lia. }
    rewrite E. rewrite map_length in N3, N4. fold L in N3, N4.
    assert (ES : gather 0 J (seq 0 p ++ gather 0 (seq p L) (n_surv st)) = concat pre ++ gather 0 lst (n_surv st)).
    { rewrite P_Survival3.gather_app. f_equal.
      - unfold J. rewrite gather_app_l by (intros i Hi; apply in_seq in Hi; lia). apply gather_seq.
      - rewrite gather_seq_shift by auto. unfold J. apply gather_app_r. }
    rewrite ES. do 2 eexists. exists pre, lst. split; [auto|]. split; [reflexivity|].
    assert (HL : length (concat pre) + length (n_surv st) = n) by (fold p; lia).
    split; [|split; [right; exists (n_surv st); split; [auto|split; [auto|]]|split; auto]].
    - split; [|split].
      + apply NoDup_app_iff. split; auto. split; [apply NoDup_gather; auto|]. intros x Hx Hy. apply In_gather in Hy as (i & Hi & <-).
        eapply ND3; eauto. apply nth_In. apply N3; auto.
      + intros i Hi. apply HB. apply in_app_iff in Hi as [Hi|Hi]; apply in_app_iff; auto. right. apply In_gather in Hi as (q & Hq & <-).
        apply nth_In, N3; auto.
      + rewrite app_length, length_gather. auto.
    - fold L. intros k Hk. specialize (N4 k Hk). cbv zeta in N4 |- *. destruct N4 as (M1 & M2 & M3 & M4).
      assert (Enear : forall i, i < L -> nth i (map near lst) 0 = near (nth i lst 0)).
      { intros i Hi. rewrite (nth_indep _ 0 (near 0)) by (rewrite map_length; auto). apply map_nth. }
      assert (Edist : forall i, i < L -> nth i (map ndist lst) f_nan = ndist (nth i lst 0)).
      { intros i Hi. rewrite (nth_indep _ f_nan (ndist 0)) by (rewrite map_length; auto). apply map_nth. }
      assert (EB : forall v, count_occ Nat.eq_dec (map (fun i => nth i (map near lst) 0) (firstn k (n_surv st))) v =
                   count_occ Nat.eq_dec (map (fun q => near (nth q lst 0)) (firstn k (n_surv st))) v).
      { intros v. f_equal. apply map_ext_in. intros i Hi. apply Enear. apply N3. eapply firstn_In; eauto. }
      assert (Hnr : forall i, i < L -> near (nth i lst 0) < n_dirs) by (intros i Hi; apply near_spec; auto).
      rewrite Enear, EB, Hc2 in M3 by auto. rewrite Enear, EB, Hc2 in M4 by auto.
      split; auto. split; auto. split.
      + intros j Hj Hj'. specialize (M3 j Hj Hj'). rewrite Enear, EB, Hc2 in M3 by auto. exact M3.
      + intros E0 j Hj Hj' Ej. specialize (M4 E0 j Hj Hj'). rewrite Enear in M4 by auto. specialize (M4 Ej).
        rewrite !Edist in M4 by auto. exact M4.
  Qed.
End Surv.

(** premises common to the theorems about the whole survival: random permutations and shuffles, a sorter meeting the contract of C09, and
    distances (one per direction, no NaN) of every objective vector *)
Definition oracles_ok (perm : nat -> nat -> list nat) (shuf : nat -> list nat -> list nat) (nds : fltmat -> nat -> list (list nat))
    (n_dirs m : nat) (drow : list flt -> list flt) : Prop :=
  (forall k n, Permutation (perm k n) (seq 0 n)) /\ (forall k l, Permutation (shuf k l) l) /\ nds_ok m nds /\ 0 < n_dirs /\
  (forall f, row_ok m f -> row_ok n_dirs (drow f)).

(** C59: what the survival keeps: whole fronts before the [r]-th one, and of the [r]-th one everything (if it fits exactly) or a selection
    that fills the niches, given the survivors of the earlier fronts; [niche i] is a direction closest to individual [i] *)
Theorem C59_survival : forall perm shuf nds n_dirs m drow F n, oracles_ok perm shuf nds n_dirs m drow ->
  F <> [] -> rect m F -> mat_ok F -> n <= length F ->
  exists S opt full r sel (niche : nat -> nat),
    ref_dir_survival perm shuf nds n_dirs drow F n = Some (S, opt) /\ S_Survival.selects (length F) n S /\
    (forall i, i < length F -> niche i < n_dirs /\
       forall v, v < n_dirs -> fltb (nth v (drow (nth i F [])) f_nan) (nth (niche i) (drow (nth i F [])) f_nan) = false) /\
    is_peeling (length F) (row_dom F) full /\ r < length full /\ S = concat (firstn r full) ++ sel /\
    let front := nth r full [] in
    (sel = front \/
     exists P, sel = map (fun p => nth p front 0) P /\
       fills_niches (length front) (fun p => niche (nth p front 0))
         (fun p => nth (niche (nth p front 0)) (drow (nth (nth p front 0) F [])) f_nan)
         (fun v => count_occ Nat.eq_dec (map niche (concat (firstn r full))) v) P).
Proof.
  intros perm shuf nds n_dirs m drow F n (H1 & H2 & H3 & H4 & H5) Fne FR FM Fn.
  destruct (H3 F n Fne FR FM) as (full & HP & HS). pose proof HS as ((r0 & Er) & _).
  destruct (survival_shape perm shuf nds n_dirs m drow H1 H2 H4 H5 F n (conj Fne (conj FR (conj FM Fn))) full HP HS)
    as (S & opt & pre & lst & Eo & E & Hsel & Hcase & Ho1 & Ho2).
  rewrite Eo in Er. exists S, opt, full, (length pre).
  assert (Ef : firstn (length pre) full = pre) by (rewrite Er, <- app_assoc, firstn_app, Nat.sub_diag, firstn_all; simpl; now rewrite app_nil_r).
  assert (En : nth (length pre) full [] = lst) by (rewrite Er, <- app_assoc, app_nth2, Nat.sub_diag by lia; reflexivity).
  assert (Hlen : length pre < length full) by (rewrite Er, !app_length; simpl; lia).
  rewrite Ef, En. cbv zeta.
  destruct Hcase as [(-> & Hl)|(P & -> & Hl & HF)].
  - exists lst, (near drow F). split; auto. split; auto. split; [intros i Hi; eapply near_spec; eauto|]. auto.
  - exists (gather 0 lst P), (near drow F). split; auto. split; auto. split; [intros i Hi; eapply near_spec; eauto|].
    split; auto. split; auto. split; auto. right. exists P. auto.
Qed.
Print Assumptions C59_survival.

(** C59: nobody of a better front is discarded while somebody of a worse one survives *)
Theorem C59_ranks : forall perm shuf nds n_dirs m drow F n, oracles_ok perm shuf nds n_dirs m drow ->
  F <> [] -> rect m F -> mat_ok F -> n <= length F ->
  exists S opt, ref_dir_survival perm shuf nds n_dirs drow F n = Some (S, opt) /\
    forall i j ri rj, In i S -> j < length F -> ~ In j S -> pareto_rank F i ri -> pareto_rank F j rj -> ri <= rj.
Proof.
  intros perm shuf nds n_dirs m drow F n HO Fne FR FM Fn.
  destruct (C59_survival _ _ _ _ _ _ _ _ HO Fne FR FM Fn) as (S & opt & full & r & sel & niche & E & Hsel & _ & HP & Hr & ES & Hc).
  exists S, opt. split; auto. intros i j ri rj Hi Hj Hnj Hri Hrj.
  assert (Hu : forall i r, pareto_rank F i r -> In i (nth r full [])).
  { intros x rx (full' & HP' & Hx). destruct (peeling_unique _ _ _ _ HP HP') as [_ X]. now apply X. }
  apply Hu in Hri, Hrj. pose proof HP as (HPP & _ & _). pose proof (perm_seq_NoDup _ _ HPP) as HND.
  assert (Hpre : forall k x, k < r -> In x (nth k full []) -> In x S).
  { intros k x Hk Hx. rewrite ES. apply in_app_iff. left. apply in_concat. exists (nth k full []). split; auto.
    apply In_firstn_nth with (d := []). exists k. repeat split; auto. lia. }
  assert (r <= rj). { destruct (Nat.le_gt_cases r rj); auto. exfalso. apply Hnj. eapply Hpre; eauto. }
  assert (ri <= r); [|lia].
  rewrite ES in Hi. apply in_app_iff in Hi as [Hi|Hi].
  - apply in_concat_nth in Hi as (k & Hk & Hi). rewrite firstn_length in Hk. rewrite nth_firstn in Hi by lia.
    assert (ri = k) by (eapply concat_NoDup_nth; eauto). lia.
  - assert (Hin : In i (nth r full [])).
    { destruct Hc as [->|(P & -> & HF)]; auto. apply in_map_iff in Hi as (q & <- & Hq). apply nth_In. apply In_nth with (d := 0) in Hq as (k & Hk & <-).
      apply (HF k Hk). }
    assert (ri = r) by (eapply concat_NoDup_nth; eauto). lia.
Qed.
Print Assumptions C59_ranks.

(** C60: the reported optimum is not empty and consists of non-dominated individuals *)
Theorem C60_optimum_partial : forall perm shuf nds n_dirs m drow F n, oracles_ok perm shuf nds n_dirs m drow ->
  F <> [] -> rect m F -> mat_ok F -> n <= length F ->
  exists S opt, ref_dir_survival perm shuf nds n_dirs drow F n = Some (S, opt) /\ opt <> [] /\
    forall x, In x opt -> x < length F /\ forall j, j < length F -> ~ row_dom F j x.
Proof.
  intros perm shuf nds n_dirs m drow F n (H1 & H2 & H3 & H4 & H5) Fne FR FM Fn.
  destruct (H3 F n Fne FR FM) as (full & HP & HS). pose proof HS as ((r0 & Er) & _).
  destruct (survival_shape perm shuf nds n_dirs m drow H1 H2 H4 H5 F n (conj Fne (conj FR (conj FM Fn))) full HP HS)
    as (S & opt & pre & lst & Eo & E & Hsel & Hcase & Ho1 & Ho2).
  exists S, opt. split; auto. split; auto. intros x Hx. apply Ho2 in Hx. destruct HP as (HPP & HN & HF).
  assert (H0 : 0 < length full) by (rewrite Er, Eo, !app_length; simpl; lia).
  apply HF in Hx; auto. destruct Hx as (X1 & X2 & X3). split; auto. intros j Hj. apply X3; auto. intros (k & Hk & _). lia.
Qed.
Print Assumptions C60_optimum_partial.

(** C59 inside [Survival.do] (feasible ones first, then by violation) *)
Definition ref_dir_inner {A} (obj : A -> list flt) perm shuf nds n_dirs drow (pop : list A) (n : nat) : list nat :=
  match ref_dir_survival perm shuf nds n_dirs drow (map obj pop) n with Some (surv, _) => surv | None => [] end.
Theorem C59_nsga3_survival : forall (A : Type) (d : A) cv feas obj asort perm shuf nds n_dirs m drow hc ns (pop : list A),
  asort_ok asort -> oracles_ok perm shuf nds n_dirs m drow -> Forall (fun a => row_ok m (obj a)) pop ->
  let n := Nat.min (match ns with None => length pop | Some n => n end) (length pop) in
  let S := survival_do d cv feas asort (ref_dir_inner obj perm shuf nds n_dirs drow) true hc ns pop in
  S_Survival.selects (length pop) n S /\
  (hc = true ->
    (forall i j, In i S -> feas (nth i pop d) = false -> j < length pop -> feas (nth j pop d) = true -> In j S) /\
    (forall i j, In i S -> feas (nth i pop d) = false -> j < length pop -> feas (nth j pop d) = false -> ~ In j S ->
       fltb (cv (nth j pop d)) (cv (nth i pop d)) = false)).
Proof.
  intros A d cv feas obj asort perm shuf nds n_dirs m drow hc ns pop Ha HO Hw. cbv zeta.
  destruct (survival_do_spec d cv feas asort Ha (fun a => row_ok m (obj a)) (ref_dir_inner obj perm shuf nds n_dirs drow) true hc ns pop) as [H1 H2]; auto.
  intros p n Hp Hwf Hn. unfold ref_dir_inner.
  destruct (P_Survival3.rows_ok m obj p Hwf) as [HR HM].
  destruct (C59_survival perm shuf nds n_dirs m drow (map obj p) n HO) as (S & opt & full & r & sel & niche & E & Hsel & _); auto.
  { destruct p; [congruence|discriminate]. }
  { now rewrite map_length. }
  rewrite E. now rewrite map_length in Hsel.
Qed.
Print Assumptions C59_nsga3_survival.

(** ** a concrete case, and the reported optimum may be lost *)
Definition ex_F : fltmat := [[fz 0; fz 3]; [fz 1; fz 2]; [fz 2; fz 1]; [fz 3; fz 0]; [fz 5; fz 5]].
(** distances to two directions, by the first objective *)
Definition ex_drow (f : list flt) : list flt :=
  if feqb (nth 0 f f_nan) (fz 0) then [fz 20; fz 90] else if feqb (nth 0 f f_nan) (fz 1) then [fz 10; fz 5]
  else if feqb (nth 0 f f_nan) (fz 2) then [fz 90; fz 1] else [fz 95; fz 60].
Definition ex_nds := default_nds pr_ref.
Definition ex_perm (k n : nat) := rev (seq 0 n).
Definition ex_shuf (k : nat) (l : list nat) := rev l.
Lemma C59_case : oracles_ok ex_perm ex_shuf ex_nds 2 2 ex_drow /\ ex_F <> [] /\ rect 2 ex_F /\ mat_ok ex_F /\
  ref_dir_survival ex_perm ex_shuf ex_nds 2 ex_drow ex_F 2 = Some ([2; 0], [1; 2]) /\
  ref_dir_survival ex_perm ex_shuf ex_nds 2 ex_drow ex_F 5 = Some ([0; 1; 2; 3; 4], [1; 2]) /\
  ref_dir_survival ex_perm ex_shuf ex_nds 2 ex_drow (ex_F ++ [[fz 6; fz 6]]) 5 = Some ([0; 1; 2; 3; 4], [1; 2]).
Proof.
  split; [|split; [discriminate|]].
  - split; [intros; apply Permutation_sym, Permutation_rev|]. split; [intros; apply Permutation_sym, Permutation_rev|].
    split; [apply default_nds_ok; intros; eapply pr_ref_ok; eauto|]. split; [lia|].
    intros f _. unfold ex_drow. destruct (feqb _ _); [|destruct (feqb _ _); [|destruct (feqb _ _)]]; (split; [reflexivity|]); repeat constructor.
  - split; [repeat constructor|]. split; [repeat constructor|]. vm_compute. auto.
Qed.
(** C60 is false of the code: an individual closest to a direction but associated to another one is reported as optimal (lines 177-179) and
    yet need not survive *)
Theorem C60_refuted : exists perm shuf nds n_dirs m drow F n S opt x,
  oracles_ok perm shuf nds n_dirs m drow /\ F <> [] /\ rect m F /\ mat_ok F /\ n <= length F /\
  ref_dir_survival perm shuf nds n_dirs drow F n = Some (S, opt) /\ In x opt /\ ~ In x S.
Proof.
  destruct C59_case as (H1 & H2 & H3 & H4 & H5 & _).
  exists ex_perm, ex_shuf, ex_nds, 2, 2, ex_drow, ex_F, 2, [2; 0], [1; 2], 1. repeat (split; auto); simpl; try lia.
Qed.
Print Assumptions C60_refuted.
Lemma C59_niching_case : let niche := [0; 1; 1; 0; 1] in let dist := [fz 3; fz 2; fz 1; fz 4; fz 7] in let count := [1; 0; 0] in
  (forall i, i < length niche -> nth i niche 0 < length count) /\ length dist = length niche /\ vec_ok dist /\
  option_map (fun st => (n_surv st, n_count st)) (niching ex_perm ex_shuf niche dist 4 count) = Some ([2; 4; 3; 1], [2; 3; 0]).
Proof.
  cbv zeta. split; [intros [|[|[|[|[|i]]]]] Hi; simpl in *; lia|]. split; [reflexivity|]. split; [repeat constructor|]. vm_compute. reflexivity.
Qed.
