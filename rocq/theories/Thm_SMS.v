(** * C80: the survival of SMS-EMOA *)
From Coq Require Import List Arith Bool ZArith QArith Lqa Lia Permutation.
From Verif Require Import Flt ListAux NpSort M_NDS M_Norm M_Survival M_SMS S_Pareto S_NDS S_Survival S_SMS P_Peel P_NDS1 P_Survival P_Survival3 P_Survival4 Thm_Survival Thm_Norm.
Import ListNotations.
Local Open Scope nat_scope.

Lemma delete_length {A} (l : list A) k : k < length l -> length (delete_at l k) = length l - 1.
Proof. intros H. unfold delete_at. rewrite app_length, firstn_length, skipn_length. lia. Qed.
Lemma delete_split {A} (l : list A) k d : k < length l -> l = firstn k l ++ nth k l d :: skipn (S k) l.
Proof. revert k. induction l as [|a l IH]; intros k H; cbn in H; [lia|]. destruct k as [|k]; [reflexivity|]. cbn [firstn nth skipn app]. f_equal. apply IH. lia. Qed.
Lemma delete_perm {A} (l : list A) k d : k < length l -> Permutation l (nth k l d :: delete_at l k).
Proof. intros H. rewrite (delete_split l k d H) at 1. unfold delete_at. symmetry. apply Permutation_middle. Qed.
Lemma delete_In {A} (l : list A) k x : In x (delete_at l k) -> In x l.
Proof. unfold delete_at. intros H. apply in_app_or in H as [H|H]; [eapply firstn_In; eauto|]. rewrite <- (firstn_skipn (S k) l). apply in_or_app; auto. Qed.
Lemma delete_NoDup {A} (l : list A) k : NoDup l -> NoDup (delete_at l k).
Proof.
  intros H. destruct (Nat.lt_ge_cases k (length l)) as [Hk|Hk].
  - destruct l as [|a l'] eqn:E; [cbn in Hk; lia|]. rewrite <- E in *. pose proof (delete_perm l k a Hk) as HP. apply (Permutation_NoDup HP) in H. now inversion H.
  - unfold delete_at. rewrite (firstn_all2 l Hk), (skipn_all2 l) by lia. now rewrite app_nil_r.
Qed.

Section Cut.
  Variable contrib : list nat -> list Q.
  Hypothesis Hc : forall J, length (contrib J) = length J.
  Lemma argmin_lt J : J <> [] -> argminQ (contrib J) < length J.
  Proof. intros H. rewrite <- (Hc J). apply argminQ_spec. specialize (Hc J). destruct (contrib J); [destruct J; [congruence|discriminate]|discriminate]. Qed.
  Lemma drop_spec r : forall J, r <= length J -> NoDup J -> NoDup (sms_drop contrib r J) /\ (forall i, In i (sms_drop contrib r J) -> In i J) /\ length (sms_drop contrib r J) = length J - r.
  Proof.
    induction r as [|r IH]; intros J Hr HN; cbn [sms_drop]; [repeat split; auto; lia|].
    assert (HJ : J <> []) by (intros ->; cbn in Hr; lia). pose proof (argmin_lt J HJ) as Hk. pose proof (delete_length J _ Hk) as HL.
    destruct (IH (delete_at J (argminQ (contrib J)))) as (I1 & I2 & I3); [lia|now apply delete_NoDup|]. split; [auto|]. split; [|lia]. intros i Hi. apply I2 in Hi. eapply delete_In; eauto.
  Qed.
  Lemma sms_fill n out : forall s, fold_left (sms_front contrib n) out s = fold_left (fill_step n (fun f k => sms_drop contrib (length f - k) f)) out s \/ n < length s.
  Proof.
    induction out as [|f out IH]; intros s; cbn [fold_left]; auto. destruct (Nat.lt_ge_cases n (length s)) as [H|H]; auto. left.
    assert (E : sms_front contrib n s f = fill_step n (fun f k => sms_drop contrib (length f - k) f) s f).
    { unfold sms_front, fill_step. destruct (Nat.ltb_spec n (length s + length f)); auto. f_equal. f_equal. lia. }
    rewrite E. set (s' := fill_step n _ s f). destruct (IH s') as [I|I]; auto. exfalso. unfold s', fill_step in I. rewrite app_length in I. destruct (Nat.ltb_spec n (length s + length f)); [|lia].
    destruct (Nat.le_gt_cases (length f - (n - length s)) (length f)); [|lia].
    assert (HD : forall r J, r <= length J -> length (sms_drop contrib r J) = length J - r).
    { clear - Hc. induction r as [|r IH]; intros J Hr; cbn [sms_drop]; [lia|]. assert (HJ : J <> []) by (intros ->; cbn in Hr; lia). rewrite IH; rewrite (delete_length J _ (argmin_lt J HJ)); lia. }
    rewrite HD in I; lia.
  Qed.
  Lemma sel_sms_ok : sel_ok (fun f k => sms_drop contrib (length f - k) f) (fun _ => True).
  Proof. intros f k _ Hk HN. destruct (drop_spec (length f - k) f) as (H1 & H2 & H3); [lia|auto|]. repeat split; auto. lia. Qed.
End Cut.

(** C80: exactly [n] members are selected, and better Pareto ranks are preferred *)
Theorem C80_selection : forall m F contrib nds n, (forall J, length (contrib J) = length J) -> nds_ok m nds -> F <> [] -> rect m F -> mat_ok F -> n <= length F ->
  let S := sms_do nds contrib F n in
  selects (length F) n S /\ forall i j ri rj, In i S -> j < length F -> ~ In j S -> pareto_rank F i ri -> pareto_rank F j rj -> ri <= rj.
Proof.
  intros m F contrib nds n Hc Hn Hne HR HM Hle S. destruct (Hn F n Hne HR HM) as (full & HP & HS).
  assert (ES : S = fold_left (fill_step n (fun f k => sms_drop contrib (length f - k) f)) (nds F n) []) by (destruct (sms_fill contrib Hc n (nds F n) []) as [E|E]; [exact E|cbn in E; lia]).
  destruct (fill_spec (length F) (row_dom F) n _ full (nds F n) (fun _ => True) HP HS Hle (sel_sms_ok contrib Hc) (fun _ _ => Logic.I)) as [R1 _]. rewrite <- ES in R1. split; [exact R1|].
  intros i j ri rj Hi Hj Hnj (f1 & P1 & H1) (f2 & P2 & H2). apply (peeling_unique _ _ _ _ P1 HP) in H1. apply (peeling_unique _ _ _ _ P2 HP) in H2.
  rewrite ES in Hi, Hnj. apply (fill_ranks (length F) (row_dom F) n _ full (nds F n) (fun _ => True) HP HS Hle (sel_sms_ok contrib Hc) (fun _ _ => Logic.I) i j ri rj Hi Hnj H1 H2).
Qed.
Print Assumptions C80_selection.
(** within Survival.do (filter_infeasible): feasible solutions before infeasible ones *)
Theorem C80_survival : forall (A : Type) (d : A) cv feas obj asort nds contrib m hc ns (pop : list A),
  asort_ok asort -> (forall p J, length (contrib p J) = length J) -> nds_ok m nds -> Forall (fun a => row_ok m (obj a)) pop ->
  let n := Nat.min (match ns with None => length pop | Some n => n end) (length pop) in
  let S := survival_do d cv feas asort (sms_inner obj nds contrib) true hc ns pop in
  selects (length pop) n S /\
  (hc = true ->
    (forall i j, In i S -> feas (nth i pop d) = false -> j < length pop -> feas (nth j pop d) = true -> In j S) /\
    (forall i j, In i S -> feas (nth i pop d) = false -> j < length pop -> feas (nth j pop d) = false -> ~ In j S -> fltb (cv (nth j pop d)) (cv (nth i pop d)) = false)).
Proof.
  intros A d cv feas obj asort nds contrib m hc ns pop Ha Hc Hn Hw. cbv zeta.
  destruct (survival_do_spec d cv feas asort Ha (fun a => row_ok m (obj a)) (sms_inner obj nds contrib) true hc ns pop) as [H1 H2]; auto.
  intros p n Hne Hwf Hle. unfold sms_inner. destruct (P_Survival3.rows_ok m obj p Hwf) as [R1 R2].
  destruct (C80_selection m (map obj p) (contrib p) nds n) as [R _]; auto; [destruct p; [congruence|discriminate]|now rewrite map_length|]. now rewrite map_length in R at 1.
Qed.

(** ** hypervolume *)
Section HV.
  Variables (P : list (list Z)) (lo ref : list Z).
  Notation hv := (hv P lo ref).
  Lemma filter_count {A} (f g : A -> bool) l : (forall x, In x l -> f x = true -> g x = true) -> length (filter f l) <= length (filter g l).
  Proof.
    induction l as [|a l IH]; intros H; cbn [filter]; auto. assert (IH' := IH ltac:(intros; apply H; cbn; auto)). destruct (f a) eqn:E; [rewrite (H a) by (cbn; auto); cbn; lia|destruct (g a); cbn; lia].
  Qed.
  (** every cell that members of [J] cover is covered by members of [K] *)
  Lemma hv_mono J K : (forall i c, In i J -> covers (nth i P []) c = true -> exists k, In k K /\ covers (nth k P []) c = true) -> hv J <= hv K.
  Proof. intros H. apply filter_count. intros c _ Hcv. apply existsb_exists in Hcv as (i & Hi & Hcv). apply existsb_exists. destruct (H i c Hi Hcv) as (k & ? & ?). eauto. Qed.
  Lemma hv_incl J K : incl J K -> hv J <= hv K.
  Proof. intros H. apply hv_mono. eauto. Qed.
  Lemma covers_trans p q c : Forall2 Z.le p q -> covers q c = true -> covers p c = true.
  Proof.
    intros H. revert c. induction H as [|x y p q Hxy H IH]; intros c Hcv; [destruct c; auto|]. destruct c as [|z c]; cbn [covers] in *; [discriminate|].
    apply andb_true_iff in Hcv as [E1 E2]. apply Z.leb_le in E1. apply andb_true_iff. split; [apply Z.leb_le; lia|auto].
  Qed.
  (** each step of the truncation leaves the greatest possible hypervolume *)
  Theorem C80_removal unit contrib J k : (0 < unit)%Q -> contributions_ok P lo ref unit contrib -> k < length J -> hv (delete_at J k) <= hv (delete_at J (argminQ (contrib J))).
  Proof.
    intros Hu HC Hk. destruct (HC J) as [HL HN]. assert (HJ : contrib J <> []) by (intros E; rewrite E in HL; cbn in HL; lia).
    destruct (argminQ_spec (contrib J) HJ) as [HA HM]. rewrite HL in HA. rewrite Forall_forall in HM. specialize (HM (nth k (contrib J) 0%Q) ltac:(apply nth_In; lia)). rewrite (HN k Hk), (HN _ HA) in HM.
    unfold delete_at. apply Qmult_le_l in HM; auto. rewrite <- Zle_Qle in HM. lia.
  Qed.

  (** one individual too many: the survivors have the greatest hypervolume of all selections of that size *)
  Lemma dom_dec a b : dominates a b \/ ~ dominates a b.
  Proof.
    assert (H1 : forall a b : list flt, {Forall2 (fun x y => fleb x y = true) a b} + {~ Forall2 (fun x y => fleb x y = true) a b}).
    { clear. induction a as [|x a IH]; intros [|y b]; [left; constructor|right; intros H; inversion H|right; intros H; inversion H|].
      destruct (fleb x y) eqn:E; [|right; intros H; inversion H; congruence]. destruct (IH b); [left; now constructor|right; intros H; inversion H; auto]. }
    assert (H2 : forall a b : list flt, {exists k x y, nth_error a k = Some x /\ nth_error b k = Some y /\ fltb x y = true} + {~ exists k x y, nth_error a k = Some x /\ nth_error b k = Some y /\ fltb x y = true}).
    { clear. induction a as [|x a IH]; intros b; [right; intros ([|k] & u & v & H & _); discriminate|]. destruct b as [|y b]; [right; intros ([|k] & u & v & _ & H & _); discriminate|].
      destruct (fltb x y) eqn:E; [left; exists 0, x, y; auto|]. destruct (IH b) as [H|H]; [left; destruct H as (k & u & v & H); exists (S k), u, v; auto|].
      right. intros ([|k] & u & v & A1 & A2 & A3); [cbn in A1, A2; congruence|]. apply H. exists k, u, v. auto. }
    destruct (H1 a b), (H2 a b); [left; split; auto|right; intros [? ?]; auto..].
  Qed.
  Lemma search n (Q : nat -> Prop) : (forall j, Q j \/ ~ Q j) -> (exists j, j < n /\ Q j) \/ forall j, j < n -> ~ Q j.
  Proof.
    intros HD. induction n as [|n IH]; [right; intros; lia|]. destruct IH as [(j & Hj & H)|H]; [left; exists j; split; [lia|auto]|]. destruct (HD n) as [Hn|Hn]; [left; exists n; auto|].
    right. intros j Hj. destruct (Nat.eq_dec j n) as [->|]; auto. apply H. lia.
  Qed.
  Lemma earlier_dec fronts k i : in_earlier fronts k i \/ ~ in_earlier fronts k i.
  Proof.
    unfold in_earlier. destruct (search k (fun k' => In i (nth k' fronts []))) as [(k' & H)|H]; [intros j; destruct (in_dec Nat.eq_dec i (nth j fronts [])); auto|left; eauto|right; intros (k' & A & B); exact (H k' A B)].
  Qed.
  (** a member of a later front is dominated by a member of an earlier one *)
  Lemma peeling_dominator n F full k i : is_peeling n (row_dom F) full -> 0 < k -> In i (nth k full []) -> exists j, j < n /\ in_earlier full k j /\ row_dom F j i.
  Proof.
    intros (HPm & HN & HF) Hk Hi. pose proof (nth_In_lt _ _ _ Hi) as Hkl. assert (Hi' := Hi). rewrite (HF k i Hkl) in Hi'. destruct Hi' as (Hin & He & Hnd).
    destruct (search n (fun j => ~ in_earlier full (k - 1) j /\ row_dom F j i)) as [(j & Hj & He1 & HD)|H].
    - intros j. destruct (earlier_dec full (k - 1) j), (dom_dec (nth j F []) (nth i F [])); unfold row_dom; tauto.
    - exists j. split; auto. split; auto. destruct (earlier_dec full k j) as [|E]; auto. exfalso. exact (Hnd j Hj E HD).
    - exfalso. assert (HIn : In i (nth (k - 1) full [])).
      { apply HF; [lia|]. split; auto. split; [intros (k' & A & B); apply He; exists k'; split; [lia|auto]|]. intros j Hj He' HD. exact (H j Hj (conj He' HD)). }
      apply He. exists (k - 1). split; [lia|auto].
  Qed.
  Lemma lattice_dom F j i : on_lattice F P -> row_dom F j i -> Forall2 Z.le (nth j P []) (nth i P []).
  Proof.
    intros (_ & HL & HO) [HF _]. assert (HLn : length (nth j F []) = length (nth i F [])) by (clear - HF; induction HF; cbn; congruence).
    assert (Hk : forall k, k < length (nth j F []) -> (nth k (nth j P []) 0 <= nth k (nth i P []) 0)%Z).
    { intros k Hk. apply HO; auto. unfold cell. clear - HF Hk. revert k Hk. induction HF as [|x y a b Hxy HF IH]; intros k Hk; cbn [length] in Hk; [lia|]. destruct k as [|k]; cbn [nth]; auto. apply IH. lia. }
    rewrite <- (HL j) in Hk. assert (L2 : length (nth j P []) = length (nth i P [])) by (rewrite !HL; auto). clear - Hk L2. revert Hk L2. generalize (nth j P []) (nth i P []). intros a. induction a as [|x a IH]; intros [|y b] Hk L2; try discriminate; constructor.
    - apply (Hk 0). cbn; lia.
    - apply IH; [|cbn in L2; congruence]. intros k Hlt. apply (Hk (S k)). cbn; lia.
  Qed.
End HV.
Lemma stopped_firstn n full out : stopped_at n full out -> out = firstn (length out) full.
Proof. intros ((r & ->) & _). now rewrite firstn_app, firstn_all, Nat.sub_diag, app_nil_r. Qed.

Theorem C80_one_offspring : forall m F P lo ref unit contrib nds n, (0 < unit)%Q -> contributions_ok P lo ref unit contrib -> on_lattice F P ->
  nds_ok m nds -> rect m F -> mat_ok F -> length F = S n ->
  forall T, selects (length F) n T -> hv P lo ref T <= hv P lo ref (sms_do nds contrib F n).
Proof.
  intros m F P lo ref unit contrib nds n Hu HC HL Hn HR HM HN T HT. assert (Hc : forall J, length (contrib J) = length J) by (intros J; apply HC).
  assert (Hne : F <> []) by (intros ->; discriminate). destruct (Hn F n Hne HR HM) as (full & HP & HS). set (S0 := sms_do nds contrib F n).
  assert (ES : S0 = fold_left (fill_step n (fun f k => sms_drop contrib (length f - k) f)) (nds F n) []) by (destruct (sms_fill contrib Hc n (nds F n) []) as [E|E]; [exact E|cbn in E; lia]).
  destruct (fill_spec (length F) (row_dom F) n _ full (nds F n) (fun _ => True) HP HS ltac:(lia) (sel_sms_ok contrib Hc) (fun _ _ => Logic.I)) as [R1 (pre & lst & Eo & A1 & A2 & A3)]. rewrite <- ES in R1, A1, A2, A3.
  pose proof HP as (HPm & _ & _). pose proof (perm_seq_NoDup _ _ HPm) as HND.
  assert (Elst : lst = nth (length pre) full []) by (destruct HS as ((r & E) & _); rewrite E, Eo, <- app_assoc, app_nth2 by lia; now rewrite Nat.sub_diag).
  (* whatever is covered by a non-survivor outside the first front is covered by a survivor *)
  assert (Early : forall j, in_earlier full (length pre) j -> In j S0).
  { intros j (k & Hk & Hj). apply A1. apply in_concat_nth. exists k. split; auto. destruct HS as ((r & E) & _). rewrite E, Eo, <- app_assoc, app_nth1 in Hj; auto. }
  destruct (Nat.eq_dec (length pre) 0) as [E0|E0].
  - (* the cut front is the first one *)
    destruct pre; [|discriminate]. cbn [concat app] in *. destruct A3 as [A3|(B1 & B2 & B3)].
    + apply hv_mono. intros i c Hi Hcv. destruct (in_dec Nat.eq_dec i S0) as [|Hni]; [eauto|].
      (* i is in a later front *)
      assert (Hi' : i < length F) by (apply HT; auto). apply (perm_seq_In _ _ i HPm) in Hi'. apply in_concat_nth in Hi' as (r & Hr & Hir). destruct r as [|r]; [exfalso; apply Hni, A3; rewrite Elst; auto|].
      (* a dominator in the first front: the minimal ones *)
      assert (Chain : forall r i, In i (nth r full []) -> covers (nth i P []) c = true -> exists j, In j (nth 0 full []) /\ covers (nth j P []) c = true).
      { clear i Hi Hcv Hni r Hr Hir. intros r. induction r as [r IH] using lt_wf_ind. intros i Hi Hcv. destruct r as [|r]; [eauto|]. destruct (peeling_dominator (length F) F full (S r) i HP) as (j & Hj & (k & Hk & Hjk) & HD); [lia|auto|].
        apply (IH k Hk j Hjk). eapply covers_trans; [eapply lattice_dom; eauto|exact Hcv]. }
      destruct (Chain (S r) i Hir Hcv) as (j & Hj & Hjc). exists j. split; auto. apply A3. now rewrite Elst.
    + (* all individuals are in the first front *)
      rewrite Nat.sub_0_r in *. assert (Hlst : length lst = S n).
      { assert (HB : length lst <= length F); [|lia]. rewrite <- (seq_length (length F) 0), <- (Permutation_length HPm). destruct full as [|f0 full]; [rewrite Elst; cbn; lia|]. cbn [length nth] in Elst. subst f0. cbn [concat]. rewrite app_length. lia. }
      rewrite Hlst in B2. replace (S n - n) with 1 in B2 by lia. cbn [sms_drop] in B2. rewrite B2.
      assert (HNl : NoDup lst).
      { destruct full as [|f0 full]; [rewrite Elst; constructor|]. cbn [length nth] in Elst. subst f0. cbn [concat] in HND. now apply NoDup_app_iff in HND as [H _]. }
      assert (Hall : forall i, i < length F -> In i lst).
      { apply NoDup_full; auto; [|lia]. intros i Hi. apply (perm_seq_In _ _ i HPm). destruct full as [|f0 full]; [rewrite Elst in Hi; destruct Hi|]. cbn [length nth] in Elst. subst f0. cbn [concat]. apply in_or_app. auto. }
      destruct HT as (T1 & T2 & T3).
      (* the one member missing in T *)
      assert (Hmiss : exists k, k < length lst /\ ~ In (nth k lst 0) T).
      { destruct (search (length lst) (fun k => ~ In (nth k lst 0) T)) as [H|H]; [intros j; destruct (in_dec Nat.eq_dec (nth j lst 0) T); tauto|exact H|]. exfalso.
        assert (HI : incl lst T) by (intros x Hx; apply (In_nth _ _ 0) in Hx as (k & Hk & <-); destruct (in_dec Nat.eq_dec (nth k lst 0) T) as [|Hni]; auto; exfalso; exact (H k Hk Hni)).
        pose proof (NoDup_incl_length HNl HI). lia. }
      destruct Hmiss as (k & Hk & Hnk). apply Nat.le_trans with (hv P lo ref (delete_at lst k)).
      * apply hv_incl. intros x Hx. assert (HI : In x lst) by (apply Hall; auto). apply (Permutation_in _ (delete_perm lst k 0 Hk)) in HI. destruct HI as [<-|HI]; [contradiction|auto].
      * eapply C80_removal; eauto.
  - (* the first front survives completely *)
    apply hv_mono. intros i c Hi Hcv. assert (Hi' : i < length F) by (apply HT; auto). apply (perm_seq_In _ _ i HPm) in Hi'. apply in_concat_nth in Hi' as (r & Hr & Hir).
    assert (Chain : forall r i, In i (nth r full []) -> covers (nth i P []) c = true -> exists j, In j (nth 0 full []) /\ covers (nth j P []) c = true).
    { clear i Hi Hcv r Hr Hir. intros r. induction r as [r IH] using lt_wf_ind. intros i Hi Hcv. destruct r as [|r]; [eauto|]. destruct (peeling_dominator (length F) F full (S r) i HP) as (j & Hj & (k & Hk & Hjk) & HD); [lia|auto|].
      apply (IH k Hk j Hjk). eapply covers_trans; [eapply lattice_dom; eauto|exact Hcv]. }
    destruct (Chain r i Hir Hcv) as (j & Hj & Hjc). exists j. split; auto. apply Early. exists 0. split; [lia|auto].
Qed.
Print Assumptions C80_one_offspring.
(** with one offspring per generation the hypervolume of the population (merged first in the population) never decreases *)
Theorem C80_never_decreases : forall m F P lo ref unit contrib nds n, (0 < unit)%Q -> contributions_ok P lo ref unit contrib -> on_lattice F P ->
  nds_ok m nds -> rect m F -> mat_ok F -> length F = S n -> hv P lo ref (seq 0 n) <= hv P lo ref (sms_do nds contrib F n).
Proof.
  intros m F P lo ref unit contrib nds n Hu HC HL Hn HR HM HN. eapply C80_one_offspring; eauto. split; [apply seq_NoDup|]. split; [intros i Hi; apply in_seq in Hi; lia|apply seq_length].
Qed.
(** the members of the cut front are chosen by removing, again and again, the one whose loss costs least *)
Theorem C80_truncation : forall P lo ref unit contrib, (0 < unit)%Q -> contributions_ok P lo ref unit contrib -> forall r J, r <= length J -> greedy P lo ref r J (sms_drop contrib r J).
Proof.
  intros P lo ref unit contrib Hu HC. assert (Hc : forall J, length (contrib J) = length J) by (intros J; apply HC).
  induction r as [|r IH]; intros J Hr; cbn [sms_drop]; [constructor|]. assert (HJ : J <> []) by (intros ->; cbn in Hr; lia). pose proof (argmin_lt contrib Hc J HJ) as Hk.
  apply greedy_step with (argminQ (contrib J)); auto; [intros j Hj; apply (C80_removal P lo ref unit contrib J j Hu HC Hj)|]. apply IH. fold (delete_at J (argminQ (contrib J))). rewrite delete_length; lia.
Qed.
Print Assumptions C80_truncation.

(** a library meeting the contract *)
Definition contrib_ref P lo ref (J : list nat) : list Q :=
  map (fun k => inject_Z (Z.of_nat (hv P lo ref J) - Z.of_nat (hv P lo ref (firstn k J ++ skipn (S k) J)))) (seq 0 (length J)).
Lemma contrib_ref_ok P lo ref : contributions_ok P lo ref 1 (contrib_ref P lo ref).
Proof.
  intros J. unfold contrib_ref. split; [now rewrite map_length, seq_length|]. intros k Hk. set (f := fun k => inject_Z (Z.of_nat (hv P lo ref J) - Z.of_nat (hv P lo ref (firstn k J ++ skipn (S k) J)))).
  assert (E : nth k (map f (seq 0 (length J))) 0%Q = f k) by (rewrite (nth_indep _ 0%Q (f 0)) by (now rewrite map_length, seq_length); rewrite map_nth, seq_nth; auto). rewrite E. unfold f. now rewrite Qmult_1_l.
Qed.
Definition sms_pts : list (list Z) := [[10; 1]; [2; 5]; [4; 3]; [1; 11]]%Z.
Definition sms_F : fltmat := map (map fz) sms_pts.
Lemma sms_lattice : on_lattice sms_F sms_pts.
Proof.
  split; [reflexivity|]. split; [intros i; do 5 (destruct i as [|i]; [reflexivity|]); reflexivity|].
  intros i j k. do 4 (destruct i as [|i]; [do 4 (destruct j as [|j]; [intros Hk; cbn in Hk; do 2 (destruct k as [|k]; [vm_compute; intros; congruence|]); lia|]);
    intros Hk; cbn in Hk; do 2 (destruct k as [|k]; [unfold cell; cbn [nth sms_F sms_pts map]; intros H; destruct j; vm_compute in H; discriminate|]); lia|]).
  intros Hk. destruct i; cbn in Hk; lia.
Qed.
(** "the hypervolume never decreases" is false with several offspring per generation (the default): parents (10,1) and (2,5), offspring (4,3) and (1,11), reference
    point 11 in the scale of the parents, i.e. (90,45): the hypervolume falls from 3840 to 3826 *)
Theorem C80_many_offspring_refuted : ~ (forall m F P lo ref unit contrib nds n, (0 < unit)%Q -> contributions_ok P lo ref unit contrib -> on_lattice F P ->
  nds_ok m nds -> rect m F -> mat_ok F -> n <= length F -> hv P lo ref (seq 0 n) <= hv P lo ref (sms_do nds contrib F n)).
Proof.
  intros H. specialize (H 2 sms_F sms_pts [1; 1]%Z [90; 45]%Z 1%Q (contrib_ref sms_pts [1; 1]%Z [90; 45]%Z) (default_nds pr_ref) 2).
  assert (HF : hv sms_pts [1; 1]%Z [90; 45]%Z (seq 0 2) <= hv sms_pts [1; 1]%Z [90; 45]%Z (sms_do (default_nds pr_ref) (contrib_ref sms_pts [1; 1]%Z [90; 45]%Z) sms_F 2)).
  { apply H; [reflexivity|apply contrib_ref_ok|apply sms_lattice|apply default_nds_ok; intros F _ H1 H2; eapply pr_ref_ok; eauto|repeat constructor|repeat constructor|cbn; lia]. }
  assert (E : Nat.leb (hv sms_pts [1; 1]%Z [90; 45]%Z (seq 0 2)) (hv sms_pts [1; 1]%Z [90; 45]%Z (sms_do (default_nds pr_ref) (contrib_ref sms_pts [1; 1]%Z [90; 45]%Z) sms_F 2)) = false) by (vm_compute; reflexivity).
  apply Nat.leb_gt in E. lia.
Qed.
Print Assumptions C80_many_offspring_refuted.
(** the hypotheses are met: three parents and one offspring; the survivors are neither the parents nor all offspring *)
Example C80_case : on_lattice sms_F sms_pts /\ nds_ok 2 (default_nds pr_ref) /\ rect 2 sms_F /\ mat_ok sms_F /\
  sms_do (default_nds pr_ref) (contrib_ref sms_pts [1; 1]%Z [90; 45]%Z) sms_F 3 = [0; 2; 3] /\
  map (hv sms_pts [1; 1]%Z [90; 45]%Z) [[0; 1; 2]; [0; 1; 3]; [0; 2; 3]; [1; 2; 3]] = [3852; 3874; 3874; 3726].
Proof.
  split; [apply sms_lattice|]. split; [apply default_nds_ok; intros F _ H1 H2; eapply pr_ref_ok; eauto|]. split; [repeat constructor|]. split; [repeat constructor|]. split; vm_compute; reflexivity.
Qed.
