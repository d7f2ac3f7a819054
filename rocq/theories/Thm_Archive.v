(** * C41 (archive).  [pr] is moocore's Pareto ranking, assumed correct; truncation and duplicate criterion are arbitrary. *)
From Coq Require Import List Arith Bool Lia Permutation Sorted Relations.
From Verif Require Import Flt ListAux NpSort M_NDS M_Duplicate M_Survival M_Optimum S_Pareto S_NDS S_Survival S_Optimum P_Dominator P_Duplicate P_Optimum Thm_NDS Thm_Duplicate Thm_Optimum.
From Verif Require S_Duplicate.
Import ListNotations.
Local Open Scope nat_scope.

(** what an addition looks at *)
Definition merged {A} (arch sols : list A) : list A := if 0 <? length arch then arch ++ sols else sols.
Lemma merged_In {A} (arch sols : list A) x : In x (merged arch sols) <-> In x arch \/ In x sols.
Proof.
  unfold merged. destruct arch as [|a arch]; cbn [length Nat.ltb Nat.leb]; [simpl; tauto|]. rewrite in_app_iff. tauto.
Qed.

Section Elim.
  Context {A : Type} (d : A) (close : A -> A -> bool) (use_elim : bool).
  (** the archive's duplicate elimination (DefaultDuplicateElimination, or switched off) *)
  Definition elim : option (list A -> list A) := if use_elim then Some (fun l => dup_do (default_dup d close) l [] true) else None.
  Definition the_elim (l : list A) : list A := match elim with None => l | Some f => f l end.
  Lemma elim_incl l : incl (the_elim l) l.
  Proof.
    unfold the_elim, elim. destruct use_elim; [|apply incl_refl]. intros x Hx. apply (selects_In d l _ _ x (C20_default A d close l [] true)) in Hx.
    destruct Hx as (i & Hi & _ & ->). now apply nth_In.
  Qed.
  (** everything removed is linked to something kept by a chain of "close" steps inside the list *)
  Lemma elim_repr l x : In x l -> exists y, In y (the_elim l) /\ clos_refl_trans A (fun a b => close a b = true /\ In a l /\ In b l) x y.
  Proof.
    intros Hx. unfold the_elim, elim. destruct use_elim; [|exists x; split; auto; apply rt_refl].
    apply (In_nth _ _ d) in Hx as (i & Hi & <-). induction i as [i IH] using lt_wf_ind.
    destruct (existsb (fun j => close (nth i l d) (nth j l d)) (seq 0 i)) eqn:E.
    - apply existsb_exists in E as (j & Hj & E). apply in_seq in Hj. destruct (IH j ltac:(lia) ltac:(lia)) as (y & Hy & HC). exists y. split; auto.
      eapply rt_trans; [apply rt_step|exact HC]. split; auto. split; apply nth_In; lia.
    - exists (nth i l d). split; [|apply rt_refl]. apply (selects_In d l _ _ _ (C20_default A d close l [] true)). exists i. split; auto. split; auto.
      split; [|intros r []]. intros _ j Hj. rewrite not_existsb in E. apply E. apply in_seq. lia.
  Qed.
  Lemma elim_nonempty l : l <> [] -> the_elim l <> [].
  Proof. intros H. destruct l as [|x l]; [congruence|]. destruct (elim_repr (x :: l) x) as (y & Hy & _); [simpl; auto|]. intros E. rewrite E in Hy. destruct Hy. Qed.

End Elim.

(** successive calls of [add], starting with an empty archive *)
Section Arch.
  Context {A : Type} (d : A) (obj : A -> list flt) (cv : A -> flt) (feas : A -> bool) (pr : fltmat -> list nat) (m : nat).
  Variables (multi : bool) (close : A -> A -> bool) (use_elim : bool) (max_size truncate_size : option nat) (trunc : list A -> nat -> list A).
  Notation elim := (elim d close use_elim).
  Notation the_elim := (the_elim d close use_elim).
  Definition add1 (ms : option nat) := archive_add d obj cv feas pr multi elim ms truncate_size trunc.
  Fixpoint adds (ms : option nat) (arch : list A) (hist : list (list A)) : option (list A) :=
    match hist with
    | [] => Some arch
    | s :: hist => match add1 ms arch s with None => None | Some a => adds ms a hist end
    end.
  Notation better := (better_than obj cv feas).
  Notation best := (best obj cv feas).
  Notation ok := (ind_ok obj cv m).
  Hypothesis PR : pr_ok m pr.
  Hypothesis HM : multi = false -> m = 1.

  Lemma add1_spec ms arch sols arch' : Forall ok arch -> Forall ok sols -> add1 ms arch sols = Some arch' ->
    merged arch sols <> [] /\
    exists res, (forall x, In x res <-> best (merged arch sols) x) /\
      (arch' = the_elim res \/ exists k M, ms = Some M /\ 0 < M /\ M < length (the_elim res) /\ eff_truncate ms truncate_size = Some k /\ arch' = trunc (the_elim res) k) /\
      (ms = None -> arch' = the_elim res) /\
      (forall M, ms = Some (S M) -> length (the_elim res) <= S M -> arch' = the_elim res) /\
      (forall M, ms = Some (S M) -> arch' = the_elim res -> length arch' <= S M \/ exists k, eff_truncate ms truncate_size = Some k /\ arch' = trunc (the_elim res) k).
  Proof.
    intros HA HS E. unfold add1, archive_add in E. fold (merged arch sols) in E.
    assert (HO : Forall ok (merged arch sols)). { apply Forall_forall. intros x Hx. apply merged_In in Hx. rewrite Forall_forall in HA, HS. destruct Hx; auto. }
    destruct (merged arch sols) as [|x0 l0] eqn:El; [discriminate|]. rewrite <- El in *. assert (Hne : merged arch sols <> []) by (rewrite El; discriminate).
    split; auto. destruct (find_opt_selects d obj cv feas pr m PR multi (merged arch sols) Hne HO HM) as (res & E1 & E2).
    rewrite E1 in E. fold (the_elim res) in E. injection E as E.
    exists res. split.
    { intros x. rewrite (selects_In_val d _ _ (fun a => best (merged arch sols) a) x E2). unfold S_Optimum.best. tauto. }
    destruct ms as [[|M]|].
    - split; auto. split; auto. split; intros; discriminate.
    - destruct (S M <? length (the_elim res)) eqn:EM.
      + apply Nat.ltb_lt in EM. destruct (eff_truncate (Some (S M)) truncate_size) as [k|] eqn:ET.
        * split; [right; exists k, (S M); repeat split; auto; lia|]. split; [discriminate|]. split; [intros M' HM' HL; injection HM' as <-; lia|].
          intros M' HM' HL. right. exists k. auto.
        * exfalso. unfold eff_truncate in ET. destruct truncate_size; discriminate.
      + apply Nat.ltb_ge in EM. split; auto. split; auto. split; auto. intros M' HM' HL. injection HM' as <-. left. subst; auto.
    - split; auto. split; auto. split; intros; discriminate.
  Qed.

  Lemma eff_le ms k M : eff_truncate ms truncate_size = Some k -> ms = Some M -> k <= M.
  Proof. unfold eff_truncate. intros H ->. destruct truncate_size; simpl in H; injection H as <-; lia. Qed.
  (** *** invariants *)
  Hypothesis TR : trunc_ok trunc.
  Hypothesis KPOS : forall k, eff_truncate max_size truncate_size = Some k -> 0 < k.

  Lemma trunc_incl l k : k <= length l -> incl (trunc l k) l.
  Proof. intros Hk x Hx. destruct (TR l k Hk) as [_ (rest & HP)]. eapply Permutation_in; [symmetry; exact HP|]. apply in_or_app; auto. Qed.

  Lemma add1_members arch sols arch' : Forall ok arch -> Forall ok sols -> add1 max_size arch sols = Some arch' ->
    arch' <> [] /\ (forall x, In x arch' -> best (merged arch sols) x) /\
    (forall M, max_size = Some (S M) -> length arch' <= S M) /\
    (use_elim = true -> (forall a b, close a b = close b a) -> forall p q, p < length arch' -> q < length arch' -> p <> q -> close (nth p arch' d) (nth q arch' d) = false).
  Proof.
    intros HA HS E. destruct (add1_spec max_size arch sols arch' HA HS E) as (Hne & res & R1 & R2 & R3 & R4 & R5).
    assert (Hres : res <> []).
    { destruct (merged arch sols) as [|x0 l0] eqn:El; [congruence|]. destruct (best_covers d obj cv feas m (merged arch sols)) with (x := x0) as (y & Hy & _).
      - apply Forall_forall. intros x Hx. apply merged_In in Hx. rewrite Forall_forall in HA, HS. destruct Hx; auto.
      - rewrite El; simpl; auto.
      - rewrite El in Hy. intros E0. apply R1 in Hy. rewrite E0 in Hy. destruct Hy. }
    assert (Hap : use_elim = true -> (forall a b, close a b = close b a) -> forall p q, p < length (the_elim res) -> q < length (the_elim res) -> p <> q ->
               close (nth p (the_elim res) d) (nth q (the_elim res) d) = false).
    { intros HU HSy p q Hp Hq Hpq. unfold Thm_Archive.the_elim, Thm_Archive.elim in *. rewrite HU in *. destruct (C20_pairwise_apart A d close (fun _ => BinInt.Z0) res []) as [HPA _].
      destruct (Nat.lt_trichotomy p q) as [L|[L|L]]; [|lia|].
      - rewrite HSy. apply (HPA p q). lia.
      - apply (HPA q p). lia. }
    destruct R2 as [->|(k & M & EM & HM0 & HL & ET & ->)].
    - split; [now apply elim_nonempty|]. split; [intros x Hx; apply R1; now apply (elim_incl d close use_elim)|]. split; [|auto].
      intros M HMs. destruct (R5 M HMs eq_refl) as [HL|(k & ET & EQ)]; auto.
      rewrite EQ. destruct (le_lt_dec k (length (the_elim res))) as [Hk|Hk].
      + destruct (TR (the_elim res) k Hk) as [-> _]. eapply eff_le; eauto.
      + pose proof (eff_le _ _ _ ET HMs). rewrite <- EQ. lia.
    - assert (Hk : k <= length (the_elim res)) by (pose proof (eff_le _ _ _ ET EM); lia).
      destruct (TR (the_elim res) k Hk) as [HLk (rest & HPm)]. specialize (KPOS k ET).
      split; [intros E0; rewrite E0 in HLk; simpl in HLk; lia|]. split; [intros x Hx; apply R1; apply (elim_incl d close use_elim); now apply (trunc_incl _ k)|].
      split; [intros M' HMs; rewrite HLk; eapply eff_le; eauto|].
      intros HU HSy p q Hp Hq Hpq. set (t := trunc (the_elim res) k) in *.
      (* positions of the two in the list before truncation *)
      assert (Hpp : exists p' q', p' < length (the_elim res) /\ q' < length (the_elim res) /\ p' <> q' /\ nth p' (the_elim res) d = nth p t d /\ nth q' (the_elim res) d = nth q t d).
      { destruct (Permutation_nth (the_elim res) (t ++ rest) d) as [HN _]. destruct (HN HPm) as (HLen & f & F1 & F2 & F3). clear HN.
        rewrite app_length in HLen. exists (f p), (f q). split; [apply F1; lia|]. split; [apply F1; lia|]. split; [intros EQ; apply F2 in EQ; lia|].
        rewrite <- !F3 by lia. rewrite !app_nth1 by lia. auto. }
      destruct Hpp as (p' & q' & H1 & H2 & H3 & <- & <-). apply Hap; auto.
  Qed.

  Lemma adds_app ms a h s : adds ms a (h ++ [s]) = match adds ms a h with None => None | Some x => add1 ms x s end.
  Proof. revert a; induction h as [|x h IH]; intros a; cbn [app adds]; [destruct (add1 ms a s); auto|]. destruct (add1 ms a x); auto. Qed.

  Lemma adds_inv hist : (forall s, In s hist -> Forall ok s) -> forall arch, adds max_size [] hist = Some arch ->
    incl arch (concat hist) /\ (hist <> [] -> arch <> []) /\ (forall x y, In x arch -> In y arch -> ~ better x y) /\
    ((exists a, In a (concat hist) /\ feas a = true) -> forall x, In x arch -> feas x = true) /\
    ((forall a, In a (concat hist) -> feas a = false) -> forall x y, In x arch -> In y (concat hist) -> fleb (cv x) (cv y) = true) /\
    (m = 1 -> forall x y, In x arch -> In y (concat hist) -> ~ better y x).
  Proof.
    induction hist as [|s hist IH] using rev_ind; intros Hok arch E.
    - cbn [adds] in E. injection E as <-. split; [apply incl_nil_l|]. split; [congruence|]. split; [intros ? ? []|]. split; [intros _ ? []|]. split; [intros _ ? ? []|intros _ ? ? []].
    - rewrite adds_app in E. destruct (adds max_size [] hist) as [a0|] eqn:E0; [|discriminate].
      destruct (IH (fun s' Hs' => Hok s' (in_or_app _ _ _ (or_introl Hs'))) a0 eq_refl) as (I1 & I2 & I3 & I4 & I5 & I6). clear IH.
      rewrite concat_app. cbn [concat]. rewrite app_nil_r.
      assert (HokC : forall a, In a (concat hist ++ s) -> ok a).
      { intros a Ha. apply in_app_or in Ha. destruct Ha as [Ha|Ha].
        - apply in_concat in Ha as (l & Hl & Ha). specialize (Hok l (in_or_app _ _ _ (or_introl Hl))). rewrite Forall_forall in Hok. auto.
        - assert (Hs' : In s (hist ++ [s])) by (apply in_or_app; simpl; auto). specialize (Hok s Hs'). rewrite Forall_forall in Hok. auto. }
      assert (Oa : Forall ok a0) by (apply Forall_forall; intros x Hx; apply HokC, in_or_app; left; auto).
      assert (Os : Forall ok s) by (apply Forall_forall; intros x Hx; apply HokC, in_or_app; right; auto).
      destruct (add1_members a0 s arch Oa Os E) as (M1 & M2 & _).
      assert (Hin : incl arch (concat hist ++ s)).
      { intros x Hx. destruct (M2 x Hx) as [Hm _]. apply merged_In in Hm. apply in_or_app. destruct Hm; auto. }
      split; [exact Hin|]. split; [intros _; exact M1|].
      split. { intros x y Hx Hy. destruct (M2 y Hy) as [_ HB]. apply HB. apply M2; auto. }
      assert (Hrep : forall y, In y (concat hist) -> feas y = true -> exists z, In z a0 /\ feas z = true).
      { intros y Hy Hf. assert (Hne : hist <> []) by (intros ->; destruct Hy). specialize (I2 Hne). destruct a0 as [|z a0]; [congruence|].
        exists z. split; [simpl; auto|]. apply I4; [eauto|simpl; auto]. }
      split.
      { intros (a & Ha & Hf) x Hx. destruct (M2 x Hx) as [Hm HB]. destruct (feas x) eqn:Ex; auto. exfalso.
        apply in_app_or in Ha. destruct Ha as [Ha|Ha].
        - destruct (Hrep a Ha Hf) as (z & Hz & Hfz). apply (HB z); [apply merged_In; auto|left; auto].
        - apply (HB a); [apply merged_In; auto|left; auto]. }
      split.
      { intros Hno x y Hx Hy. destruct (M2 x Hx) as [Hm HB].
        assert (Hcmp : forall z, In z (merged a0 s) -> In z (concat hist ++ s) -> fleb (cv x) (cv z) = true).
        { intros z Hz Hz'. apply nlt_le; [apply HokC; auto|apply HokC; auto|]. destruct (fltb (cv z) (cv x)) eqn:Ez; auto. exfalso. apply (HB z Hz). right; right; auto. }
        apply in_app_or in Hy. destruct Hy as [Hy|Hy].
        - assert (Hne : hist <> []) by (intros ->; destruct Hy). specialize (I2 Hne). destruct a0 as [|z a0]; [congruence|].
          apply fle_trans with (cv z).
          + apply Hcmp; [apply merged_In; simpl; auto|]. apply in_or_app; left. apply I1; simpl; auto.
          + apply I5; [intros; apply Hno; apply in_or_app; auto|simpl; auto|auto].
        - apply Hcmp; [apply merged_In; auto|apply in_or_app; auto]. }
      intros Hm1 x y Hx Hy HByx. destruct (M2 x Hx) as [Hm HB]. apply in_app_or in Hy. destruct Hy as [Hy|Hy].
      + (* an old solution beats x: then the previous archive holds something that does, too *)
        assert (Hne : hist <> []) by (intros ->; destruct Hy). specialize (I2 Hne). destruct a0 as [|z a0]; [congruence|].
        assert (Hzb : ~ better y z) by (apply (I6 Hm1 z y); simpl; auto). apply (HB z); [apply merged_In; simpl; auto|].
        assert (Oy : ok y) by (apply HokC, in_or_app; auto). assert (Oz : ok z) by (apply HokC, in_or_app; left; apply I1; simpl; auto). assert (Ox : ok x) by (apply HokC; auto).
        assert (S1 : forall a, ok a -> length (obj a) = 1 /\ vec_ok (obj a)) by (intros a [[HL HV] _]; rewrite Hm1 in HL; auto).
        assert (N1 : forall a, ok a -> isnan (nth 0 (obj a) f_nan) = false).
        { intros a Oa'. destruct (S1 a Oa') as [HL HV]. destruct (obj a) as [|u [|? ?]]; try discriminate. inversion HV; auto. }
        assert (DS : forall a b, ok a -> ok b -> (dominates (obj a) (obj b) <-> fltb (nth 0 (obj a) f_nan) (nth 0 (obj b) f_nan) = true)).
        { intros a b Ha Hb. destruct (S1 a Ha), (S1 b Hb). apply dominates_single; auto. }
        destruct HByx as [[H1 H2]|[(H1 & H2 & H3)|(H1 & H2 & H3)]].
        * left. split; auto. destruct (feas z) eqn:Ez; auto. exfalso. apply Hzb. left; auto.
        * destruct (feas z) eqn:Ez; [|exfalso; apply Hzb; left; auto]. right; left. split; auto. split; auto. apply DS; auto.
          apply fle_lt_trans with (nth 0 (obj y) f_nan); [|now apply DS].
          apply nlt_le; auto. destruct (fltb (nth 0 (obj y) f_nan) (nth 0 (obj z) f_nan)) eqn:E1; auto. exfalso. apply Hzb. right; left. split; auto. split; auto. now apply DS.
        * destruct (feas z) eqn:Ez; [left; auto|]. right; right. split; auto. split; auto. apply fle_lt_trans with (cv y); auto.
          apply nlt_le; [apply Oy|apply Oz|]. destruct (fltb (cv y) (cv z)) eqn:E1; auto. exfalso. apply Hzb. right; right. auto.
      + apply (HB y); [apply merged_In; auto|auto].
  Qed.
End Arch.

(** C41, in general: after any sequence of additions, with any truncation (to at least one), the archive contains only solutions that were
    added, is not empty, at most [max_size] large, no member beats another; if a feasible solution was ever added all members are feasible;
    if none was, all have the least violation ever seen; with one objective no solution ever added beats a member *)
Theorem C41_archive : forall (A : Type) (d : A) obj cv feas pr m multi close use_elim max_size truncate_size trunc hist arch,
  pr_ok m pr -> (multi = false -> m = 1) -> trunc_ok trunc -> (forall k, eff_truncate max_size truncate_size = Some k -> 0 < k) ->
  (forall s, In s hist -> Forall (ind_ok obj cv m) s) ->
  adds d obj cv feas pr multi close use_elim truncate_size trunc max_size [] hist = Some arch ->
  incl arch (concat hist) /\ (hist <> [] -> arch <> []) /\
  (forall M, max_size = Some (S M) -> length arch <= S M) /\
  (forall x y, In x arch -> In y arch -> ~ better_than obj cv feas x y) /\
  ((exists a, In a (concat hist) /\ feas a = true) -> forall x, In x arch -> feas x = true) /\
  ((forall a, In a (concat hist) -> feas a = false) -> forall x y, In x arch -> In y (concat hist) -> fleb (cv x) (cv y) = true) /\
  (m = 1 -> forall x, In x arch -> best obj cv feas (concat hist) x) /\
  (use_elim = true -> (forall a b, close a b = close b a) ->
     forall p q, p < length arch -> q < length arch -> p <> q -> close (nth p arch d) (nth q arch d) = false).
Proof.
  intros A d obj cv feas pr m multi close use_elim ms ts trunc hist arch HP HM HT HK Hok E.
  destruct (adds_inv d obj cv feas pr m multi close use_elim ms ts trunc HP HM HT HK hist Hok arch E) as (I1 & I2 & I3 & I4 & I5 & I6).
  split; auto. split; auto.
  assert (Hlast : (arch = [] /\ hist = []) \/ exists a0 s, add1 d obj cv feas pr multi close use_elim ts trunc ms a0 s = Some arch /\ Forall (ind_ok obj cv m) a0 /\ Forall (ind_ok obj cv m) s).
  { destruct hist as [|s hist _] using rev_ind; [left; cbn in E; injection E as <-; auto|]. right. rewrite adds_app in E.
    destruct (adds d obj cv feas pr multi close use_elim ts trunc ms [] hist) as [a0|] eqn:E0; [|discriminate]. exists a0, s. split; auto.
    assert (Hok' : forall s', In s' hist -> Forall (ind_ok obj cv m) s') by (intros; apply Hok, in_or_app; auto).
    destruct (adds_inv d obj cv feas pr m multi close use_elim ms ts trunc HP HM HT HK hist Hok' a0 E0) as (J1 & _).
    split; [|apply Hok, in_or_app; simpl; auto]. apply Forall_forall. intros x Hx. apply J1, in_concat in Hx as (l & Hl & Hx).
    specialize (Hok' l Hl). rewrite Forall_forall in Hok'. auto. }
  split.
  { intros M HMs. destruct Hlast as [[-> _]|(a0 & s & E1 & Oa & Os)]; [simpl; lia|].
    destruct (add1_members d obj cv feas pr m multi close use_elim ms ts trunc HP HM HT HK a0 s arch Oa Os E1) as (_ & _ & H & _). auto. }
  split; auto. split; auto. split; auto. split.
  { intros Hm x Hx. split; [apply I1; auto|]. intros y Hy. apply I6; auto. }
  destruct Hlast as [[-> _]|(a0 & s & E1 & Oa & Os)]; [simpl; lia|].
  destruct (add1_members d obj cv feas pr m multi close use_elim ms ts trunc HP HM HT HK a0 s arch Oa Os E1) as (_ & _ & _ & H). auto.
Qed.
Print Assumptions C41_archive.

(** C41, without truncation, when duplicates have equal objectives and violations: the archive holds exactly the best of everything ever
    added, up to duplicates *)
Theorem C41_complete : forall (A : Type) (d : A) obj cv feas pr m multi close use_elim truncate_size trunc hist arch,
  pr_ok m pr -> (multi = false -> m = 1) ->
  (forall a b, close a b = true -> In a (concat hist) -> In b (concat hist) -> obj a = obj b /\ cv a = cv b /\ feas a = feas b) ->
  (forall s, In s hist -> Forall (ind_ok obj cv m) s) ->
  adds d obj cv feas pr multi close use_elim truncate_size trunc None [] hist = Some arch ->
  (forall x, In x arch -> best obj cv feas (concat hist) x) /\
  (forall x, best obj cv feas (concat hist) x ->
     exists y, In y arch /\ clos_refl_trans A (fun a b => close a b = true /\ In a (concat hist) /\ In b (concat hist)) x y).
Proof.
  intros A d obj cv feas pr m multi close use_elim ts trunc hist arch HP HM. revert arch.
  induction hist as [|s hist IH] using rev_ind; intros arch HD Hok E.
  - cbn in E. injection E as <-. split; [intros x []|intros x [[] _]].
  - rewrite adds_app in E. destruct (adds d obj cv feas pr multi close use_elim ts trunc None [] hist) as [a0|] eqn:E0; [|discriminate].
    rewrite concat_app in *. cbn [concat] in *. rewrite app_nil_r in *.
    set (All := concat hist) in *.
    destruct (IH a0) as [I1 I2]; auto.
    { intros a b Hab Ha Hb. apply HD; auto; apply in_or_app; auto. }
    { intros s' Hs'. apply Hok, in_or_app; auto. }
    clear IH.
    assert (HokC : forall a, In a (All ++ s) -> ind_ok obj cv m a).
    { intros a Ha. apply in_app_or in Ha. destruct Ha as [Ha|Ha].
      - apply in_concat in Ha as (l & Hl & Ha). specialize (Hok l (in_or_app _ _ _ (or_introl Hl))). rewrite Forall_forall in Hok. auto.
      - assert (Hs' : In s (hist ++ [s])) by (apply in_or_app; simpl; auto). specialize (Hok s Hs'). rewrite Forall_forall in Hok. auto. }
    assert (Hinc : incl a0 All) by (intros x Hx; apply I1; auto).
    assert (Oa : Forall (ind_ok obj cv m) a0) by (apply Forall_forall; intros x Hx; apply HokC, in_or_app; left; auto).
    assert (Os : Forall (ind_ok obj cv m) s) by (apply Forall_forall; intros x Hx; apply HokC, in_or_app; right; auto).
    destruct (add1_spec d obj cv feas pr m multi close use_elim ts trunc HP HM None a0 s arch Oa Os E) as (Hne & res & R1 & _ & R3 & _).
    specialize (R3 eq_refl). subst arch.
    assert (Hmi : incl (merged a0 s) (All ++ s)) by (intros x Hx; apply merged_In in Hx; apply in_or_app; destruct Hx; auto).
    (* values are constant along chains *)
    assert (Hch : forall x y, clos_refl_trans A (fun a b => close a b = true /\ In a (All ++ s) /\ In b (All ++ s)) x y -> obj x = obj y /\ cv x = cv y /\ feas x = feas y).
    { intros x y HC. induction HC as [x y (H1 & H2 & H3)|x|x y z _ (A1 & A2 & A3) _ (B1 & B2 & B3)]; [apply HD; auto|auto|]. split; [congruence|]. split; congruence. }
    assert (Hbv : forall a b z, obj a = obj b -> cv a = cv b -> feas a = feas b -> (better_than obj cv feas a z <-> better_than obj cv feas b z) /\ (better_than obj cv feas z a <-> better_than obj cv feas z b)).
    { intros a b z Ho Hc Hf. unfold better_than. rewrite Ho, Hc, Hf. tauto. }
    assert (Hmono : forall l l' x y, incl l l' -> clos_refl_trans A (fun a b => close a b = true /\ In a l /\ In b l) x y ->
              clos_refl_trans A (fun a b => close a b = true /\ In a l' /\ In b l') x y).
    { intros l l' x y Hl HC. induction HC as [x y (H1 & H2 & H3)|x|x y z _ A1 _ B1]; [apply rt_step; auto|apply rt_refl|eapply rt_trans; eauto]. }
    (* every best solution of the past is represented in the previous archive by an equal one *)
    assert (Hpast : forall y, best obj cv feas All y -> exists z, In z a0 /\ obj z = obj y /\ cv z = cv y /\ feas z = feas y /\
                clos_refl_trans A (fun a b => close a b = true /\ In a (All ++ s) /\ In b (All ++ s)) y z).
    { intros y Hy. destruct (I2 y Hy) as (z & Hz & HC). apply (Hmono _ (All ++ s)) in HC; [|intros u Hu; apply in_or_app; auto].
      exists z. split; auto. destruct (Hch y z HC) as (E1 & E2 & E3). auto. }
    assert (HAll : Forall (ind_ok obj cv m) All) by (apply Forall_forall; intros x Hx; apply HokC, in_or_app; auto).
    (* a solution beating x among everything implies one among the merged ones *)
    assert (Hlift : forall x y, In y (All ++ s) -> better_than obj cv feas y x -> exists z, In z (merged a0 s) /\ better_than obj cv feas z x).
    { intros x y Hy HB. apply in_app_or in Hy. destruct Hy as [Hy|Hy]; [|exists y; split; auto; apply merged_In; auto].
      destruct (best_covers d obj cv feas m All HAll y Hy) as (w & Hw & Hwy). destruct (Hpast w Hw) as (z & Hz & E1 & E2 & E3 & _).
      exists z. split; [apply merged_In; auto|]. apply (proj1 (Hbv z w x E1 E2 E3)). destruct Hwy as [->|Hwy]; auto. eapply better_trans; eauto. }
    split.
    + intros x Hx. apply (elim_incl d close use_elim) in Hx. apply R1 in Hx. destruct Hx as [Hx1 Hx2]. split; [apply Hmi; auto|].
      intros y Hy HB. destruct (Hlift x y Hy HB) as (z & Hz & HBz). apply (Hx2 z); auto.
    + intros x [Hx HB].
      assert (Hrep : exists z, In z (merged a0 s) /\ clos_refl_trans A (fun a b => close a b = true /\ In a (All ++ s) /\ In b (All ++ s)) x z).
      { apply in_app_or in Hx. destruct Hx as [Hx|Hx]; [|exists x; split; [apply merged_In; auto|apply rt_refl]].
        destruct (Hpast x) as (z & Hz & _ & _ & _ & HC). { split; auto. intros y Hy. apply HB, in_or_app; auto. }
        exists z. split; [apply merged_In; auto|auto]. }
      destruct Hrep as (z & Hz & HC). destruct (Hch x z HC) as (E1 & E2 & E3).
      assert (Hzr : In z res). { apply R1. split; auto. intros y Hy HBy. apply (HB y); [apply Hmi; auto|]. apply (proj2 (Hbv x z y E1 E2 E3)); auto. }
      destruct (elim_repr d close use_elim res z Hzr) as (y & Hy & HC2). exists y. split; auto. eapply rt_trans; [exact HC|].
      apply (Hmono res); auto. intros u Hu. apply Hmi. apply R1 in Hu. apply Hu.
Qed.
Print Assumptions C41_complete.

(** a limit that is never exceeded makes no difference, whatever the truncation *)
Theorem C41_no_truncation_needed : forall (A : Type) (d : A) obj cv feas pr multi close use_elim M truncate_size trunc hist arch,
  adds d obj cv feas pr multi close use_elim truncate_size trunc None [] hist = Some arch ->
  (forall k a, adds d obj cv feas pr multi close use_elim truncate_size trunc None [] (firstn k hist) = Some a -> length a <= M) -> 0 < M ->
  adds d obj cv feas pr multi close use_elim truncate_size trunc (Some M) [] hist = Some arch.
Proof.
  intros A d obj cv feas pr multi close use_elim M ts trunc hist arch E HL HM0. destruct M as [|M]; [lia|]. clear HM0.
  revert arch E HL. induction hist as [|s hist IH] using rev_ind; intros arch E HL; [exact E|].
  rewrite adds_app in *. destruct (adds d obj cv feas pr multi close use_elim ts trunc None [] hist) as [a0|] eqn:E0; [|discriminate].
  rewrite (IH a0); auto.
  - assert (HLa : length arch <= S M).
    { apply (HL (length (hist ++ [s])) arch). rewrite firstn_all, adds_app, E0. exact E. }
    clear HL IH. unfold add1, archive_add in *. destruct (find_opt d obj cv feas pr multi _) as [opt|]; [|discriminate]. injection E as E.
    cbv zeta in *. rewrite E. apply Nat.ltb_ge in HLa. rewrite HLa. reflexivity.
  - intros k a Hk. destruct (le_lt_dec k (length hist)) as [Hle|Hlt].
    + apply (HL k a). rewrite firstn_app. replace (k - length hist) with 0 by lia. simpl. now rewrite app_nil_r.
    + rewrite firstn_all2 in Hk by lia. apply (HL (length hist) a). rewrite firstn_app, Nat.sub_diag, firstn_all. simpl. now rewrite app_nil_r.
Qed.
Print Assumptions C41_no_truncation_needed.

(** where duplicates have different values (a noisy problem), a best solution may be lost: the duplicate kept instead of it is beaten later *)
(** moocore's ranking can be met: the ranks of the model's own fast non-dominated sort *)
Fixpoint front_of (fronts : list (list nat)) (i : nat) : nat :=
  match fronts with [] => 0 | f :: fronts => if existsb (Nat.eqb i) f then 0 else S (front_of fronts i) end.
Definition pr_fast (F : fltmat) : list nat :=
  match fast_nds (fun F => M_Dominator.calc_domination_matrix F None f_zero) F with None => [] | Some fr => map (front_of fr) (seq 0 (length F)) end.
Lemma pr_fast_ok m : pr_ok m pr_fast.
Proof.
  intros F Hne HR HO. destruct (C03_fast_nds m F HR HO) as (fr & E & HP). unfold pr_fast. rewrite E. split; [now rewrite map_length, seq_length|].
  exists fr. split; auto. intros i k Hi. rewrite (nth_indep _ 0 (front_of fr 0)) by (now rewrite map_length, seq_length). rewrite map_nth, seq_nth by auto. cbn [plus].
  assert (HI : In i (concat fr)) by (destruct HP as [HP _]; apply (Permutation_in _ (Permutation_sym HP)), in_seq; lia).
  assert (HN : NoDup (concat fr)) by (destruct HP as [HP _]; apply (Permutation_NoDup (Permutation_sym HP)), seq_NoDup).
  clear - HI HN. revert k. induction fr as [|f fr IH]; intros k; [destruct HI|]. cbn [front_of concat] in *.
  destruct (existsb (Nat.eqb i) f) eqn:EX.
  - apply existsb_exists in EX as (j & Hj & Ej). apply Nat.eqb_eq in Ej. subst j. split; [intros <-; auto|].
    destruct k as [|k]; auto. cbn [nth]. intros Hk. exfalso.
    assert (Hc : In i (concat fr)) by (apply in_concat; exists (nth k fr []); split; auto; destruct (le_lt_dec (length fr) k); [rewrite nth_overflow in Hk by auto; destruct Hk|apply nth_In; auto]).
    revert Hj Hc. clear - HN. induction f as [|a f IH]; [intros []|]. simpl in HN. inversion HN as [|? ? H1 H2]; subst. intros [->|Hj] Hc; [apply H1, in_or_app; auto|auto].
  - assert (Hnf : ~ In i f). { intros Hf. assert (existsb (Nat.eqb i) f = true) by (apply existsb_exists; exists i; split; auto; apply Nat.eqb_refl). congruence. }
    apply in_app_or in HI. destruct HI as [HI|HI]; [contradiction|].
    assert (HN2 : NoDup (concat fr)). { clear - HN. induction f; simpl in *; auto. inversion HN; auto. }
    destruct k as [|k]; [cbn [nth]; split; [discriminate|contradiction]|]. cbn [nth]. rewrite <- (IH HI HN2 k). lia.
Qed.
(** keeping the first [k] *)
Definition keep_first {A} (l : list A) (k : nat) : list A := firstn k l.
Lemma keep_first_ok {A} : trunc_ok (@keep_first A).
Proof. intros l k Hk. unfold keep_first. split; [now apply firstn_length_le|]. exists (skipn k l). now rewrite firstn_skipn. Qed.
Definition d_close (a b : dind) : bool := fst (fst a) =? fst (fst b).
Theorem C41_noise_refuted :
  ~ (forall (A : Type) (d : A) obj cv feas pr m multi close use_elim truncate_size trunc hist arch,
     pr_ok m pr -> (multi = false -> m = 1) -> (forall s, In s hist -> Forall (ind_ok obj cv m) s) ->
     adds d obj cv feas pr multi close use_elim truncate_size trunc None [] hist = Some arch ->
     forall x, best obj cv feas (concat hist) x ->
       exists y, In y arch /\ clos_refl_trans A (fun a b => close a b = true /\ In a (concat hist) /\ In b (concat hist)) x y).
Proof.
  intros HH.
  specialize (HH dind dd d_obj d_cv d_feas pr_fast 2 true d_close true None (fun l _ => l)
    [[(1, [0; 2], 0); (1, [2; 0], 0)]; [(2, [0; 1], 0)]] [(2, [0; 1], 0)]).
  destruct (HH (pr_fast_ok 2) ltac:(discriminate)) with (x := ((1, [2; 0], 0) : dind)) as (y & Hy & HC).
  - intros s Hs. assert (Hd : forall a : dind, length (d_obj a) = 2 -> vec_ok (d_obj a) -> isnan (d_cv a) = false -> ind_ok d_obj d_cv 2 a) by (intros; repeat split; auto).
    destruct Hs as [<-|[<-|[]]]; repeat (apply Forall_cons; [apply Hd; [reflexivity|repeat constructor|reflexivity]|]); apply Forall_nil.
  - vm_compute. reflexivity.
  - split; [simpl; auto|]. intros z Hz [[H1 H2]|[(H1 & H2 & H3)|(H1 & H2 & H3)]]; try discriminate.
    simpl in Hz. destruct Hz as [<-|[<-|[<-|[]]]]; destruct H3 as [H3 H4]; try (inversion H3 as [|? ? ? ? H5 H6]; subst; inversion H6 as [|? ? ? ? H7 H8]; subst; vm_compute in H5, H7; discriminate).
    destruct H4 as (k & u & v & K1 & K2 & K3). rewrite K1 in K2. injection K2 as ->. rewrite flt_irrefl in K3. discriminate.
  - assert (Hid : forall a b : dind, clos_refl_trans dind (fun a b => d_close a b = true /\ In a (concat [[(1, [0; 2], 0); (1, [2; 0], 0)]; [(2, [0; 1], 0)]]) /\ In b (concat [[(1, [0; 2], 0); (1, [2; 0], 0)]; [(2, [0; 1], 0)]])) a b -> fst (fst a) = fst (fst b)).
    { intros a b H. induction H as [a b (H & _)|a|a b c _ H1 _ H2]; [now apply Nat.eqb_eq|auto|congruence]. }
    apply Hid in HC. destruct Hy as [<-|[]]. discriminate.
Qed.
Print Assumptions C41_noise_refuted.

(** the hypotheses are met: three additions to an unlimited archive and to one of size 2 truncated to 1 *)
Definition demo_hist : list (list dind) :=
  [[(1, [5; 5], 1); (2, [9; 9], 0)]; [(3, [3; 4], 0); (3, [3; 4], 0); (4, [4; 3], 0)]; [(5, [1; 6], 0); (6, [7; 7], 0)]].
Example C41_case : pr_ok 2 pr_fast /\ trunc_ok (@keep_first dind) /\ (forall k, eff_truncate (Some 2) (Some 1) = Some k -> 0 < k) /\
  (forall s, In s demo_hist -> Forall (ind_ok d_obj d_cv 2) s) /\
  adds dd d_obj d_cv d_feas pr_fast true d_close true None keep_first None [] demo_hist = Some [(3, [3; 4], 0); (4, [4; 3], 0); (5, [1; 6], 0)] /\
  adds dd d_obj d_cv d_feas pr_fast true d_close true (Some 1) keep_first (Some 2) [] demo_hist = Some [(3, [3; 4], 0)].
Proof.
  split; [apply pr_fast_ok|]. split; [apply keep_first_ok|]. split; [intros k H; injection H as <-; lia|]. split; [|split; vm_compute; reflexivity].
  intros s Hs. assert (Hd : forall a : dind, length (d_obj a) = 2 -> vec_ok (d_obj a) -> isnan (d_cv a) = false -> ind_ok d_obj d_cv 2 a) by (intros; repeat split; auto).
  destruct Hs as [<-|[<-|[<-|[]]]]; repeat (apply Forall_cons; [apply Hd; [reflexivity|repeat constructor|reflexivity]|]); apply Forall_nil.
Qed.
