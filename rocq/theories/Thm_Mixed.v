From Coq Require Import String List Arith Bool ZArith QArith Lia Permutation.
From Verif Require Import ListAux M_Params P_Params M_Bounds P_Bounds Thm_Bounds M_Cross Thm_Cross M_Mixed S_Mixed.
Import ListNotations.
Local Open Scope nat_scope.

Lemma osequence_some {A} (l : list (option A)) : (forall o, In o l -> o <> None) -> exists r, osequence l = Some r.
Proof.
  induction l as [|[x|] l IH]; intros H; [exists []; reflexivity| |destruct (H None); [left; auto|auto]].
  destruct IH as [r E]; [intros o Ho; apply H; right; auto|]. exists (x :: r). cbn [osequence]. now rewrite E.
Qed.
Lemma osequence_map {A B} (f : A -> option B) l r : osequence (map f l) = Some r <-> Forall2 (fun x y => f x = Some y) l r.
Proof.
  revert r; induction l as [|x l IH]; intros r; cbn [map osequence].
  - split; [intros [= <-]; constructor|intros H; inversion H; reflexivity].
  - destruct (f x) as [y|] eqn:E.
    + split.
      * destruct (osequence (map f l)) as [r'|] eqn:E'; [|discriminate]. intros [= <-]. constructor; auto. now apply IH.
      * intros H. inversion H as [|? ? ? r' H1 H2]; subst. apply IH in H2. rewrite H2. cbn. congruence.
    + split; [discriminate|]. intros H. inversion H; congruence.
Qed.

(** ** grouping *)
Lemma vclass_eqb_eq a b : vclass_eqb a b = true <-> a = b.
Proof. destruct a, b; cbn; split; congruence. Qed.
Lemma add_group_spec c kv g : Permutation (concat (map snd (add_group c kv g))) (kv :: concat (map snd g)) /\
  (Forall (fun cl => Forall (fun kv => class_of (snd kv) = fst cl) (snd cl)) g -> class_of (snd kv) = c -> Forall (fun cl => Forall (fun kv => class_of (snd kv) = fst cl) (snd cl)) (add_group c kv g)).
Proof.
  induction g as [|[c' l] g [IH1 IH2]]; cbn [add_group].
  - cbn. split; [apply Permutation_refl|]. intros _ H. constructor; [repeat constructor; auto|constructor].
  - destruct (vclass_eqb c c') eqn:E.
    + apply vclass_eqb_eq in E. subst c'. cbn. split; [rewrite <- app_assoc; cbn; symmetry; apply Permutation_middle|]. intros HF HC. inversion HF as [|? ? H1 H2]; subst. constructor; auto. cbn in *. apply Forall_app. split; auto.
    + cbn. split.
      * eapply Permutation_trans; [apply Permutation_app_head, IH1|]. symmetry. apply Permutation_middle.
      * intros HF HC. inversion HF as [|? ? H1 H2]; subst. constructor; auto.
Qed.
Lemma vars_by_type_spec vs : Permutation (concat (map snd (vars_by_type vs))) vs /\ Forall (fun cl => Forall (fun kv => class_of (snd kv) = fst cl) (snd cl)) (vars_by_type vs).
Proof.
  unfold vars_by_type. assert (H : forall vs g, Forall (fun cl => Forall (fun kv => class_of (snd kv) = fst cl) (snd cl)) g ->
    let g' := fold_left (fun g kv => add_group (class_of (snd kv)) kv g) vs g in Permutation (concat (map snd g')) (concat (map snd g) ++ vs) /\ Forall (fun cl => Forall (fun kv => class_of (snd kv) = fst cl) (snd cl)) g').
  { clear vs. induction vs as [|kv vs IH]; intros g HF; cbn [fold_left]; cbv zeta; [rewrite app_nil_r; auto|].
    destruct (add_group_spec (class_of (snd kv)) kv g) as [A1 A2]. destruct (IH _ (A2 HF eq_refl)) as [I1 I2]. split; auto. eapply Permutation_trans; [exact I1|].
    eapply Permutation_trans; [apply Permutation_app_tail, A1|]. cbn. apply Permutation_middle. }
  apply (H vs []). constructor.
Qed.
Lemma recomb_spec vs : Permutation (concat (map snd (recomb vs))) vs /\ Forall (fun cl => Forall (fun kv => class_of (snd kv) = fst cl) (snd cl)) (recomb vs).
Proof.
  destruct (vars_by_type_spec vs) as [H1 H2]. unfold recomb. split.
  - eapply Permutation_trans; [|exact H1]. clear. induction (vars_by_type vs) as [|[c l] g IH]; [constructor|]. cbn [flat_map map concat fst snd]. rewrite map_app, concat_app. apply Permutation_app; auto.
    destruct c; cbn; rewrite ?app_nil_r; auto. rewrite map_map. cbn. clear. induction l as [|a l IH]; cbn; auto.
  - apply Forall_forall. intros cl Hc. apply in_flat_map in Hc as ([c l] & Hl & Hc). rewrite Forall_forall in H2. specialize (H2 _ Hl). cbn [fst snd] in *.
    destruct c; try (destruct Hc as [<-|[]]; auto). apply in_map_iff in Hc as (kv & <- & Hk). cbn. constructor; [|constructor]. rewrite Forall_forall in H2. auto.
Qed.

(** ** one group *)
Lemma dset_fresh {V} (d : list (string * V)) k v : ~ In k (map fst d) -> dset d k v = d ++ [(k, v)].
Proof.
  induction d as [|[k0 v0] d IH]; cbn; intros H; [reflexivity|]. destruct (String.eqb_spec k0 k) as [->|E]; [destruct H; auto|]. rewrite IH by tauto. reflexivity.
Qed.
Lemma assign_fresh g : forall row X, length row = length g -> NoDup (map fst X ++ map fst g) -> assign g row X = Some (X ++ combine (map fst g) row).
Proof.
  induction g as [|kv g IH]; intros [|x row] X HL HN; try discriminate; cbn [assign combine map]; [now rewrite app_nil_r|].
  cbn [map] in HN. assert (HF : ~ In (fst kv) (map fst X)) by (intros C; apply NoDup_remove_2 in HN; apply HN, in_app_iff; auto).
  rewrite dset_fresh by auto. rewrite IH; [now rewrite <- app_assoc|simpl in HL; lia|]. rewrite map_app. cbn [map fst]. rewrite <- app_assoc. exact HN.
Qed.
Lemma values_of_spec g X : (forall kv, In kv g -> exists x, dget X (fst kv) = Some x /\ in_dom (snd kv) x) -> exists row, values_of g X = Some row /\ Forall2 (fun kv x => in_dom (snd kv) x) g row.
Proof.
  unfold values_of. induction g as [|kv g IH]; intros H; cbn [map osequence]; [exists []; split; [reflexivity|constructor]|].
  destruct (H kv (or_introl eq_refl)) as (x & E & Hx). destruct IH as (row & E' & Hr); [intros; apply H; right; auto|]. rewrite E, E'. exists (x :: row). split; [reflexivity|constructor; auto].
Qed.
Lemma osequence_values g parents : (forall mating, In mating parents -> length mating = 2 /\ forall X, In X mating -> covers g X) ->
  exists Xs, osequence (map (fun mating => osequence (map (values_of g) mating)) parents) = Some Xs /\ length Xs = length parents /\ Forall (fun mating => length mating = 2 /\ rows_in g mating) Xs.
Proof.
  induction parents as [|mt parents IH]; intros H; cbn [map osequence]; [exists []; repeat split; constructor|].
  destruct (H mt (or_introl eq_refl)) as [HL HC]. assert (HM : exists rows, osequence (map (values_of g) mt) = Some rows /\ length rows = length mt /\ rows_in g rows).
  { clear - HC. induction mt as [|X mt IH]; cbn [map osequence]; [exists []; repeat split; constructor|]. destruct (values_of_spec g X (HC X (or_introl eq_refl))) as (row & E & Hr). rewrite E.
    destruct IH as (rows & E' & HL & Hrs); [intros; apply HC; right; auto|]. rewrite E'. exists (row :: rows). split; [reflexivity|]. split; [simpl; lia|constructor; auto]. }
  destruct HM as (rows & E & HL' & Hr). rewrite E. destruct IH as (Xs & E' & HX1 & HX2); [intros; apply H; right; auto|]. rewrite E'. exists (rows :: Xs). split; [reflexivity|]. split; [simpl; lia|]. constructor; auto. split; [lia|auto].
Qed.

Section Mating.
  Variable cross : vclass -> vars -> list (list (list mval)) -> list (list mval).
  Variable mut : vclass -> vars -> list (list mval) -> list (list mval).
  Hypothesis HC : cross_ok cross.
  Hypothesis HM : mut_ok mut.
  Variables (parents : list (list dict)) (n : nat).
  Hypothesis Hn : n <= 2 * length parents.

  (** dictionary entries of one offspring: the names of the groups with values *)
  Definition entries_ok (g : vars) (e : dict) : Prop := map fst e = map fst g /\ Forall2 (fun kv e => in_dom (snd kv) (snd e)) g e.
  Lemma group_step_spec c g off : Forall (fun kv => class_of (snd kv) = c /\ var_ok (snd kv)) g -> (forall mating, In mating parents -> length mating = 2 /\ forall X, In X mating -> covers g X) ->
    length off = n -> (forall k, k < n -> NoDup (map fst (nth k off []) ++ map fst g)) ->
    exists off', group_step cross mut parents (Some off) (c, g) = Some off' /\ length off' = n /\ forall k, k < n -> exists e, nth k off' [] = nth k off [] ++ e /\ entries_ok g e.
  Proof.
    intros Hg Hp HL HN. unfold group_step. cbn [fst snd]. destruct (osequence_values g parents Hp) as (Xs & E & HX1 & HX2). rewrite E.
    destruct (HC c g Xs Hg HX2) as [C1 C2]. destruct (HM c g _ Hg C2) as [M1 M2]. set (rows := mut c g (cross c g Xs)) in *.
    assert (HR : forall k, k < n -> exists row, nth_error rows k = Some row /\ Forall2 (fun kv x => in_dom (snd kv) x) g row).
    { intros k Hk. destruct (nth_error rows k) as [row|] eqn:Ek; [|apply nth_error_None in Ek; lia]. exists row. split; auto. unfold rows_in in M2. rewrite Forall_forall in M2. apply M2. eapply nth_error_In; eauto. }
    assert (HA : forall k, k < n -> exists row, nth_error rows k = Some row /\ assign g row (nth k off []) = Some (nth k off [] ++ combine (map fst g) row) /\ Forall2 (fun kv x => in_dom (snd kv) x) g row).
    { intros k Hk. destruct (HR k Hk) as (row & Ek & Hrow). exists row. split; auto. split; auto. apply assign_fresh; auto. clear - Hrow. induction Hrow; simpl; auto. }
    assert (HS : forall ks, (forall k, In k ks -> k < n) -> exists off', osequence (map (fun k => match nth_error rows k with Some row => assign g row (nth k off []) | None => None end) ks) = Some off' /\ length off' = length ks /\
      forall t, t < length ks -> exists row, nth t off' [] = nth (nth t ks 0) off [] ++ combine (map fst g) row /\ Forall2 (fun kv x => in_dom (snd kv) x) g row).
    { induction ks as [|k ks IH]; intros Hks; cbn [map osequence]; [exists []; repeat split; intros t Ht; simpl in Ht; lia|]. destruct (HA k (Hks k (or_introl eq_refl))) as (row & E1 & E2 & E3). rewrite E1, E2.
      destruct IH as (off' & E4 & E5 & E6); [intros; apply Hks; right; auto|]. rewrite E4. eexists. split; [reflexivity|]. split; [simpl; lia|]. intros [|t] Ht; cbn [nth]; [exists row; auto|apply E6; simpl in Ht; lia]. }
    destruct (HS (seq 0 n)) as (off' & E1 & E2 & E3); [intros k Hk; apply in_seq in Hk; lia|]. exists off'. assert (HL' : @List.length dict off = n) by exact HL. rewrite HL'. split; auto. rewrite seq_length in *. split; auto. intros k Hk. destruct (E3 k Hk) as (row & E4 & E5).
    rewrite seq_nth in E4 by auto. cbn [Nat.add] in E4. exists (combine (map fst g) row). split; auto. clear - E5. induction E5 as [|kv x g row H1 H2 [I1 I2]]; cbn; [split; constructor|]. split; [cbn; f_equal; auto|]. constructor; auto.
  Qed.
  Lemma groups_spec gs : forall off, Forall (fun cl => Forall (fun kv => class_of (snd kv) = fst cl /\ var_ok (snd kv)) (snd cl)) gs ->
    (forall mating, In mating parents -> length mating = 2 /\ forall X, In X mating -> covers (concat (map snd gs)) X) ->
    length off = n -> (forall k, k < n -> NoDup (map fst (nth k off []) ++ map fst (concat (map snd gs)))) ->
    exists off', fold_left (group_step cross mut parents) gs (Some off) = Some off' /\ length off' = n /\ forall k, k < n -> exists e, nth k off' [] = nth k off [] ++ e /\ entries_ok (concat (map snd gs)) e.
  Proof.
    induction gs as [|[c g] gs IH]; intros off HF HP HL HN; cbn [fold_left map concat snd].
    - exists off. split; auto. split; auto. intros k Hk. exists []. rewrite app_nil_r. split; auto. split; constructor.
    - apply Forall_cons_iff in HF as [F1 F2]. cbn [fst snd] in F1.
      assert (HP1 : forall mating, In mating parents -> length mating = 2 /\ forall X, In X mating -> covers g X).
      { intros mt Hmt. destruct (HP mt Hmt) as [P1 P2]. split; auto. intros X HX kv Hkv. apply (P2 X HX). cbn. apply in_app_iff. auto. }
      destruct (group_step_spec c g off F1 HP1 HL) as (off1 & E1 & L1 & R1).
      { intros k Hk. specialize (HN k Hk). cbn [map concat snd] in HN. rewrite map_app, app_assoc in HN. apply NoDup_app_iff in HN. tauto. }
      rewrite E1. destruct (IH off1 F2) as (off2 & E2 & L2 & R2).
      { intros mt Hmt. destruct (HP mt Hmt) as [P1 P2]. split; auto. intros X HX kv Hkv. apply (P2 X HX). cbn. apply in_app_iff. auto. }
      { exact L1. }
      { intros k Hk. destruct (R1 k Hk) as (e & Ee & He1 & He2). rewrite Ee, map_app, He1, <- app_assoc, <- map_app. apply (HN k Hk). }
      exists off2. split; auto. split; auto. intros k Hk. destruct (R1 k Hk) as (e1 & Ee1 & He1 & He1'). destruct (R2 k Hk) as (e2 & Ee2 & He2 & He2'). exists (e1 ++ e2). rewrite Ee2, Ee1, <- app_assoc. split; auto.
      split; [rewrite !map_app; congruence|]. now apply Forall2_app.
  Qed.
End Mating.

Lemma entries_exactly g e vs : NoDup (map fst vs) -> Permutation g vs -> entries_ok g e -> exactly vs e.
Proof.
  intros HN HP [H1 H2]. split; [rewrite H1; now apply Permutation_map|]. intros kv Hkv. eapply Permutation_in in Hkv; [|apply Permutation_sym, HP].
  assert (HNe : NoDup (map fst e)) by (rewrite H1; eapply Permutation_NoDup; [apply Permutation_map, Permutation_sym, HP|auto]).
  revert H1 HNe Hkv. clear - H2. induction H2 as [|kv0 e0 g e HD HF IH]; intros H1 HN Hkv; [destruct Hkv|]. cbn [map] in *. injection H1 as E1 E2. destruct e0 as [k0 v0]. cbn [fst snd] in *. destruct Hkv as [<-|Hkv].
  - exists v0. cbn [dget]. rewrite E1, String.eqb_refl. auto.
  - inversion HN as [|? ? N1 N2]; subst. destruct (IH E2 N2 Hkv) as (x & Ex & Hx). exists x. split; auto. cbn [dget]. destruct (String.eqb_spec (fst kv0) (fst kv)) as [C|]; auto.
    exfalso. apply N1. rewrite E2, C. now apply in_map.
Qed.
(** C84: with operators that keep every value in the domain of its variable, every offspring has exactly the problem's variables, each with a value in its domain *)
Theorem C84_mating : forall cross mut vs parents n, cross_ok cross -> mut_ok mut -> vars_ok vs -> n <= 2 * length parents ->
  (forall mating, In mating parents -> length mating = 2 /\ forall X, In X mating -> covers vs X) ->
  exists off, mixed_mating cross mut vs parents n = Some off /\ length off = n /\ forall X, In X off -> exactly vs X.
Proof.
  intros cross mut vs parents n HC HM [HN HV] Hn HP. destruct (recomb_spec vs) as [R1 R2]. unfold mixed_mating.
  assert (HIn : forall kv, In kv (concat (map snd (recomb vs))) <-> In kv vs) by (intros kv; split; apply Permutation_in; [exact R1|apply Permutation_sym, R1]).
  destruct (groups_spec cross mut HC HM parents n Hn (recomb vs) (repeat [] n)) as (off & E & HL & HE).
  - apply Forall_forall. intros cl Hcl. apply Forall_forall. intros kv Hkv. rewrite Forall_forall in R2, HV. specialize (R2 _ Hcl). rewrite Forall_forall in R2. split; [auto|]. apply HV, HIn, in_concat. exists (snd cl). split; [now apply in_map|auto].
  - intros mt Hmt. destruct (HP mt Hmt) as [P1 P2]. split; auto. intros X HX kv Hkv. apply (P2 X HX), HIn, Hkv.
  - apply repeat_length.
  - intros k Hk. rewrite nth_repeat. cbn [map app]. eapply Permutation_NoDup; [apply Permutation_map, Permutation_sym, R1|auto].
  - exists off. split; auto. split; auto. intros X HX. apply (In_nth _ _ []) in HX as (k & Hk & <-). rewrite HL in Hk. destruct (HE k Hk) as (e & Ee & He). rewrite nth_repeat in Ee. cbn [app] in Ee. rewrite Ee. eapply entries_exactly; eauto.
Qed.
Print Assumptions C84_mating.
