From Coq Require Import String List Arith Bool ZArith QArith Lia Permutation.
From Verif Require Import ListAux M_Params P_Params M_Bounds P_Bounds M_Cross P_Perm P_Cross Thm_Cross M_Mixed S_Mixed Thm_Mixed Thm_Mixed2.
Import ListNotations.
Local Open Scope nat_scope.

Lemma osequence_inv {A} (d : A) (l : list (option A)) r : osequence l = Some r -> length r = length l /\ forall i, i < length l -> nth i l None = Some (nth i r d).
Proof.
  revert r. induction l as [|o l IH]; intros r H; cbn [osequence] in H; [injection H as <-; split; [reflexivity|simpl; lia]|]. destruct o as [x|]; [|discriminate]. destruct (osequence l) as [r'|] eqn:E; [|discriminate]. cbn in H. injection H as <-.
  destruct (IH r' eq_refl) as [L1 L2]. split; [simpl; lia|]. intros [|i] Hi; cbn [nth]; auto. apply L2. simpl in Hi. lia.
Qed.
Lemma group_step_inv cross mut parents off c g off' : group_step cross mut parents (Some off) (c, g) = Some off' ->
  exists X, osequence (map (fun mating => osequence (map (values_of g) mating)) parents) = Some X /\ length off' = length off /\
    forall k, k < length off -> exists row, nth_error (mut c g (cross c g X)) k = Some row /\ assign g row (nth k off []) = Some (nth k off' []).
Proof.
  unfold group_step. cbn [fst snd]. destruct (osequence (map _ parents)) as [X|] eqn:E; [|discriminate]. intros H. exists X. split; auto. apply (osequence_inv []) in H as [L H]. rewrite map_length, seq_length in *. split; auto.
  intros k Hk. specialize (H k Hk). rewrite (nth_map_seq0 _ (length off)) in H by auto. destruct (nth_error _ k) as [row|] eqn:Er; [|discriminate]. exists row. auto.
Qed.
Lemma assign_get g : forall row X X', assign g row X = Some X' -> NoDup (map fst g) ->
  (forall i, i < length g -> dget X' (fst (nth i g dvar)) = nth_error row i) /\ (forall s, ~ In s (map fst g) -> dget X' s = dget X s).
Proof.
  induction g as [|kv g IH]; intros row X X' H HN; cbn [assign] in H; [injection H as <-; split; [simpl; lia|auto]|]. destruct row as [|x row]; [discriminate|]. cbn [map] in HN. inversion HN as [|? ? N1 N2]; subst.
  destruct (IH row _ X' H N2) as [H1 H2]. split.
  - intros [|i] Hi; cbn [nth nth_error]; [rewrite H2 by auto; rewrite dget_dset, String.eqb_refl; auto|]. apply H1. simpl in Hi. lia.
  - intros s Hs. rewrite H2 by (intros C; apply Hs; right; auto). rewrite dget_dset. destruct (String.eqb_spec (fst kv) s) as [C|]; auto. exfalso. apply Hs. left. auto.
Qed.
(** C84: the value of a variable in offspring k is the one its group's operators compute for offspring k from the parents' values *)
Lemma groups_values cross mut parents gs : forall off off', fold_left (group_step cross mut parents) gs (Some off) = Some off' -> NoDup (map fst (concat (map snd gs))) ->
  length off' = length off /\ (forall k s, ~ In s (map fst (concat (map snd gs))) -> dget (nth k off' []) s = dget (nth k off []) s) /\
  forall c g, In (c, g) gs -> exists X, osequence (map (fun mating => osequence (map (values_of g) mating)) parents) = Some X /\
    forall k, k < length off -> exists row, nth_error (mut c g (cross c g X)) k = Some row /\ forall i, i < length g -> dget (nth k off' []) (fst (nth i g dvar)) = nth_error row i.
Proof.
  assert (HNone : forall gs, fold_left (group_step cross mut parents) gs None = None) by (induction gs0 as [|cg gs0 IH]; cbn; auto).
  induction gs as [|[c g] gs IH]; intros off off' H HN; cbn [fold_left] in H; [injection H as <-; repeat split; auto; intros c g []|].
  destruct (group_step cross mut parents (Some off) (c, g)) as [off1|] eqn:E; [|rewrite HNone in H; discriminate]. cbn [map concat snd] in HN. rewrite map_app in HN. apply NoDup_app_iff in HN as (N1 & N2 & N3).
  destruct (group_step_inv _ _ _ _ _ _ _ E) as (X & EX & L1 & R1). destruct (IH off1 off' H N2) as (L2 & F2 & G2). split; [lia|]. split.
  - intros k s Hs. cbn [map concat snd] in Hs. rewrite map_app, in_app_iff in Hs. rewrite F2 by tauto. destruct (Nat.lt_ge_cases k (length off)) as [Hk|Hk].
    + destruct (R1 k Hk) as (row & _ & EA). apply (assign_get g row _ _ EA N1). tauto.
    + rewrite !nth_overflow by lia. auto.
  - intros c' g' [[= <- <-]|Hin].
    + exists X. split; auto. intros k Hk. destruct (R1 k Hk) as (row & Er & EA). exists row. split; auto. intros i Hi. rewrite F2; [apply (assign_get g row _ _ EA N1); auto|]. apply N3. now apply in_map, nth_In.
    + destruct (G2 c' g' Hin) as (X' & EX' & HX'). exists X'. split; auto. intros k Hk. apply HX'. lia.
Qed.
Theorem C84_values : forall cross mut vs parents n off, NoDup (map fst vs) -> mixed_mating cross mut vs parents n = Some off ->
  forall c g, In (c, g) (recomb vs) -> exists X, osequence (map (fun mating => osequence (map (values_of g) mating)) parents) = Some X /\
    forall k, k < n -> exists row, nth_error (mut c g (cross c g X)) k = Some row /\ forall i, i < length g -> dget (nth k off []) (fst (nth i g dvar)) = nth_error row i.
Proof.
  intros cross mut vs parents n off HN H c g Hin. unfold mixed_mating in H. destruct (recomb_spec vs) as [R1 _]. destruct (groups_values _ _ _ _ _ _ H) as (L & _ & G).
  - eapply Permutation_NoDup; [apply Permutation_map, Permutation_sym, R1|auto].
  - rewrite repeat_length in *. apply G, Hin.
Qed.
Lemma parents_get g parents X : osequence (map (fun mating => osequence (map (values_of g) mating)) parents) = Some X ->
  length X = length parents /\ forall kk, kk < length parents -> length (nth kk X []) = length (nth kk parents []) /\
    forall o, o < length (nth kk parents []) -> length (nth o (nth kk X []) []) = length g /\
      forall i, i < length g -> dget (nth o (nth kk parents []) []) (fst (nth i g dvar)) = Some (nth i (nth o (nth kk X []) []) dval).
Proof.
  intros H. apply (osequence_inv []) in H as [L H]. rewrite map_length in *. split; auto. intros kk Hk. specialize (H kk Hk).
  set (f := fun mating => osequence (map (values_of g) mating)) in *. rewrite (nth_indep _ None (f [])) in H by (rewrite map_length; auto). rewrite (map_nth f) in H. unfold f in H. apply (osequence_inv []) in H as [L2 H2]. rewrite map_length in *. split; auto.
  intros o Ho. specialize (H2 o Ho). rewrite (nth_indep _ None (values_of g [])) in H2 by (rewrite map_length; auto). rewrite (map_nth (values_of g)) in H2. unfold values_of in H2. apply (osequence_inv dval) in H2 as [L3 H3]. rewrite map_length in *. split; auto.
  intros i Hi. specialize (H3 i Hi). set (h := fun kv => dget (nth o (nth kk parents []) []) (fst kv)) in *. rewrite (nth_indep _ None (h dvar)) in H3 by (rewrite map_length; auto). rewrite (map_nth h) in H3. exact H3.
Qed.
Lemma nth_crossover {A} (d : A) np no X cross Qo choice perms o k : o < no -> k < length X ->
  nth (o * length X + k) (crossover_do d np no X cross Qo choice perms) d = if nth k cross false then Qo o k else nth (nth o (parent_idx np no (choice k) (perms k)) 0) (nth k X []) d.
Proof.
  intros Ho Hk. unfold crossover_do. rewrite (flat_map_nth _ no (length X) 0 o k) by (auto; intros; rewrite map_length, seq_length; auto). cbn [Nat.add]. now rewrite nth_map_seq0 by auto.
Qed.
Lemma nth_map_len {A B} (f : A -> B) l i (d : A) (d' : B) : i < length l -> nth i (map f l) d' = f (nth i l d).
Proof. intros H. rewrite (nth_indep _ d' (f d)) by (rewrite map_length; auto). apply map_nth. Qed.
(** the value of variable number i of group g in offspring k, before the operators' rounding *)
Lemma default_row rs vs parents n off c g : vars_ok vs -> length parents = n_matings n -> (forall mating, In mating parents -> length mating = 2 /\ forall X, In X mating -> covers vs X) ->
  mixed_mating (cross_default rs) (mut_default rs) vs parents n = Some off -> In (c, g) (recomb vs) -> forall k, k < n ->
  exists X, osequence (map (fun mating => osequence (map (values_of g) mating)) parents) = Some X /\ let m := length parents in k / m < 2 /\ k mod m < m /\
    let row := post c (if crossed (rs g) (k mod m) then cross_child (rs g) c g X (k / m) (k mod m) else nth (k / m) (nth (k mod m) X []) []) in
    forall i, i < length g -> dget (nth k off []) (fst (nth i g dvar)) =
      nth_error (post c (if mutated (rs g) k then map (fun i => mut_entry (rs g) c (nth i g dvar) k i (nth i row dval)) (seq 0 (length row)) else row)) i.
Proof.
  intros [HN HV] HL HM H Hin k Hk. destruct (C84_values _ _ _ _ _ _ HN H c g Hin) as (X & EX & HX). exists X. split; auto. cbn zeta. set (m := length parents) in *.
  pose proof (C84_n_matings n) as [C1 C2]. assert (Hm : 0 < m) by lia. assert (Hd : k / m < 2) by (apply Nat.div_lt_upper_bound; lia). pose proof (Nat.mod_upper_bound k m ltac:(lia)) as Hmod. split; auto. split; auto.
  destruct (HX k Hk) as (row & Er & HR). intros i Hi. rewrite (HR i Hi). f_equal.
  destruct (parents_get _ _ _ EX) as [LX _]. fold m in LX. apply (nth_error_nth _ _ []) in Er as Er'. unfold mut_default in Er'.
  assert (Hlen : k < length (cross_default rs c g X)) by (unfold cross_default; rewrite map_length, crossover_do_length; lia).
  rewrite (nth_map_seq0 _ (length (cross_default rs c g X))) in Er' by auto. subst row.
  assert (E : nth k (cross_default rs c g X) [] = post c (if crossed (rs g) (k mod m) then cross_child (rs g) c g X (k / m) (k mod m) else nth (k / m) (nth (k mod m) X []) [])); [|rewrite E; auto].
  unfold cross_default. rewrite (nth_map_len _ _ _ []) by (rewrite crossover_do_length; lia). f_equal.
  match goal with |- nth k ?L [] = _ => replace (nth k L []) with (nth (k / m * length X + k mod m) L []) by (f_equal; rewrite LX, (Nat.mul_comm _ m), <- Nat.div_mod by lia; auto) end. rewrite nth_crossover by lia.
  rewrite (nth_map_seq0 _ (length X)) by lia. destruct (crossed (rs g) (k mod m)); auto. f_equal. unfold parent_idx. cbn [Nat.ltb Nat.leb Nat.eqb]. change (seq 0 2) with [0; 1]. destruct (k / m) as [|[|q]]; cbn; auto; lia.
Qed.
Lemma recomb_find vs kv : In kv vs -> exists g i, In (class_of (snd kv), g) (recomb vs) /\ i < length g /\ nth i g dvar = kv.
Proof.
  intros H. destruct (recomb_spec vs) as [R1 R2]. eapply Permutation_in in H; [|apply Permutation_sym, R1]. apply in_concat in H as (g & Hg & Hkv). apply in_map_iff in Hg as ([c g'] & E & Hin). cbn in E. subst g'. rewrite Forall_forall in R2.
  specialize (R2 _ Hin). cbn [fst snd] in R2. rewrite Forall_forall in R2. specialize (R2 kv Hkv). apply (In_nth _ _ dvar) in Hkv as (i & Hi & E). exists g, i. rewrite R2. auto.
Qed.
(** C84: binary values and choices are inherited: where the mutation does not strike, an offspring has the value of one of the two parents of its mating, the same two for all variables *)
Theorem C84_inherit : forall rs vs parents n off, vars_ok vs -> length parents = n_matings n ->
  (forall mating, In mating parents -> length mating = 2 /\ forall X, In X mating -> covers vs X) ->
  mixed_mating (cross_default rs) (mut_default rs) vs parents n = Some off ->
  forall k kv, k < n -> In kv vs -> (class_of (snd kv) = KBinary \/ class_of (snd kv) = KChoice) ->
  (forall g, mutated (rs g) k = false \/ forall i, flip (rs g) k i = false /\ pick (rs g) k i = None) ->
  exists p, In p (nth (k mod length parents) parents []) /\ dget (nth k off []) (fst kv) = dget p (fst kv).
Proof.
  intros rs vs parents n off HV HL HM H k kv Hk Hkv Hc Hmut. destruct (recomb_find vs kv Hkv) as (g & i & Hin & Hi & Ei). set (c := class_of (snd kv)) in *.
  destruct (default_row rs vs parents n off c g HV HL HM H Hin k Hk) as (X & EX & Hd & Hm & HR). cbn zeta in HR. set (m := length parents) in *. specialize (HR i Hi). rewrite Ei in HR. rewrite HR.
  destruct (parents_get _ _ _ EX) as [LX HP]. destruct (HP (k mod m) Hm) as [L2 HP2]. destruct (HM (nth (k mod m) parents []) (nth_In _ _ Hm)) as [L2' _]. rewrite L2' in *.
  assert (Epost : forall r, post c r = r) by (intros; destruct Hc as [->| ->]; auto). rewrite !Epost. clear HR.
  set (row := if crossed (rs g) (k mod m) then _ else _).
  assert (Hrow : length row = length g /\ exists o, o < 2 /\ nth i row dval = nth i (nth o (nth (k mod m) X []) []) dval).
  { destruct (HP2 0 ltac:(lia)) as [La _]. destruct (HP2 1 ltac:(lia)) as [Lb _]. unfold row. destruct (crossed (rs g) (k mod m)).
    - unfold cross_child. destruct Hc as [-> | ->]; unfold crossover_mask; destruct (k / m =? 0); rewrite masked_length; (split; [lia|]); rewrite masked_nth by lia; destruct (nth i (map _ _) false); eauto.
    - destruct (HP2 (k / m) ltac:(lia)) as [Lc _]. split; eauto. }
  destruct Hrow as (Lr & o & Ho & Eo). destruct (HP2 o ltac:(lia)) as [Lo HG]. exists (nth o (nth (k mod m) parents []) []). split; [apply nth_In; lia|]. specialize (HG i Hi). rewrite Ei in HG. rewrite HG, <- Eo.
  assert (Hfin : forall l, length l = length g -> nth i l dval = nth i row dval -> nth_error l i = Some (nth i row dval)) by (intros l Hl <-; apply nth_error_nth'; lia).
  destruct (mutated (rs g) k) eqn:Em; [|apply Hfin; auto]. apply Hfin; [rewrite map_length, seq_length; auto|]. rewrite (nth_map_seq0 _ (length row)) by lia. destruct (Hmut g) as [C|C]; [congruence|]. destruct (C i) as [C1 C2]. unfold mut_entry. rewrite Ei.
  destruct Hc as [-> | ->]; [rewrite C1|rewrite C2]; auto.
Qed.
(** C84: where neither crossover nor mutation is executed the offspring is a copy: number k of parent k / m of mating k mod m *)
Theorem C84_copies : forall rs vs parents n off, vars_ok vs -> length parents = n_matings n ->
  (forall mating, In mating parents -> length mating = 2 /\ forall X, In X mating -> covers vs X) ->
  mixed_mating (cross_default rs) (mut_default rs) vs parents n = Some off -> forall k, k < n ->
  (forall g, crossed (rs g) (k mod length parents) = false /\ mutated (rs g) k = false) ->
  forall kv, In kv vs -> dget (nth k off []) (fst kv) = dget (nth (k / length parents) (nth (k mod length parents) parents []) []) (fst kv).
Proof.
  intros rs vs parents n off HV HL HM H k Hk Hno kv Hkv. destruct (recomb_find vs kv Hkv) as (g & i & Hin & Hi & Ei).
  destruct (default_row rs vs parents n off _ g HV HL HM H Hin k Hk) as (X & EX & Hd & Hm & HR). cbn zeta in HR. set (m := length parents) in *. specialize (HR i Hi). rewrite Ei in HR. rewrite HR. destruct (Hno g) as [-> ->].
  destruct (parents_get _ _ _ EX) as [LX HP]. destruct (HP (k mod m) Hm) as [L2 HP2]. destruct (HM (nth (k mod m) parents []) (nth_In _ _ Hm)) as [L2' HCov]. rewrite L2' in *. destruct (HP2 (k / m) Hd) as [Lo HG]. specialize (HG i Hi). rewrite Ei in HG. rewrite HG.
  set (row := nth (k / m) (nth (k mod m) X []) []) in *. assert (Hpost : nth_error (post (class_of (snd kv)) (post (class_of (snd kv)) row)) i = Some (nth i row dval)); auto.
  assert (Er : nth_error row i = Some (nth i row dval)) by (apply nth_error_nth'; lia). destruct (class_of (snd kv)) eqn:Ec; auto. cbn [post].
  rewrite map_map, (map_nth_error _ _ _ Er). f_equal. assert (HIn : In (nth (k / m) (nth (k mod m) parents []) []) (nth (k mod m) parents [])) by (apply nth_In; lia). destruct (HCov _ HIn kv Hkv) as (x & Ex & Hx). rewrite HG in Ex. injection Ex as <-.
  destruct (snd kv) as [|lb ub| |]; try discriminate. destruct Hx as (z & -> & _). cbn [num]. now rewrite !around_Z.
Qed.

(** ** duplicates *)
(** C84: two dictionaries with the same names are duplicates exactly if all values agree ... *)
Theorem C84_duplicate : forall neq a b, NoDup (map fst a) -> (forall s, In s (map fst a) <-> In s (map fst b)) ->
  (is_equal neq a b = true <-> forall s x y, dget a s = Some x -> dget b s = Some y -> neq y x = false).
Proof.
  intros neq a b HN HK. unfold is_equal. rewrite forallb_forall. split.
  - intros H s x y Hx Hy. apply dget_In in Hx. specialize (H (s, x) Hx). cbn in H. rewrite Hy in H. destruct (neq y x); auto; discriminate.
  - intros H [s x] Hin. cbn [fst snd]. destruct (dget b s) as [y|] eqn:Ey.
    + rewrite (H s x y); auto. now apply In_dget.
    + exfalso. apply dget_None_key in Ey. apply Ey, HK. apply in_map_iff. exists (s, x). auto.
Qed.
(** ... but a solution with fewer names is a duplicate of one with more, and not the other way round *)
Theorem C84_duplicate_refuted : exists neq a b, is_equal neq a b = true /\ is_equal neq b a = false.
Proof. exists (fun _ _ => false), [], [("a"%string, VBool true)]. auto. Qed.

(** the hypotheses are met *)
Example C84_meets : let vs := [("x"%string, MReal 0 1); ("i"%string, MInteger (-2) 3); ("b"%string, MBinary); ("c"%string, MChoice [PS "u"; PS "v"]); ("y"%string, MReal 1 4)] in
  let X0 := [("x"%string, VNum (1 # 2)); ("i"%string, VInt 3); ("b"%string, VBool true); ("c"%string, VOpt (PS "u")); ("y"%string, VNum 2)] in
  let X1 := [("x"%string, VNum 0); ("i"%string, VInt (-1)); ("b"%string, VBool false); ("c"%string, VOpt (PS "v")); ("y"%string, VNum 4)] in
  let rs := fun _ : vars => {| crossed := fun _ => true; mask := fun _ _ => true; y_ := fun _ _ _ => (7 # 2)%Q; mutated := fun _ => true; z_ := fun _ _ => (5 # 3)%Q; flip := fun _ _ => true; pick := fun _ _ => None |} in
  vars_ok vs /\ picks_ok rs /\ covers vs X0 /\ covers vs X1 /\
  mixed_mating (cross_default rs) (mut_default rs) vs [[X0; X1]] 2 =
    Some [[("x"%string, VNum 1); ("y"%string, VNum (5 # 3)); ("i"%string, VInt 2); ("b"%string, VBool true); ("c"%string, VOpt (PS "v"))];
          [("x"%string, VNum 1); ("y"%string, VNum (5 # 3)); ("i"%string, VInt 2); ("b"%string, VBool false); ("c"%string, VOpt (PS "u"))]].
Proof.
  cbn zeta. split; [|split; [|split; [|split; [|reflexivity]]]].
  - split; [cbn; repeat constructor; cbn; intuition discriminate|]. repeat apply Forall_cons; try apply Forall_nil; cbn; auto; try lia; try discriminate. split; [discriminate|]. left. intros o [<-|[<-|[]]]; auto.
  - intros g k i j options H. discriminate H.
  - intros kv [<-|[<-|[<-|[<-|[<-|[]]]]]]; cbn; eexists; (split; [reflexivity|]); [eexists; split; [reflexivity|split; discriminate]|eexists; split; [reflexivity|lia]|eexists; reflexivity| |eexists; split; [reflexivity|split; discriminate]].
    eexists _, (PS "u"). split; [reflexivity|]. split; auto.
  - intros kv [<-|[<-|[<-|[<-|[<-|[]]]]]]; cbn; eexists; (split; [reflexivity|]); [eexists; split; [reflexivity|split; discriminate]|eexists; split; [reflexivity|lia]|eexists; reflexivity| |eexists; split; [reflexivity|split; discriminate]].
    eexists _, (PS "v"). split; [reflexivity|]. split; auto.
Qed.
