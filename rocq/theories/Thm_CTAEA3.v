From Coq Require Import List Arith Bool ZArith Lia Permutation.
From Verif Require Import Flt ListAux NpSort M_Dominator M_NDS M_Optimum M_NSGA3 M_CTAEA S_Pareto S_NDS P_Peel P_NDS1 P_Dominator P_Optimum S_Survival P_Survival P_NSGA3 P_Survival4 Thm_Dominator S_CTAEA Thm_CTAEA Thm_CTAEA2.
Import ListNotations.
Local Open Scope nat_scope.

(** C83: in every later iteration (at least as many individuals as reference directions) the update of both archives ends, with exactly n members each, all taken from the merged population and the old diversity archive;
    if these do not overlap no individual is twice in the diversity archive *)
Theorem C83_step : forall (A : Type) (d : A) obj cv niche fv dist nds ff asort swap fuel (pop da : list A) n m,
  (forall a, In a (pop ++ da) -> ctaea_ind_ok m obj cv fv a) -> (forall a b, fltb (dist a b) f_inf = true) -> nds_ok m nds -> nds_ok 2 nds -> ff_ok m ff -> asort_ok asort ->
  0 < n <= length pop -> (forall a, niche a < n) -> n + n <= fuel -> NoDup pop ->
  exists CA DA opt, ctaea_do d obj cv niche fv dist nds ff asort swap fuel pop da n = Some (CA, DA, opt) /\
    length CA = n /\ length DA = n /\ NoDup CA /\ incl CA pop /\ incl DA (da ++ pop) /\ incl opt CA /\
    (NoDup (da ++ skipn (length pop - n) pop) -> NoDup DA).
Proof.
  intros A d obj cv niche fv dist nds ff asort swap fuel pop da n m Hpop Hdist Hn1 Hn2 Hff Has Hn Hni Hfu HND.
  assert (HP : forall i, i < length pop -> ctaea_ind_ok m obj cv fv (nth i pop d)) by (intros i Hi; apply Hpop, in_app_iff; left; now apply nth_In).
  pose proof (C83_ca d obj cv niche fv dist nds asort pop m n swap HP Hdist Hn1 Hn2 Has Hn) as ((S1 & S2 & S3) & _).
  pose proof (C83_opt d obj cv niche fv dist nds asort pop m n swap HP Hdist Hn1 Hn2 Has Hn) as (O1 & O2).
  unfold ctaea_do. destruct (update_ca d obj cv niche fv dist nds asort pop n swap) as [ca opt]. cbn [fst snd] in *.
  set (off := skipn (length pop - n) pop). set (Hd := da ++ off). set (CA := gather d pop ca).
  assert (HLo : length off = n) by (unfold off; rewrite skipn_length; lia).
  assert (HoffI : incl off pop) by (intros x Hx; unfold off in Hx; rewrite <- (firstn_skipn (length pop - n) pop); apply in_app_iff; auto).
  assert (HHd : forall i, i < length Hd -> length (obj (nth i Hd d)) = m /\ vec_ok (obj (nth i Hd d)) /\ isnan (fv (nth i Hd d)) = false).
  { intros i Hi. assert (HI : In (nth i Hd d) (pop ++ da)).
    { pose proof (nth_In Hd d Hi) as HI. unfold Hd in HI at 2. apply in_app_iff in HI as [HI|HI]; apply in_app_iff; [right; auto|left; apply HoffI, HI]. }
    destruct (Hpop _ HI) as (P1 & P2 & _ & P4 & _). auto. }
  destruct (proj1 (C83_da_terminates d obj niche fv ff CA Hd n m HHd Hff)) with (fuel := fuel) as (got & HG).
  - replace (filter (fun i => niche (nth i Hd d) <? n) (seq 0 (length Hd))) with (seq 0 (length Hd)); [rewrite seq_length; unfold Hd; rewrite app_length; lia|].
    symmetry. generalize (seq 0 (length Hd)). induction l as [|a l IH]; [reflexivity|]. cbn [filter]. rewrite (proj2 (Nat.ltb_lt _ _) (Hni _)). f_equal. auto.
  - unfold CA. rewrite length_gather, S3. lia.
  - rewrite HG. destruct (C83_da d obj niche fv ff CA Hd n m HHd Hff _ _ HG) as ((G1 & G2 & G3) & _).
    exists CA, (gather d Hd got), (gather d pop opt).
    assert (Hinj : forall (l : list A) J, NoDup l -> NoDup J -> (forall i, In i J -> i < length l) -> NoDup (gather d l J)).
    { intros l J Hl HJ HB. unfold gather. apply NoDup_map_inj; auto. intros x y Hx Hy E. eapply (proj1 (NoDup_nth l d)); eauto. }
    assert (HIn : forall (l : list A) J, (forall i, In i J -> i < length l) -> incl (gather d l J) l) by (intros l J HB x Hx; apply in_map_iff in Hx as (i & <- & Hi); apply nth_In; auto).
    split; [reflexivity|]. unfold CA. rewrite !length_gather. split; [auto|]. split; [auto|]. split; [apply Hinj; auto|]. split; [apply HIn; auto|].
    split; [intros x Hx; apply (HIn Hd got) in Hx; auto; unfold Hd in Hx; apply in_app_iff in Hx as [Hx|Hx]; apply in_app_iff; [left; auto|right; apply HoffI, Hx]|].
    split; [|intros HD; apply Hinj; auto].
    intros x Hx. apply in_map_iff in Hx as (i & <- & Hi). apply in_map_iff. exists i. split; auto.
    destruct (le_lt_dec (length (filter (fun i => feqb (cv (nth i pop d)) f_zero) (seq 0 (length pop)))) n) as [L|L]; [apply (O1 L), Hi|apply (O2 L), Hi].
Qed.

(** concrete individuals: (objectives, violation, number of the region); fitness: the largest objective *)
Definition ind3 : Type := list Z * Z * nat.
Definition obj3 (a : ind3) : list flt := map fz (fst (fst a)).
Definition cv3 (a : ind3) : flt := fz (snd (fst a)).
Definition niche3 (a : ind3) : nat := snd a.
Definition fv3 (a : ind3) : flt := fz (fold_left Z.max (fst (fst a)) 0%Z).
Definition dist3 (a b : ind3) : flt := let x := fz (fold_right Z.add 0%Z (map2 (fun x y => ((x - y) * (x - y))%Z) (fst (fst a)) (fst (fst b)))) in if fltb x f_inf then x else f_zero.
Definition ff3 (F : fltmat) : list nat := nth 0 (default_nds pr_ref F (length F)) [].
Definition d3 : ind3 := ([], 0%Z, 0).
Notation do3 := (ctaea_do d3 obj3 cv3 niche3 fv3 dist3 (default_nds pr_ref) ff3 np_argsort (fun _ _ => false)).
Lemma dist3_ok a b : fltb (dist3 a b) f_inf = true.
Proof. unfold dist3. cbv zeta. generalize (fz (fold_right Z.add 0%Z (map2 (fun x y => ((x - y) * (x - y))%Z) (fst (fst a)) (fst (fst b))))). intros x. destruct (fltb x f_inf) eqn:E; [exact E|reflexivity]. Qed.
Lemma nds3_ok m : nds_ok m (default_nds pr_ref).
Proof. apply default_nds_ok. intros F H1 H2 H3. eapply pr_ref_ok; eauto. Qed.
Lemma ff3_ok m : ff_ok m ff3.
Proof.
  intros F H1 H2 H3. destruct (nds3_ok m F (length F) H1 H2 H3) as (full & (HPP & HPne & HPk) & (Hpre & Hne & _ & _)). unfold ff3. set (out := default_nds pr_ref F (length F)) in *.
  assert (HL : 0 < length out) by (destruct out; [congruence|simpl; lia]). rewrite <- (prefix_nth out full 0 Hpre HL).
  assert (HLf : 0 < length full) by (destruct Hpre as [r ->]; rewrite app_length; lia). split; [apply HPne, HLf|]. intros i. rewrite (HPk 0 i HLf).
  assert (He : forall j, ~ in_earlier full 0 j) by (intros j (k & Hk & _); lia). split; [intros (A1 & _ & A2); split; auto|intros (A1 & A2); split; auto].
Qed.

(** C83, refuted: the reported solutions are feasible if the archive holds feasible ones: here the only one reported is infeasible *)
Theorem C83_opt_feasible_refuted : ~ (forall (A : Type) (d : A) obj cv niche fv dist nds ff asort swap fuel (pop da : list A) n m CA DA opt,
  (forall a, In a (pop ++ da) -> ctaea_ind_ok m obj cv fv a) -> (forall a b, fltb (dist a b) f_inf = true) -> nds_ok m nds -> nds_ok 2 nds -> ff_ok m ff -> asort_ok asort -> 0 < n <= length pop ->
  ctaea_do d obj cv niche fv dist nds ff asort swap fuel pop da n = Some (CA, DA, opt) -> existsb (fun a => feqb (cv a) f_zero) CA = true ->
  exists a, In a (ctaea_opt d cv (fun a => feqb (cv a) f_zero) CA opt) /\ feqb (cv a) f_zero = true).
Proof.
  intros H. specialize (H ind3 d3 obj3 cv3 niche3 fv3 dist3 (default_nds pr_ref) ff3 np_argsort (fun _ _ => false) 4 [([2]%Z, 0%Z, 0); ([1]%Z, 1%Z, 1)] [] 2 1).
  destruct (do3 4 [([2]%Z, 0%Z, 0); ([1]%Z, 1%Z, 1)] [] 2) as [[[CA DA] opt]|] eqn:E; [|vm_compute in E; discriminate]. vm_compute in E. injection E as E1 E2 E3.
  destruct (H CA DA opt) as (a & Ha & Hf).
  - intros a [<-|[<-|[]]]; repeat split; repeat constructor.
  - apply dist3_ok.
  - apply nds3_ok.
  - apply nds3_ok.
  - apply ff3_ok.
  - apply np_argsort_ok.
  - simpl; lia.
  - reflexivity.
  - subst. reflexivity.
  - subst. vm_compute in Ha. destruct Ha as [<-|[]]. vm_compute in Hf. discriminate.
Qed.
(** C83, refuted: some solution is reported: here the only non-dominated one is removed from the archive because its fitness ties with that of solutions it dominates *)
Definition pop_tie : list ind3 := [([2; 2; 4]%Z, 0%Z, 0); ([3; 2; 4]%Z, 0%Z, 0); ([2; 3; 4]%Z, 0%Z, 0)].
Theorem C83_opt_nonempty_refuted : ~ (forall (A : Type) (d : A) obj cv niche fv dist nds ff asort swap fuel (pop da : list A) n m CA DA opt,
  (forall a, In a (pop ++ da) -> ctaea_ind_ok m obj cv fv a) -> (forall a b, fltb (dist a b) f_inf = true) -> nds_ok m nds -> nds_ok 2 nds -> ff_ok m ff -> asort_ok asort -> 0 < n <= length pop ->
  ctaea_do d obj cv niche fv dist nds ff asort swap fuel pop da n = Some (CA, DA, opt) -> ctaea_opt d cv (fun a => feqb (cv a) f_zero) CA opt <> []).
Proof.
  intros H. specialize (H ind3 d3 obj3 cv3 niche3 fv3 dist3 (default_nds pr_ref) ff3 np_argsort (fun _ _ => false) 6 pop_tie [] 2 3).
  destruct (do3 6 pop_tie [] 2) as [[[CA DA] opt]|] eqn:E; [|vm_compute in E; discriminate]. vm_compute in E. injection E as E1 E2 E3.
  apply (H CA DA opt).
  - intros a [<-|[<-|[<-|[]]]]; repeat split; repeat constructor.
  - apply dist3_ok.
  - apply nds3_ok.
  - apply nds3_ok.
  - apply ff3_ok.
  - apply np_argsort_ok.
  - simpl; lia.
  - reflexivity.
  - subst. reflexivity.
Qed.
(** C83, refuted: no individual is twice in the diversity archive: with one offspring for two directions the "offspring" pop[-2:] include a parent, which is already a member *)
Theorem C83_da_distinct_refuted : ~ (forall (A : Type) (d : A) obj cv niche fv dist nds ff asort swap fuel (pop da : list A) n m CA DA opt,
  (forall a, In a (pop ++ da) -> ctaea_ind_ok m obj cv fv a) -> (forall a b, fltb (dist a b) f_inf = true) -> nds_ok m nds -> nds_ok 2 nds -> ff_ok m ff -> asort_ok asort -> 0 < n <= length pop -> (forall a, In a pop -> niche a < n) ->
  ctaea_do d obj cv niche fv dist nds ff asort swap fuel pop da n = Some (CA, DA, opt) -> NoDup pop -> NoDup da -> NoDup DA).
Proof.
  intros H. set (a := ([1; 5]%Z, 0%Z, 0) : ind3). set (b := ([2; 4]%Z, 0%Z, 0) : ind3). set (c := ([3; 3]%Z, 0%Z, 0) : ind3).
  specialize (H ind3 d3 obj3 cv3 niche3 fv3 dist3 (default_nds pr_ref) ff3 np_argsort (fun _ _ => false) 6 [a; c; b] [a; c] 2 2).
  destruct (do3 6 [a; c; b] [a; c] 2) as [[[CA DA] opt]|] eqn:E; [|vm_compute in E; discriminate]. vm_compute in E. injection E as E1 E2 E3.
  assert (HN : NoDup DA).
  { apply (H CA DA opt).
    - intros x [<-|[<-|[<-|[<-|[<-|[]]]]]]; repeat split; repeat constructor.
    - apply dist3_ok.
    - apply nds3_ok.
    - apply nds3_ok.
    - apply ff3_ok.
    - apply np_argsort_ok.
    - simpl; lia.
    - intros x [<-|[<-|[<-|[]]]]; cbn; lia.
    - subst. reflexivity.
    - subst a b c. repeat constructor; cbn; intuition congruence.
    - subst a b c. repeat constructor; cbn; intuition congruence. }
  subst DA. inversion HN as [|? ? H1 _]; subst. apply H1. left; reflexivity.
Qed.
(** C83, refuted: the first iteration ends: with fewer individuals than directions it does not (here one individual in the second region) *)
Theorem C83_init_refuted : forall fuel, do3 fuel [([1; 2]%Z, 0%Z, 1)] [] 1 = None.
Proof.
  intros fuel. unfold ctaea_do. destruct (update_ca _ _ _ _ _ _ _ _ _ _ _) as [ca opt]. cbv zeta. cbn [length Nat.sub skipn app].
  rewrite (proj2 (C83_da_terminates d3 obj3 niche3 fv3 ff3 (gather d3 [([1; 2]%Z, 0%Z, 1)] ca) [([1; 2]%Z, 0%Z, 1)] 1 2 ltac:(intros [|i] Hi; [repeat split; repeat constructor|simpl in Hi; lia]) (ff3_ok 2))); [reflexivity|]. cbn. lia.
Qed.

(** C83: the tournament returns one of the two; a feasible one if there is one; of two feasible ones the dominating one *)
Theorem C83_mating : forall F cv coin a b, length (nth a F []) = length (nth b F []) -> vec_ok (nth a F []) -> vec_ok (nth b F []) ->
  let ok i := fleb (nth i cv f_nan) f_zero in let w := ctaea_comp F cv coin a b in
  (w = a \/ w = b) /\ (ok a = true \/ ok b = true -> ok w = true) /\
  (ok a = true -> ok b = true -> (dominates (nth a F []) (nth b F []) -> w = a) /\ (dominates (nth b F []) (nth a F []) -> w = b)).
Proof.
  intros F cv coin a b HL Ha Hb ok w. destruct (C01_relation_objectives _ _ Ha Hb HL) as (R1 & R2 & R3). unfold w, ctaea_comp. fold (ok a) (ok b). cbv zeta. set (r := get_relation _ _ None None) in *.
  destruct (ok a) eqn:Ea, (ok b) eqn:Eb; cbn [andb].
  - split; [|split].
    + destruct (r =? 1)%Z; [auto|]. destruct (r =? -1)%Z; [auto|]. destruct coin; auto.
    + intros _. destruct (r =? 1)%Z; [auto|]. destruct (r =? -1)%Z; [auto|]. destruct coin; auto.
    + intros _ _. split; intros HD; [apply R1 in HD|apply R2 in HD]; rewrite HD; reflexivity.
  - split; [auto|]. split; [auto|congruence].
  - split; [auto|]. split; [auto|congruence].
  - split; [destruct coin; auto|]. split; [intros [|]; congruence|congruence].
Qed.
(** C83: every index compared belongs to the merged archives *)
Theorem C83_mating_range : forall n_pop n_parents P Pc_le_Pd far i j, 1 < n_parents -> (forall i j, P i j < n_pop) -> restricted_row n_pop n_parents P Pc_le_Pd far i j < n_pop + n_pop.
Proof.
  intros n_pop n_parents P b far i j Hp HP. specialize (HP i j). unfold restricted_row. destruct (Nat.eqb_spec (i mod n_parents) 0) as [E|E]; destruct (Nat.eqb_spec (i mod n_parents) 1) as [E'|E']; try lia; cbn [andb]; repeat match goal with |- context [if ?x then _ else _] => destruct x end; lia.
Qed.

(** the hypotheses are met, and what the archives are on examples *)
Definition pop_ex : list ind3 := [([1; 5]%Z, 0%Z, 0); ([5; 1]%Z, 0%Z, 1); ([4; 2]%Z, 0%Z, 1); ([3; 3]%Z, 0%Z, 1); ([6; 6]%Z, 2%Z, 1); ([0; 6]%Z, 1%Z, 0)].
Example C83_meets : (forall a, In a (pop_ex ++ []) -> ctaea_ind_ok 2 obj3 cv3 fv3 a) /\ NoDup pop_ex /\
  fst (update_ca d3 obj3 cv3 niche3 fv3 dist3 (default_nds pr_ref) np_argsort pop_ex 2 (fun _ _ => false)) = [0; 3] /\
  fst (update_ca d3 obj3 cv3 niche3 fv3 dist3 (default_nds pr_ref) np_argsort pop_ex 3 (fun _ _ => false)) = [0; 2; 3] /\
  fst (update_ca d3 obj3 cv3 niche3 fv3 dist3 (default_nds pr_ref) np_argsort pop_ex 5 (fun _ _ => false)) = [0; 1; 2; 3; 5].
Proof.
  split; [intros a Ha; cbn in Ha; decompose [or] Ha; subst; try contradiction; repeat split; repeat constructor|]. split; [repeat constructor; cbn; intuition congruence|]. repeat split; vm_compute; reflexivity.
Qed.
Print Assumptions C83_step. Print Assumptions C83_niches.
