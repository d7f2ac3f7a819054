(** * Theorems C10-C15: survival and replacement *)
From Coq Require Import List Arith Permutation Bool ZArith QArith Lia Lqa Floats.SpecFloat.
From Verif Require Import Flt ListAux NpSort M_Dominator M_NDS M_Survival S_Pareto S_NDS S_Survival P_Peel P_Dominator P_FastNDS P_NDS1 P_NDS2 P_NDS3 P_Survival P_Survival2 P_Survival3 P_Survival4.
Import ListNotations.
Local Open Scope nat_scope.

(** C10: for every population, every subclass that returns the requested number of different members, every argsort *)
Theorem C10_survival_do : forall (A : Type) (d : A) cv feas asort (wf : A -> Prop) inner fi hc ns pop,
  asort_ok asort -> inner_ok wf inner -> Forall wf pop ->
  let n := Nat.min (match ns with None => length pop | Some n => n end) (length pop) in
  let S := survival_do d cv feas asort inner fi hc ns pop in
  selects (length pop) n S /\
  (fi = true -> hc = true ->
    (* an infeasible individual survives only if every feasible one does *)
    (forall i j, In i S -> feas (nth i pop d) = false -> j < length pop -> feas (nth j pop d) = true -> In j S) /\
    (* no discarded infeasible individual has a smaller violation than a surviving infeasible one *)
    (forall i j, In i S -> feas (nth i pop d) = false -> j < length pop -> feas (nth j pop d) = false -> ~ In j S ->
       fltb (cv (nth j pop d)) (cv (nth i pop d)) = false)).
Proof. intros A d cv feas asort wf inner fi hc ns pop Ha Hi Hw. now apply survival_do_spec with (wf := wf). Qed.
Print Assumptions C10_survival_do.

(** C10: survivors that are infeasible come after the feasible ones, in the order of their violation *)
Theorem C10_infeasible_sorted : forall (A : Type) (d : A) cv feas asort (pop : list A),
  asort_ok asort ->
  let '(fe, infe) := split_by_feasibility d cv feas asort pop in
  (forall i, In i fe <-> i < length pop /\ feas (nth i pop d) = true) /\
  (forall i, In i infe <-> i < length pop /\ feas (nth i pop d) = false) /\ NoDup fe /\ NoDup infe /\
  (forall p q, p < q -> q < length infe -> fltb (cv (nth (nth q infe 0) pop d)) (cv (nth (nth p infe 0) pop d)) = false).
Proof.
  intros A d cv feas asort pop Ha. pose proof (split_spec d cv feas asort Ha pop) as H.
  destruct (split_by_feasibility d cv feas asort pop) as [fe infe]. tauto.
Qed.
Print Assumptions C10_infeasible_sorted.

(** C10: [return_indices] reports the positions of the survivors (population members are different objects) *)
Theorem C10_return_indices : forall ids S, NoDup ids -> (forall s, In s S -> s < length ids) -> return_indices ids S = S.
Proof. exact return_indices_spec. Qed.
Print Assumptions C10_return_indices.

(** C11: RankAndCrowding on one population: size, ranks, order across the cut, for every crowding metric that gives one number per
    point, every random tie-break (any descending argsort) and every sorter that meets the contract of C09 *)
Theorem C11_rank_and_crowding : forall m F crowding dsort nds n,
  (forall M r, length (crowding M r) = length M) -> dsort_ok dsort -> nds_ok m nds ->
  F <> [] -> rect m F -> mat_ok F -> n <= length F ->
  let st := rac_do nds crowding dsort F n in
  selects (length F) n (rs_surv st) /\
  (forall i r, In i (rs_surv st) -> pareto_rank F i r ->
     nth i (rs_rank st) None = Some r /\ exists c, nth i (rs_crowd st) None = Some c) /\
  (forall i j ri rj, In i (rs_surv st) -> j < length F -> ~ In j (rs_surv st) -> pareto_rank F i ri -> pareto_rank F j rj ->
     ri <= rj /\
     (ri = rj -> exists ci cj, nth i (rs_crowd st) None = Some ci /\ nth j (rs_crowd st) None = Some cj /\ fltb ci cj = false)).
Proof.
  intros m F crowding dsort nds n Hc Hd Hn Hne HR HM Hle. cbv zeta. unfold rac_do.
  destruct (Hn F n Hne HR HM) as (full & HP & HS).
  destruct (rac_spec F crowding dsort n Hc Hd full (nds F n) Hle HP HS) as (R1 & R2 & R3).
  assert (Hu : forall i r, pareto_rank F i r -> In i (nth r full [])).
  { intros i r (full' & HP' & Hi). destruct (peeling_unique _ _ _ _ HP HP') as [_ E]. now apply E. }
  split; [exact R1|]. split; [intros i r Hi Hr; apply R2; auto|].
  intros i j ri rj Hi Hj Hnj Hri Hrj. apply R3; auto.
Qed.
Print Assumptions C11_rank_and_crowding.

(** C11: everybody has a Pareto rank (so the above is about all individuals), and it is unique *)
Theorem C11_rank_exists_unique : forall m F i, rect m F -> mat_ok F -> i < length F ->
  (exists r, pareto_rank F i r) /\ forall r r', pareto_rank F i r -> pareto_rank F i r' -> r = r'.
Proof.
  intros m F i HR HM Hi. split.
  - destruct (fast_nds_peeling m F HR HM) as (fr & _ & HP). pose proof HP as (HPP & _).
    apply (perm_seq_In _ _ i HPP) in Hi. apply in_concat_nth in Hi as (r & _ & Hr). exists r, fr. auto.
  - intros r r' (f1 & P1 & H1) (f2 & P2 & H2). destruct (peeling_unique _ _ _ _ P1 P2) as [_ E]. apply E in H1.
    eapply concat_NoDup_nth; [|exact H1|exact H2]. eapply perm_seq_NoDup, P2.
Qed.
Print Assumptions C11_rank_exists_unique.

(** C11: elitism: when the non-dominated front fits it survives completely *)
Theorem C11_best_front_survives : forall m F crowding dsort nds n full,
  (forall M r, length (crowding M r) = length M) -> dsort_ok dsort -> nds_ok m nds ->
  F <> [] -> rect m F -> mat_ok F -> n <= length F ->
  is_peeling (length F) (row_dom F) full -> length (nth 0 full []) <= n ->
  forall i, i < length F -> (forall j, j < length F -> ~ row_dom F j i) -> In i (rs_surv (rac_do nds crowding dsort F n)).
Proof.
  intros m F crowding dsort nds n full Hc Hd Hn Hne HR HM Hle HP Hlen i Hi Hnd.
  destruct (C11_rank_and_crowding m F crowding dsort nds n Hc Hd Hn Hne HR HM Hle) as (R1 & _ & R3).
  apply (best_front_survives (length F) (row_dom F) full _ n HP R1 Hlen).
  - intros a b ra rb Ha Hb Hra Hrb. apply (R3 a b ra rb); auto; try (exists full; auto).
    pose proof HP as (HPP & _). apply (perm_seq_In _ _ b HPP). apply in_concat_nth. exists rb. split; auto. eapply nth_In_lt; eauto.
  - pose proof HP as (HPP & HN & HF). destruct full as [|f0 full].
    + simpl in HPP. apply Permutation_nil in HPP. destruct (length F); [lia|discriminate].
    + apply HF; [simpl; lia|]. split; auto. split; [intros (k & Hk & _); lia|]. auto.
Qed.
Print Assumptions C11_best_front_survives.

(** C11: the sorter used by default meets the contract, given moocore's; and randomized_argsort is a descending argsort for every
    permutation drawn *)
Theorem C11_default_sorter : forall m pr, (forall F, F <> [] -> rect m F -> mat_ok F -> is_pareto_rank F (pr F)) -> nds_ok m (default_nds pr).
Proof. exact default_nds_ok. Qed.
Theorem C11_randomized_argsort : forall asort (perm : list flt -> list nat),
  asort_ok asort -> (forall keys, Permutation (perm keys) (seq 0 (length keys))) ->
  dsort_ok (fun keys => randomized_argsort asort (perm keys) true keys) /\
  asort_ok (fun keys => randomized_argsort asort (perm keys) false keys).
Proof.
  intros asort perm Ha Hp. split; intros keys; [apply randomized_argsort_desc|apply randomized_argsort_asc]; auto.
Qed.
Print Assumptions C11_default_sorter.
Print Assumptions C11_randomized_argsort.

(** C11 within [Survival.do]: the whole NSGA-II survival with constraints *)
Theorem C11_nsga2_survival : forall (A : Type) (d : A) cv feas obj asort dsort nds crowding m hc ns (pop : list A),
  asort_ok asort -> dsort_ok dsort -> (forall M r, length (crowding M r) = length M) -> nds_ok m nds ->
  Forall (fun a => row_ok m (obj a)) pop ->
  let n := Nat.min (match ns with None => length pop | Some n => n end) (length pop) in
  let S := survival_do d cv feas asort (rac_inner obj dsort nds crowding) true hc ns pop in
  selects (length pop) n S /\
  (hc = true ->
    (forall i j, In i S -> feas (nth i pop d) = false -> j < length pop -> feas (nth j pop d) = true -> In j S) /\
    (forall i j, In i S -> feas (nth i pop d) = false -> j < length pop -> feas (nth j pop d) = false -> ~ In j S ->
       fltb (cv (nth j pop d)) (cv (nth i pop d)) = false)).
Proof.
  intros A d cv feas obj asort dsort nds crowding m hc ns pop Ha Hd Hc Hn Hw. cbv zeta.
  destruct (survival_do_spec d cv feas asort Ha (fun a => row_ok m (obj a)) (rac_inner obj dsort nds crowding) true hc ns pop) as [H1 H2]; auto.
  apply rac_inner_ok with (m := m); auto.
Qed.
Print Assumptions C11_nsga2_survival.

(** C12: the survival of GDE3 *)
Theorem C12_constr_rank_and_crowding : forall (A : Type) (d : A) cv feas obj viol asort dsort rasc nds crowding m mc hc ns (pop : list A),
  asort_ok asort -> dsort_ok dsort -> asort_ok rasc -> (forall M r, length (crowding M r) = length M) -> nds_ok m nds -> nds_ok mc nds ->
  Forall (fun a => row_ok m (obj a)) pop -> Forall (fun a => row_ok mc (viol a)) pop ->
  let n := Nat.min (match ns with None => length pop | Some n => n end) (length pop) in
  let S := constr_rac d cv feas obj viol asort dsort rasc nds crowding hc ns pop in
  selects (length pop) n S /\
  (hc = true ->
    (* all feasible ones before any infeasible one *)
    (forall i j, In i S -> feas (nth i pop d) = false -> j < length pop -> feas (nth j pop d) = true -> In j S) /\
    (* infeasible ones: by their front in the peeling of the violations of the single constraints, inside the cut front by CV *)
    (forall fr, peeling_of (fun i => i < length pop /\ feas (nth i pop d) = false)
                  (fun i j => dominates (viol (nth i pop d)) (viol (nth j pop d))) fr ->
       forall i j ri rj, In i S -> ~ In j S -> In i (nth ri fr []) -> In j (nth rj fr []) ->
       ri <= rj /\ (ri = rj -> fltb (cv (nth j pop d)) (cv (nth i pop d)) = false))).
Proof.
  intros A d cv feas obj viol asort dsort rasc nds crowding m mc hc ns pop Ha Hd Hr Hc Hn Hnc Hw Hv.
  now apply constr_rac_spec with (m := m) (mc := mc).
Qed.
Print Assumptions C12_constr_rank_and_crowding.

(** C13 is false of the code: there is an order of the merged population (best first) in which the offspring is ranked better
    but not taken.  Slot 0, pop = [a; b], off = [c; e], order c e... *)
Theorem C13_refuted : exists (pop off : list nat) indices k p q,
  length pop = length off /\ Permutation indices (seq 0 (length pop + length off)) /\ k < length pop /\
  (* offspring [k] is at position [p] of the order, parent [k] at a later position [q] *)
  nth p indices 0 = length pop + k /\ nth q indices 0 = k /\ p < q /\
  nth k (to_replacement 0 pop off indices) 0 <> nth k off 0.
Proof.
  exists [10; 11], [20; 21], [1; 2; 3; 0], 0, 1, 3.
  split; auto. split; [apply perm_seq_of_NoDup; [repeat constructor; simpl; lia|intros i; simpl; lia]|].
  vm_compute. repeat split; auto; discriminate.
Qed.
Print Assumptions C13_refuted.

(** C13, what does hold: every slot keeps its parent or gets its own offspring *)
Theorem C13_slotwise : forall (A : Type) (d : A) pop off indices k, k < length pop ->
  length (to_replacement d pop off indices) = length pop /\
  (nth k (to_replacement d pop off indices) d = nth k pop d \/ nth k (to_replacement d pop off indices) d = nth k off d).
Proof.
  intros A d pop off I k Hk. split; [apply length_to_replacement|]. rewrite nth_to_replacement by auto. destruct (_ <? _); auto.
Qed.
Print Assumptions C13_slotwise.

(** C13, partial: if the order is its own inverse the replacement decides as documented *)
Theorem C13_involution_partial : forall (A : Type) (d : A) pop off indices,
  length pop = length off -> Permutation indices (seq 0 (length pop + length off)) ->
  (forall i, i < length pop + length off -> nth (nth i indices 0) indices 0 = i) ->
  forall k p q, k < length pop -> p < length indices -> q < length indices ->
  nth p indices 0 = length pop + k -> nth q indices 0 = k ->
  nth k (to_replacement d pop off indices) d = if p <? q then nth k off d else nth k pop d.
Proof.
  intros A d pop off I Hl HP Hinv k p q Hk Hp Hq Ep Eq. rewrite nth_to_replacement by auto.
  pose proof (perm_seq_length _ _ HP) as HL. rewrite <- Ep, <- Eq.
  rewrite !Hinv by lia. reflexivity.
Qed.
Print Assumptions C13_involution_partial.

(** C14: a slot is replaced exactly when its offspring is strictly better and not reported as a duplicate *)
Theorem C14_replacement : forall (A : Type) (d : A) view hc pop off dup,
  length off = length pop ->
  (hc = false -> forall a, o_feas (view a) = true) ->
  length (improvement_replacement d view hc pop off dup) = length pop /\
  forall k, k < length pop ->
    (better (view (nth k off d)) (view (nth k pop d)) -> ~ In k dup -> nth k (improvement_replacement d view hc pop off dup) d = nth k off d) /\
    (~ (better (view (nth k off d)) (view (nth k pop d)) /\ ~ In k dup) -> nth k (improvement_replacement d view hc pop off dup) d = nth k pop d).
Proof.
  intros A d view hc pop off dup Hl Hf. split; [apply length_improvement|]. intros k Hk. rewrite improvement_slot by auto.
  rewrite <- existsb_eqb. pose proof (improvement_iff hc (view (nth k pop d)) (view (nth k off d))) as HI.
  destruct (improvement hc (view (nth k pop d)) (view (nth k off d))); destruct (existsb (Nat.eqb k) dup); cbn [andb negb]; split; auto.
  - intros H1 H2. destruct H2. auto.
  - intros H. exfalso. apply H. split; [apply HI; auto|discriminate].
  - intros H1 _. apply HI in H1; auto. discriminate.
  - intros H1 _. apply HI in H1; auto. discriminate.
Qed.
Print Assumptions C14_replacement.

(** C14: over every sequence of generations (offspring and reported duplicates), every slot is unchanged or strictly better *)
Theorem C14_history : forall (A : Type) (d : A) view hc (gens : list (list A * list nat)) pop,
  (hc = false -> forall a, o_feas (view a) = true) ->
  Forall (fun g => length (fst g) = length pop) gens ->
  let final := fold_left (fun p g => improvement_replacement d view hc p (fst g) (snd g)) gens pop in
  length final = length pop /\
  forall k, k < length pop -> nth k final d = nth k pop d \/ better (view (nth k final d)) (view (nth k pop d)).
Proof.
  intros A d view hc gens. induction gens as [|[off dup] gens IH]; intros pop Hf HL; cbn [fold_left fst snd]; [auto|].
  apply Forall_cons_iff in HL as [Ho HL]. cbn [fst] in Ho.
  destruct (C14_replacement A d view hc pop off dup Ho Hf) as [R1 R2].
  destruct (IH (improvement_replacement d view hc pop off dup)) as [I1 I2]; auto.
  { rewrite R1. auto. }
  cbv zeta in I1, I2. rewrite R1 in I1, I2. split; auto. intros k Hk. specialize (I2 k Hk).
  assert (Hstep : nth k (improvement_replacement d view hc pop off dup) d = nth k pop d \/
                  better (view (nth k (improvement_replacement d view hc pop off dup) d)) (view (nth k pop d))).
  { rewrite improvement_slot by auto. destruct (_ && _) eqn:E; auto. right. apply andb_true_iff in E as [E _].
    apply (improvement_iff hc) in E; auto. }
  destruct I2 as [E|B]; [rewrite E; auto|]. destruct Hstep as [E2|B2]; [rewrite <- E2; auto|]. right. eapply better_trans; eauto.
Qed.
Print Assumptions C14_history.
(** ... where "strictly better" is a strict partial order *)
Theorem C14_better_strict_order : (forall a, ~ better a a) /\ forall a b c, better a b -> better b c -> better a c.
Proof. split; [exact better_irrefl|exact better_trans]. Qed.
Print Assumptions C14_better_strict_order.

(** C14: [is_better] (exact arithmetic): better by more than eps in the deciding quantity *)
Theorem C14_is_better : forall eps nf ncv nfe of_ ocv ofe,
  is_better eps nf ncv nfe of_ ocv ofe = true <->
  (ofe = false /\ nfe = true) \/
  (ofe = false /\ nfe = false /\ (eps < ocv - ncv)%Q) \/
  (ofe = true /\ nfe = true /\ (eps < of_ - nf)%Q).
Proof.
  intros. unfold is_better.
  assert (Hg : forall x, negb (Qle_bool x eps) = true <-> (eps < x)%Q).
  { intros x. rewrite negb_true_iff. split; intros H.
    - destruct (Qlt_le_dec eps x); auto. apply Qle_bool_iff in q. congruence.
    - destruct (Qle_bool x eps) eqn:E; auto. apply Qle_bool_iff in E. lra. }
  destruct ofe, nfe; cbn [negb andb].
  - destruct (negb (Qle_bool (of_ - nf) eps)) eqn:E; [apply Hg in E|]; split; auto; try discriminate.
    intros [[H _]|[[H _]|(_ & _ & H)]]; try discriminate. apply Hg in H. congruence.
  - split; [discriminate|]. intros [[H _]|[[H _]|(_ & H & _)]]; discriminate.
  - split; auto.
  - destruct (negb (Qle_bool (ocv - ncv) eps)) eqn:E; [apply Hg in E|]; split; auto; try discriminate.
    intros [[_ H]|[(_ & _ & H)|(H & _)]]; try discriminate. apply Hg in H. congruence.
Qed.
Print Assumptions C14_is_better.

(** C15: exact arithmetic, every argsort *)
Definition qltb (x y : Q) : bool := negb (Qle_bool y x).
Theorem C15_hierarchical_sort : forall qsort f cv,
  (forall keys, is_argsort qltb 0%Q keys (qsort keys)) -> length f = length cv ->
  let I := hierarchical_sort qsort f (Some cv) in
  Permutation I (seq 0 (length f)) /\
  forall p q, p < q -> q < length I ->
    let i := nth p I 0 in let j := nth q I 0 in
    let feas k := (nth k cv 0 <= 0)%Q in
    (feas j -> feas i) /\                                                      (* feasible first *)
    (feas i -> feas j -> nth i f 0 <= nth j f 0)%Q /\                          (* then by objective *)
    (~ feas i -> ~ feas j -> nth i cv 0 <= nth j cv 0)%Q.                      (* infeasible by violation *)
Proof.
  intros qsort f cv Hs Hl. cbv zeta. unfold hierarchical_sort. set (keys := parameter_less f cv).
  assert (HLk : length keys = length f) by (unfold keys, parameter_less; rewrite length_map2; lia).
  destruct (Hs keys) as [HP HS]. rewrite HLk in HP. split; auto. intros p q Hpq Hq. specialize (HS p q Hpq Hq).
  pose proof (perm_seq_length _ _ HP) as HLI.
  set (i := nth p (qsort keys) 0) in *. set (j := nth q (qsort keys) 0) in *.
  assert (Hi : i < length f) by (apply (perm_nth_lt _ _ _ HP); lia).
  assert (Hj : j < length f) by (apply (perm_nth_lt _ _ _ HP); lia).
  unfold qltb in HS. rewrite negb_false_iff in HS. apply Qle_bool_iff in HS.
  unfold keys in HS. rewrite !nth_parameter_less in HS by auto.
  assert (Mi : (nth i f 0 <= q_max_list f)%Q) by (apply q_max_ge, nth_In; auto).
  assert (Mj : (nth j f 0 <= q_max_list f)%Q) by (apply q_max_ge, nth_In; auto).
  destruct (Qle_bool (nth i cv 0%Q) 0) eqn:Ei; destruct (Qle_bool (nth j cv 0%Q) 0) eqn:Ej;
  repeat match goal with
    | H : Qle_bool _ _ = true |- _ => apply Qle_bool_iff in H
    | H : Qle_bool ?x ?y = false |- _ => assert (y < x)%Q by (destruct (Qlt_le_dec y x) as [|HH]; auto; apply Qle_bool_iff in HH; congruence); clear H
    end; repeat split; intros; try lra.
Qed.
Print Assumptions C15_hierarchical_sort.
Theorem C15_no_constraints : forall qsort f, (forall keys, is_argsort qltb 0%Q keys (qsort keys)) ->
  is_argsort qltb 0%Q f (hierarchical_sort qsort f None).
Proof. intros. apply H. Qed.

(** C15 is false in binary64: the violation can be absorbed by the addition, the infeasible solution then ties with a feasible one
    and a valid argsort (even a stable one) returns it first *)
Theorem C15_binary64_refuted : exists f cv I,
  mat_ok [f; cv] /\ length f = length cv /\
  is_argsort fltb f_nan (parameter_less_f64 f cv) I /\ I = np_argsort (parameter_less_f64 f cv) /\
  exists p q, p < q /\ q < length I /\
    fltb f_zero (nth (nth p I 0) cv f_nan) = true /\ feqb (nth (nth q I 0) cv f_nan) f_zero = true.
Proof.
  exists [fz 0; fz (2 ^ 60)], [fz 1; fz 0], [0; 1]. split; [repeat constructor|]. split; auto.
  assert (E : [0; 1] = np_argsort (parameter_less_f64 [fz 0; fz (2 ^ 60)] [fz 1; fz 0])) by (vm_compute; reflexivity).
  split; [|split; [exact E|]].
  - rewrite E. apply np_argsort_ok.
  - exists 0, 1. split; [lia|]. split; [simpl; lia|]. vm_compute. auto.
Qed.
Print Assumptions C15_binary64_refuted.

(** ** the hypotheses are met by non-trivial data, and the models compute *)
Definition crowd_ex (M : fltmat) (_ : nat) : list flt := map (fun r => nth 0 r f_nan) M.
Definition dsort_ex (keys : list flt) : list nat := rev (np_argsort keys).
Example ex_dsort : dsort_ok dsort_ex.
Proof. intros keys. apply rev_argsort, np_argsort_ok. Qed.
Example ex_crowd : forall M r, length (crowd_ex M r) = length M.
Proof. intros. apply map_length. Qed.
Example ex_nds : nds_ok 2 (default_nds pr_ref).
Proof. apply default_nds_ok. intros. now apply (pr_ref_ok 2). Qed.
(* individuals: (F, CV) *)
Definition ex_pop : list (list flt * flt) :=
  [([fz 3; fz 1], fz 0); ([fz 1; fz 3], fz 0); ([fz 2; fz 2], fz 2); ([fz 3; fz 3], fz 0); ([fz 4; fz 4], fz 1); ([fz 2; fz 5], fz 3)].
Definition ex_feas (a : list flt * flt) := fleb (snd a) f_zero.
Example ex_pop_ok : Forall (fun a => row_ok 2 (fst a)) ex_pop.
Proof. repeat constructor. Qed.
Example ex_surv2 : survival_do ([], f_nan) snd ex_feas np_argsort (rac_inner fst dsort_ex (default_nds pr_ref) crowd_ex) true true (Some 2) ex_pop = [0; 1].
Proof. vm_compute. reflexivity. Qed.
Example ex_surv5 : survival_do ([], f_nan) snd ex_feas np_argsort (rac_inner fst dsort_ex (default_nds pr_ref) crowd_ex) true true (Some 5) ex_pop = [0; 1; 3; 4; 2].
Proof. vm_compute. reflexivity. Qed.
Example ex_rac_split : rs_surv (rac_do (default_nds pr_ref) crowd_ex dsort_ex (map fst ex_pop) 4) = [0; 1; 2; 3] /\
   rs_surv (rac_do (default_nds pr_ref) crowd_ex dsort_ex (map fst ex_pop) 2) = [0; 2].
Proof. vm_compute. auto. Qed.
Example ex_crac : constr_rac ([], f_nan) snd ex_feas fst (fun a => [snd a; fz 0]) np_argsort dsort_ex np_argsort (default_nds pr_ref) crowd_ex true (Some 4) ex_pop
   = [0; 1; 3; 4].
Proof. vm_compute. reflexivity. Qed.
Definition ind_ex (f c : Z) : ind1 := {| o_f := fz f; o_cv := fz c; o_feas := fleb (fz c) f_zero |}.
Example ex_impr : map o_f (improvement_replacement (ind_ex 0 0) (fun x => x) true
    [ind_ex 5 0; ind_ex 1 2; ind_ex 3 0] [ind_ex 4 0; ind_ex 9 1; ind_ex 2 0] [2]) = [fz 4; fz 9; fz 3].
Proof. vm_compute. reflexivity. Qed.
Example ex_hier : hierarchical_sort (argsort qltb 0%Q) [5; 1; 3; 2]%Q (Some [0; 2; 0; 1]%Q) = [2; 0; 3; 1].
Proof. vm_compute. reflexivity. Qed.
