(** * C39 (result), C40 (optimum filter), C41 (archive), C42 (elitism).
    [pr] is moocore's Pareto ranking, assumed correct ([is_pareto_rank]); the truncation and duplicate criterion are arbitrary. *)
From Coq Require Import List Arith Bool Lia Permutation Sorted Relations.
From Verif Require Import Flt ListAux NpSort M_NDS M_Duplicate M_Survival M_Optimum S_Pareto S_NDS S_Survival S_Optimum P_Dominator P_Duplicate P_Optimum Thm_NDS Thm_Duplicate.
From Verif Require S_Duplicate.
Import ListNotations.
Local Open Scope nat_scope.

Definition pr_ok (m : nat) (pr : fltmat -> list nat) : Prop := forall F, F <> [] -> rect m F -> mat_ok F -> is_pareto_rank F (pr F).

Lemma filter_pos {A} (f : A -> bool) l : (0 <? length (filter f l)) = existsb f l.
Proof. induction l as [|a l IH]; simpl; auto. destruct (f a); simpl; auto. Qed.
Lemma not_existsb {A} (f : A -> bool) l : existsb f l = false <-> forall x, In x l -> f x = false.
Proof.
  split.
  - intros H x Hx. destruct (f x) eqn:E; auto. exfalso. assert (existsb f l = true) by (apply existsb_exists; eauto). congruence.
  - intros H. destruct (existsb f l) eqn:E; auto. apply existsb_exists in E as (x & Hx & E). rewrite H in E; auto.
Qed.
Lemma argmin_member {A} (d : A) (f : A -> flt) l : l <> [] -> (forall a, In a l -> isnan (f a) = false) ->
  let x := nth (np_argmin (map f l)) l d in In x l /\ forall y, In y l -> fleb (f x) (f y) = true.
Proof.
  intros Hne HN x. destruct (np_argmin_spec (map f l)) as [HA HB].
  { destruct l; [congruence|discriminate]. }
  { apply Forall_forall; intros z Hz; apply in_map_iff in Hz as (a & <- & Ha); auto. }
  rewrite map_length in *. split; [now apply nth_In|]. intros y Hy. apply (In_nth _ _ d) in Hy as (j & Hj & <-). specialize (HB j Hj).
  rewrite !(nth_indep _ f_nan (f d)) in HB by (now rewrite map_length). now rewrite !map_nth in HB.
Qed.

(** C40, two or more objectives, some feasible solution: exactly the feasible solutions that no feasible one dominates, in order *)
Theorem C40_multi : forall (A : Type) (d : A) obj cv feas pr m (pop : list A) li,
  2 <= m -> pr_ok m pr -> Forall (ind_ok obj cv m) pop -> (exists a, In a pop /\ feas a = true) ->
  exists res, filter_optimum d obj cv feas pr m (Some pop) li = Some res /\
    S_Duplicate.selects d pop res (fun i => feas (nth i pop d) = true /\ forall y, In y pop -> feas y = true -> ~ dominates (obj y) (obj (nth i pop d))).
Proof.
  intros A d obj cv feas pr m pop li Hm HP HO (a & Ha & Hf). unfold filter_optimum. destruct pop as [|p0 pop0] eqn:Ep; [destruct Ha|]. rewrite <- Ep in *.
  rewrite filter_pos. replace (existsb feas pop) with true by (symmetry; apply existsb_exists; eauto).
  replace (1 <? m) with true by (symmetry; apply Nat.ltb_lt; lia). eexists. split; [reflexivity|].
  set (fl := filter feas pop). eapply selects_ext.
  - apply (selects_compose d pop fl _ _ (fun a => forall y, In y fl -> ~ dominates (obj y) (obj a)) (filter_selects d feas pop)).
    apply (first_front_selects d obj cv pr m HP fl).
    + intros E. assert (In a fl) by (apply filter_In; auto). rewrite E in H. destruct H.
    + apply Forall_forall. intros x Hx. apply filter_In in Hx. rewrite Forall_forall in HO. apply HO; tauto.
  - intros i Hi. cbv beta. unfold fl. setoid_rewrite filter_In. firstorder.
Qed.
Print Assumptions C40_multi.

(** C40, one objective, some feasible solution: a single one of minimal objective among the feasible *)
Theorem C40_single : forall (A : Type) (d : A) obj cv feas pr (pop : list A) li,
  Forall (ind_ok obj cv 1) pop -> (exists a, In a pop /\ feas a = true) ->
  exists x, filter_optimum d obj cv feas pr 1 (Some pop) li = Some [x] /\ In x pop /\ feas x = true /\
    forall y, In y pop -> feas y = true -> fleb (nth 0 (obj x) f_nan) (nth 0 (obj y) f_nan) = true.
Proof.
  intros A d obj cv feas pr pop li HO (a & Ha & Hf). unfold filter_optimum. destruct pop as [|p0 pop0] eqn:Ep; [destruct Ha|]. rewrite <- Ep in *.
  rewrite filter_pos. replace (existsb feas pop) with true by (symmetry; apply existsb_exists; eauto). cbn [Nat.ltb Nat.leb].
  eexists. split; [reflexivity|].
  destruct (argmin_member d (fun a => nth 0 (obj a) f_nan) (filter feas pop)) as [H1 H2].
  - intros E. assert (In a (filter feas pop)) by (apply filter_In; auto). rewrite E in H. destruct H.
  - intros x Hx. apply filter_In in Hx as [Hx _]. rewrite Forall_forall in HO. destruct (HO x Hx) as [[HL HV] _].
    destruct (obj x) as [|z [|? ?]]; try discriminate. inversion HV; auto.
  - apply filter_In in H1 as H1'. split; [tauto|]. split; [tauto|]. intros y Hy Hfy. apply H2. apply filter_In; auto.
Qed.
Print Assumptions C40_single.

(** C40, no feasible solution: a single one of minimal violation if requested, otherwise nothing; nothing for no population *)
Theorem C40_infeasible : forall (A : Type) (d : A) obj cv feas pr m (pop : list A),
  pop <> [] -> (forall a, In a pop -> isnan (cv a) = false) -> (forall a, In a pop -> feas a = false) ->
  (exists x, filter_optimum d obj cv feas pr m (Some pop) true = Some [x] /\ In x pop /\ forall y, In y pop -> fleb (cv x) (cv y) = true) /\
  filter_optimum d obj cv feas pr m (Some pop) false = None.
Proof.
  intros A d obj cv feas pr m pop Hne HN Hno. unfold filter_optimum. destruct pop as [|p0 pop0] eqn:Ep; [congruence|]. rewrite <- Ep in *.
  rewrite filter_pos. replace (existsb feas pop) with false by (symmetry; now apply not_existsb). split; auto.
  eexists. split; [reflexivity|]. apply argmin_member; [rewrite Ep; discriminate|auto].
Qed.
Theorem C40_empty : forall (A : Type) (d : A) obj cv feas pr m li,
  filter_optimum d obj cv feas pr m (Some []) li = None /\ filter_optimum d obj cv feas pr m None li = None.
Proof. auto. Qed.
Print Assumptions C40_infeasible.

(** ** C39 *)
Theorem C39_success : forall (A : Type) (d : A) obj cv feas pr m opt rli,
  fst (fst (result d obj cv feas pr m opt rli)) = true <-> exists o x, opt = Some o /\ In x o /\ feas x = true.
Proof.
  intros A d obj cv feas pr m opt rli. unfold result. split.
  - destruct opt as [[|a o]|]; try discriminate. destruct (existsb feas (a :: o)) eqn:E; [|destruct rli; discriminate].
    intros _. apply existsb_exists in E as (x & Hx & E). exists (a :: o), x. auto.
  - intros (o & x & -> & Hx & Hf). destruct o as [|a o]; [destruct Hx|]. replace (existsb feas (a :: o)) with true by (symmetry; apply existsb_exists; eauto). reflexivity.
Qed.
Print Assumptions C39_success.
(** what is reported: the optimum itself on success; nothing on failure unless requested; then a solution of minimal violation *)
Theorem C39_report : forall (A : Type) (d : A) obj cv feas pr m opt rli,
  (forall o a, opt = Some o -> In a o -> isnan (cv a) = false) ->
  let '(success, res_opt, values) := result d obj cv feas pr m opt rli in
  (success = true -> res_opt = opt /\ values = opt) /\
  (success = false -> rli = false -> res_opt = None /\ values = None) /\
  (success = false -> rli = true -> (opt = None \/ opt = Some [] -> res_opt = None /\ values = None) /\
     forall o, opt = Some o -> o <> [] -> exists x, res_opt = Some [x] /\ In x o /\ forall y, In y o -> fleb (cv x) (cv y) = true).
Proof.
  intros A d obj cv feas pr m opt rli HN. unfold result. destruct opt as [[|a o]|].
  - split; [discriminate|]. split; auto. intros _ _. split; auto. intros o Ho Hne. congruence.
  - destruct (existsb feas (a :: o)) eqn:E.
    + split; [auto|]. split; discriminate.
    + destruct rli; (split; [discriminate|]); split; try discriminate; auto.
      intros _ _. split; [intros [H|H]; discriminate|]. intros o' Ho Hne. injection Ho as <-.
      destruct (C40_infeasible A d obj cv feas pr m (a :: o)) as [H _]; [discriminate|intros; eapply HN; eauto|now apply not_existsb|]. exact H.
  - split; [discriminate|]. split; auto. intros _ _. split; auto. intros o Ho. discriminate.
Qed.
Print Assumptions C39_report.
(** with the optimum as kept by default ([_set_optimum]) the values reported are those of the reported optimum; in the least-infeasible case
    a solution of minimal violation of the whole population *)
Theorem C39_default_optimum : forall (A : Type) (d : A) obj cv feas pr m (pop : list A) rli,
  pop <> [] -> 1 <= m -> pr_ok m pr -> Forall (ind_ok obj cv m) pop ->
  let '(success, res_opt, values) := result d obj cv feas pr m (filter_optimum d obj cv feas pr m (Some pop) true) rli in
  values = res_opt /\ (success = true <-> exists a, In a pop /\ feas a = true) /\
  (success = false -> rli = true -> exists x, res_opt = Some [x] /\ In x pop /\ forall y, In y pop -> fleb (cv x) (cv y) = true).
Proof.
  intros A d obj cv feas pr m pop rli Hne Hm HP HO. destruct (existsb feas pop) eqn:EF.
  - assert (Hex : exists a, In a pop /\ feas a = true) by (now apply existsb_exists).
    assert (Hr : exists o x, filter_optimum d obj cv feas pr m (Some pop) true = Some o /\ In x o /\ feas x = true).
    { destruct (Nat.eq_dec m 1) as [->|Hm1].
      - destruct (C40_single A d obj cv feas pr pop true HO Hex) as (x & H1 & H2 & H3 & _). exists [x], x. simpl; auto.
      - destruct (C40_multi A d obj cv feas pr m pop true ltac:(lia) HP HO Hex) as (res & H1 & H2).
        destruct (best_covers d obj cv feas m (filter feas pop)) with (x := hd d (filter feas pop)) as (y & Hy & _).
        { apply Forall_forall. intros z Hz. apply filter_In in Hz. rewrite Forall_forall in HO. apply HO; tauto. }
        { destruct Hex as (a & Ha & Hf). assert (Hin : In a (filter feas pop)) by (apply filter_In; auto). destruct (filter feas pop); [destruct Hin|simpl; auto]. }
        destruct Hy as [Hy1 Hy2]. apply filter_In in Hy1 as [Hy1 Hyf]. exists res, y. split; auto. split; auto.
        apply (In_nth _ _ d) in Hy1 as (i & Hi & Ei). apply (selects_In d pop res _ y H2). exists i. split; auto. rewrite Ei. split; [|auto]. split; auto.
        intros z Hz Hzf HD. apply (Hy2 z); [apply filter_In; auto|]. right; left. auto. }
    destruct Hr as (o & x & Ho & Hx & Hf). rewrite Ho. unfold result. destruct o as [|o0 o]; [destruct Hx|].
    replace (existsb feas (o0 :: o)) with true by (symmetry; apply existsb_exists; eauto). split; auto. split; [tauto|discriminate].
  - rewrite not_existsb in EF. destruct (C40_infeasible A d obj cv feas pr m pop Hne) as [(x & H1 & H2 & H3) _]; auto.
    { intros a Ha. rewrite Forall_forall in HO. apply HO; auto. }
    rewrite H1. unfold result. cbn [existsb]. rewrite (EF x H2). cbn [orb].
    assert (HF : filter_optimum d obj cv feas pr m (Some [x]) true = Some [x]).
    { unfold filter_optimum. cbn [filter]. rewrite (EF x H2). reflexivity. }
    destruct rli; [rewrite HF|]; split; auto; (split; [split; [discriminate|intros (a & Ha & Hf); rewrite EF in Hf by auto; discriminate]|]); [|discriminate].
    intros _ _. exists x. auto.
Qed.
Print Assumptions C39_default_optimum.

Definition fbits (z : nat) : flt := fz (BinInt.Z.of_nat z).
(** demo individuals: (identifier, objectives, violation); feasible iff the violation is 0 *)
Definition dind : Type := nat * list nat * nat.
Definition d_obj (a : dind) : list flt := map fbits (snd (fst a)).
Definition d_cv (a : dind) : flt := fbits (snd a).
Definition d_feas (a : dind) : bool := snd a =? 0.
Definition dd : dind := (0, [], 0).

(** an algorithm that keeps an optimum with several infeasible members: the reported values are not those of the least infeasible one *)
Theorem C39_values_refuted :
  ~ (forall (A : Type) (d : A) obj cv feas pr m o,
       let '(_, res_opt, values) := result d obj cv feas pr m (Some o) true in values = res_opt).
Proof.
  intros HH. specialize (HH dind dd d_obj d_cv d_feas (fun _ => []) 1 [(1, [5], 3); (2, [4], 2)]). vm_compute in HH. discriminate.
Qed.
Print Assumptions C39_values_refuted.
