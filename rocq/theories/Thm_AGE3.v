(** * C95: AGE-MOEA, which crowding value belongs to which solution *)
From Coq Require Import List Arith Bool Lia Permutation Sorted ZArith.
From Verif Require Import Flt ListAux NpSort M_NDS M_Survival M_Optimum S_Pareto S_NDS S_Survival S_Optimum P_Peel P_NDS1 P_Survival P_Duplicate P_Survival4 Thm_Survival M_AGE Thm_AGE.
Import ListNotations.
Local Open Scope nat_scope.

(** C95: [score] sees exactly the rows of the non-dominated solutions, in the order of the population, and the value it returns for a row goes to the solution with that row;
    a solution of Pareto rank r > 0 has the value of [mink] for its own row if rank r is below the last rank needed to fill the [n] places, and 0 otherwise *)
Theorem C95_crowding : forall m F score mink nds n, nds_ok m nds -> F <> [] -> rect m F -> mat_ok F -> n <= length F ->
  let c := age_crowding score mink F (nds F n) in
  exists first, StronglySorted lt first /\ (forall j, In j first <-> j < length F /\ forall i, i < length F -> ~ row_dom F i j) /\
  let rows := map (fun j => nth j F []) first in
  length c = length F /\
  (forall p, p < length first -> nth p rows [] = nth (nth p first 0) F [] /\ nth (nth p first 0) c f_nan = nth p (score rows) f_nan) /\
  (forall i r, i < length F -> pareto_rank F i (S r) -> nth i c f_nan = if S r <? length (nds F n) - 1 then mink rows (nth i F []) else f_zero).
Proof.
  intros m F score mink nds n Hn Hne HR HM Hle c.
  destruct (age_front0 m F score mink np_argsort nds n np_argsort_ok Hn Hne HR HM Hle) as [A1 _].
  destruct (Hn F n Hne HR HM) as (full & HP & HS).
  destruct (age_core np_argsort score mink np_argsort_ok F n full (nds F n) Hle HP HS) as (_ & _ & _ & _ & _ & _ & _ & _ & _ & _ & _ & ND & _).
  destruct HS as (Hpre & Hno & _).
  set (first := where_ (is_rank (nds F n) 0) (length F)). exists first.
  assert (InF : forall j, In j first <-> is_rank (nds F n) 0 j = true). { intros j. unfold first. rewrite In_where. split; [tauto|]. intros H. split; [now apply A1|exact H]. }
  assert (SSf : StronglySorted lt first). { unfold first, where_. apply SS_filter. clear. generalize 0. induction (length F) as [|k IH]; intros s; cbn; constructor; [apply IH|]. apply Forall_forall. intros x Hx. apply in_seq in Hx. lia. }
  split; [exact SSf|]. split; [intros j; rewrite InF; apply A1|]. cbv zeta.
  assert (EG : gather [] F first = map (fun j => nth j F []) first) by reflexivity.
  assert (KN : forall i, i < length F -> nth i c f_nan = match front_no (nds F n) i with Some 0 => nth (place i first) (score (gather [] F first)) f_nan
     | Some (S k) => if S k <? last_rank (nds F n) then mink (gather [] F first) (nth i F []) else f_zero | None => f_zero end).
  { intros i Hi. unfold c, age_crowding. cbv zeta. fold first. match goal with |- context [map ?f _] => set (g := f) end. rewrite (nth_indep _ f_nan (g 0)) by (rewrite map_length, seq_length; lia). rewrite map_nth, seq_nth by lia. reflexivity. }
  split; [unfold c, age_crowding; now rewrite map_length, seq_length|]. split.
  - intros p Hp. split; [rewrite (nth_indep _ [] (nth 0 F [])) by (rewrite map_length; lia); exact (map_nth (fun j => nth j F []) first 0 p)|].
    assert (Hj : In (nth p first 0) first) by now apply nth_In. pose proof Hj as Hj2. apply InF in Hj. rewrite KN by (apply A1, Hj). unfold is_rank in Hj. destruct (front_no (nds F n) (nth p first 0)) as [r|]; [|discriminate].
    apply Nat.eqb_eq in Hj. subst r. rewrite place_of; [now rewrite EG| |exact Hp]. apply NoDup_where.
  - intros i r Hi (f1 & P1 & H1). destruct (peeling_unique _ _ _ _ P1 HP) as [_ EQ]. apply EQ in H1. rewrite KN by exact Hi. rewrite EG. unfold last_rank.
    destruct (front_no (nds F n) i) as [k|] eqn:E.
    + apply front_no_iff in E; [|exact ND]. destruct E as [E1 E2]. assert (E3 : In i (nth k full [])). { rewrite (prefix_nth (nds F n) full); auto. }
      destruct HP as (PP & _). assert (k = S r) by (eapply concat_NoDup_nth; [eapply perm_seq_NoDup; eauto|exact E3|exact H1]). subst k. reflexivity.
    + destruct (S r <? length (nds F n) - 1) eqn:EL; [|reflexivity]. apply Nat.ltb_lt in EL. exfalso. assert (HH : front_no (nds F n) i = Some (S r)); [|congruence]. apply front_no_iff; [exact ND|]. split; [lia|]. rewrite <- (prefix_nth (nds F n) full); auto. lia.
Qed.
(** a case with two fronts and a rest that stays unranked: values of [score] for the first front, of [mink] for none, 0 otherwise *)
Theorem C95_crowding_example : nds_ok 2 (default_nds pr_ref) /\ rect 2 ex_F /\ mat_ok ex_F /\
  age_crowding ex_score ex_mink ex_F (default_nds pr_ref ex_F 3) = [fz 0; fz 1; f_zero; f_zero; f_zero] /\
  age_crowding ex_score ex_mink (ex_F ++ [[fz 11; fz 12]]) (default_nds pr_ref (ex_F ++ [[fz 11; fz 12]]) 6) = [fz 0; fz 1; fz 5; fz 9; fz 3; f_zero].
Proof. split; [exact ex_nds|]. split; [repeat constructor|]. split; [repeat constructor|]. vm_compute. split; reflexivity. Qed.
