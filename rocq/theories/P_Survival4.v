From Coq Require Import List Arith Permutation Bool ZArith QArith Lia Lqa.
From Verif Require Import Flt ListAux NpSort M_Dominator M_NDS M_Survival S_Pareto S_NDS S_Survival P_Peel P_Dominator P_FastNDS P_NDS1 P_NDS2 P_NDS3 P_Tree P_Survival P_Survival2 P_Survival3.
Import ListNotations.
Local Open Scope nat_scope.

(** ** sorter instances *)
(** [NonDominatedSorting().do(F, n_stop_if_ranked=n)] with moocore's ranks [pr F] *)
Definition default_nds (pr : fltmat -> list nat) (F : fltmat) (n : nat) : list (list nat) :=
  nds_do_fronts (length F) false (pr F) [] 0 false (Some n) None.

Lemma default_nds_ok m pr : (forall F, F <> [] -> rect m F -> mat_ok F -> is_pareto_rank F (pr F)) -> nds_ok m (default_nds pr).
Proof.
  intros Hpr F n Hne HR HM. specialize (Hpr F Hne HR HM). pose proof Hpr as (Hl & _).
  assert (length F <> 0) by (destruct F; [congruence|simpl; lia]).
  exists (fronts_of_ranks (pr F)). split; [now apply fronts_of_ranks_peeling|].
  unfold default_nds. rewrite <- Hl. rewrite nds_do_default by lia. cbv zeta.
  set (raw := fronts_of_ranks (pr F)).
  destruct (do_dominator_loop_spec raw n 0) as (H1 & H2 & H3).
  pose proof (do_dominator_loop_prefix raw n 0) as Hp. split; auto. split.
  - apply H3. unfold raw, fronts_of_ranks. rewrite Nat.add_comm. discriminate.
  - split; auto.
    destruct (Nat.lt_ge_cases (length (do_dominator_loop raw n 0)) (length raw)) as [H'|H'].
    + right. now apply H1.
    + left. destruct Hp as (r & Hr). assert (length r = 0).
      { apply (f_equal (@length _)) in Hr. rewrite app_length in Hr. lia. }
      destruct r; [now rewrite app_nil_r in Hr|discriminate].
Qed.

(** a ranking function that satisfies the contract of moocore.pareto_rank (exists: the contract is not vacuous) *)
Definition pr_ref (F : fltmat) : list nat :=
  match fast_nds (fun F => calc_domination_matrix F None f_zero) F with
  | Some fr => map Z.to_nat (rank_from_fronts 0 fr (length F))
  | None => []
  end.
Lemma pr_ref_ok m F : rect m F -> mat_ok F -> is_pareto_rank F (pr_ref F).
Proof.
  intros HR HM. unfold pr_ref. destruct (fast_nds_peeling m F HR HM) as (fr & -> & HP).
  pose proof HP as (HPP & HN & HF). pose proof (perm_seq_NoDup _ _ HPP) as HND.
  destruct (rank_from_fronts_spec 0 fr (length F) HND) as (R1 & R2 & R3).
  split; [now rewrite map_length|]. exists fr. split; auto. intros i k Hi.
  rewrite nth_map_def with (d' := 0%Z) by lia.
  assert (Hin : In i (concat fr)) by (now apply (perm_seq_In _ _ i HPP)). apply in_concat_nth in Hin as (r & Hr & Hir).
  rewrite (R1 r i Hr Hir Hi), Nat2Z.id. split; [intros <-; auto|]. intros Hk. eapply concat_NoDup_nth; eauto.
Qed.

(** ** randomized_argsort, method "numpy": for every permutation drawn the result is an argsort of the values *)
Lemma randomized_argsort_asc asort P keys : asort_ok asort -> Permutation P (seq 0 (length keys)) ->
  is_argsort fltb f_nan keys (randomized_argsort asort P false keys).
Proof. intros Ha HP. apply shuffled_argsort; auto. Qed.
Lemma randomized_argsort_desc asort P keys : asort_ok asort -> Permutation P (seq 0 (length keys)) ->
  is_argsort (fun x y => fltb y x) f_nan keys (randomized_argsort asort P true keys).
Proof. intros Ha HP. apply rev_argsort. now apply shuffled_argsort. Qed.

(** ** C13 *)
Lemma length_to_replacement {A} (d : A) pop off I : length (to_replacement d pop off I) = length pop.
Proof. unfold to_replacement. now rewrite map_length, seq_length. Qed.
Lemma nth_to_replacement {A} (d : A) pop off I k : k < length pop ->
  nth k (to_replacement d pop off I) d = if nth (length pop + k) I 0 <? nth k I 0 then nth k off d else nth k pop d.
Proof.
  intros Hk. unfold to_replacement. rewrite nth_map_def with (d' := 0) by now rewrite seq_length.
  rewrite seq_nth by auto. reflexivity.
Qed.

(** ** C14 *)
Lemma improvement_iff hc old new : (hc = false -> o_feas old = true /\ o_feas new = true) ->
  improvement hc old new = true <-> better new old.
Proof.
  intros H. unfold improvement, better. destruct hc.
  - destruct (o_feas old), (o_feas new), (fltb (o_cv new) (o_cv old)), (fltb (o_f new) (o_f old)); simpl; split; intros; auto;
      repeat match goal with H : _ \/ _ |- _ => destruct H | H : _ /\ _ |- _ => destruct H end; try discriminate; tauto.
  - destruct (H eq_refl) as [-> ->]. split; [intros E; right; right; auto|].
    intros [[_ E]|[[E _]|(_ & _ & E)]]; try discriminate; auto.
Qed.

Lemma better_trans a b c : better a b -> better b c -> better a c.
Proof.
  unfold better. intros [[H1 H2]|[(H1 & H2 & H3)|(H1 & H2 & H3)]] [[G1 G2]|[(G1 & G2 & G3)|(G1 & G2 & G3)]]; try congruence; auto.
  - right. left. repeat split; auto. eapply flt_trans; eauto.
  - right. right. repeat split; auto. eapply flt_trans; eauto.
Qed.
Lemma better_irrefl a : ~ better a a.
Proof. unfold better. intros [[H1 H2]|[(H1 & H2 & H3)|(H1 & H2 & H3)]]; try congruence; rewrite flt_irrefl in H3; discriminate. Qed.

Lemma fold_flags (isdup : list nat) : forall ret k, 
  nth k (fold_left (fun ret k => upd ret k false) isdup ret) false = nth k ret false && negb (existsb (Nat.eqb k) isdup).
Proof.
  induction isdup as [|x l IH]; intros ret k; cbn [fold_left existsb]; [now rewrite andb_true_r|].
  rewrite IH. destruct (Nat.eqb_spec k x) as [->|Hne].
  - cbn [orb]. rewrite andb_false_r. destruct (Nat.lt_ge_cases x (length ret)).
    + rewrite nth_upd_eq by auto. reflexivity.
    + rewrite nth_overflow by (rewrite length_upd; auto). reflexivity.
  - rewrite nth_upd_neq by auto. reflexivity.
Qed.

Lemma existsb_eqb k l : existsb (Nat.eqb k) l = true <-> In k l.
Proof.
  rewrite existsb_exists. split.
  - intros (x & Hx & E). apply Nat.eqb_eq in E. now subst.
  - intros H. exists k. split; auto. apply Nat.eqb_refl.
Qed.

Lemma length_improvement {A} (d : A) view hc pop off dup : length (improvement_replacement d view hc pop off dup) = length pop.
Proof. unfold improvement_replacement. destruct (_ =? _); auto. now rewrite map_length, seq_length. Qed.

Lemma improvement_slot {A} (d : A) view hc pop off dup k : length off = length pop -> k < length pop ->
  nth k (improvement_replacement d view hc pop off dup) d =
    if improvement hc (view (nth k pop d)) (view (nth k off d)) && negb (existsb (Nat.eqb k) dup) then nth k off d else nth k pop d.
Proof.
  intros Hl Hk. unfold improvement_replacement. destruct (Nat.eqb_spec (length off) 0); [lia|].
  rewrite nth_map_def with (d' := 0) by now rewrite seq_length. rewrite seq_nth by auto. cbn [plus].
  unfold improvement_flags. rewrite fold_flags. rewrite nth_map_def with (d' := 0) by now rewrite seq_length.
  now rewrite seq_nth by auto.
Qed.

(** ** C15 *)
Section Q15.
  Local Open Scope Q_scope.
  Lemma qmax_ge l : forall a x, (x = a \/ In x l) -> x <= qmax a l.
  Proof.
    induction l as [|y l IH]; intros a x H; simpl in *.
    - destruct H as [->|[]]. lra.
    - destruct (Qle_bool a y) eqn:E.
      + apply Qle_bool_iff in E. destruct H as [->|[->|H]]; [|apply IH; auto|apply IH; auto].
        eapply Qle_trans; [exact E|apply IH; auto].
      + assert (~ a <= y) by (intros H'; apply Qle_bool_iff in H'; congruence). destruct H as [->|[->|H]]; [apply IH; auto| |apply IH; auto].
        apply Qle_trans with a; [lra|apply IH; auto].
  Qed.
  Lemma q_max_ge l x : In x l -> x <= q_max_list l.
  Proof. destruct l as [|a l]; intros H; [destruct H|]. apply qmax_ge. simpl in H. intuition. Qed.
End Q15.

Lemma nth_parameter_less f cv i : i < length f -> length f = length cv ->
  nth i (parameter_less f cv) 0%Q = if Qle_bool (nth i cv 0%Q) 0 then nth i f 0%Q else (q_max_list f + nth i cv 0)%Q.
Proof. intros H1 H2. unfold parameter_less. rewrite nth_map2 with (da := 0%Q) (db := 0%Q); auto; lia. Qed.
