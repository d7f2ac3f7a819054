(** * C34 (budgets) and C38 (ask/tell, counters, history, archive) over the loop of core/algorithm.py.
    The concrete algorithm, the problem, the evaluator, the archive and the callback are arbitrary ([hooks]). *)
From Coq Require Import List Arith Bool QArith Qfield Lia.
From Verif Require Import M_Termination P_Termination M_Algorithm P_Algorithm.
Import ListNotations.
Local Open Scope nat_scope.

Lemma ratio_reached n k : Qle_bool 1 (inject_Z (Z.of_nat n) / inject_Z (Z.of_nat (S k))) = (S k <=? n).
Proof.
  destruct (S k <=? n) eqn:E.
  - apply Nat.leb_le in E. apply Qle_bool_iff. apply Qle_shift_div_l.
    + unfold Qlt, inject_Z; simpl; lia.
    + rewrite Qmult_1_l. rewrite <- Zle_Qle. lia.
  - apply Nat.leb_gt in E. destruct (Qle_bool 1 _) eqn:E2; auto. apply Qle_bool_iff in E2.
    assert (Hx : (inject_Z (Z.of_nat n) / inject_Z (Z.of_nat (S k)) < 1)%Q).
    { apply Qlt_shift_div_r; [unfold Qlt, inject_Z; simpl; lia|]. rewrite Qmult_1_l. rewrite <- Zlt_Qlt. lia. }
    exfalso. apply (Qlt_irrefl 1). eapply Qle_lt_trans; eauto.
Qed.
Lemma ratio_nonneg n k : Qle_bool 0 (inject_Z (Z.of_nat n) / inject_Z (Z.of_nat (S k))) = true.
Proof. apply Qle_bool_iff. apply Qle_shift_div_l; [unfold Qlt, inject_Z; simpl; lia|]. rewrite Qmult_0_l. unfold Qle, inject_Z; simpl; lia. Qed.

Lemma last_nth {A} (l : list A) d : last l d = nth (length l - 1) l d.
Proof.
  induction l as [|x l IH]; [reflexivity|]. destruct l as [|y l]; [reflexivity|]. change (last (x :: y :: l) d) with (last (y :: l) d). rewrite IH.
  replace (length (x :: y :: l) - 1) with (S (length (y :: l) - 1)) by (simpl; lia). reflexivity.
Qed.
Section B.
  Context {O S : Type} (o_gen o_eval : O -> nat) (step : S -> O -> option (S * Q)).
  Notation updates := (updates o_gen o_eval step).
  Notation update := (update o_gen o_eval step).
  (** the state of a budget criterion after a sequence of updates *)
  Lemma budget_updates (b : limit -> body S) (cnt : O -> nat) k : 
    (forall p o, update (Crit false p (b (Limit (Datatypes.S k)))) o = Some (Crit false (inject_Z (Z.of_nat (cnt o)) / inject_Z (Z.of_nat (Datatypes.S k))) (b (Limit (Datatypes.S k))))) ->
    forall os p, exists q, updates (Crit false p (b (Limit (Datatypes.S k)))) os = Some (Crit false q (b (Limit (Datatypes.S k)))) /\
      (os = [] -> q = p) /\ (forall d, os <> [] -> Qle_bool 1 q = (Datatypes.S k <=? cnt (last os d))).
  Proof.
    intros HU os. induction os as [|o os IH]; intros p.
    - exists p. simpl. split; auto. split; auto. intros d Hd. now destruct Hd.
    - cbn [M_Termination.updates]. rewrite HU. destruct (IH (inject_Z (Z.of_nat (cnt o)) / inject_Z (Z.of_nat (Datatypes.S k)))%Q) as (q & E1 & E2 & E3).
      exists q. split; auto. split; [discriminate|]. intros d _. destruct os as [|o2 os].
      + rewrite E2 by auto. apply ratio_reached.
      + rewrite (E3 d) by discriminate. reflexivity.
  Qed.
  Lemma update_max_gen k p o : update (Crit false p (MaxGen (Limit (Datatypes.S k)))) o = Some (Crit false (inject_Z (Z.of_nat (o_gen o)) / inject_Z (Z.of_nat (Datatypes.S k))) (MaxGen (Limit (Datatypes.S k)))).
  Proof. cbn [M_Termination.update M_Termination.update_body ratio option_map]. now rewrite ratio_nonneg. Qed.
  Lemma update_max_eval k p o : update (Crit false p (MaxEval (Limit (Datatypes.S k)))) o = Some (Crit false (inject_Z (Z.of_nat (o_eval o)) / inject_Z (Z.of_nat (Datatypes.S k))) (MaxEval (Limit (Datatypes.S k)))).
  Proof. cbn [M_Termination.update M_Termination.update_body ratio option_map]. now rewrite ratio_nonneg. Qed.
End B.

Lemma tinv_start (I P Ar S : Type) (H : hooks I P Ar) (step : S -> @obs I P -> option (S * Q)) i t ar save : tinv H step t (start i t ar save).
Proof. split; [apply start_wf|]. split; [reflexivity|]. cbn [start seen length]. lia. Qed.

(** C34 for an arbitrary criterion [t0]: a run in which nothing forces the termination ends after the first iteration with which [t0],
    updated with what the completed iterations looked like, has terminated; iterations are numbered 1, 2, ... *)
Theorem C34_any_termination : forall (I P Ar S : Type) (H : hooks I P Ar) (step : S -> @obs I P -> option (S * Q)) i t0 ar save fuel a calls,
  no_force H -> run H step fuel (start i t0 ar save) = Some (a, calls) ->
  (exists t, updates ob_gen (o_eval H) step t0 (seen a) = Some t /\ has_terminated t = true) /\
  (forall k t, k < length (seen a) -> updates ob_gen (o_eval H) step t0 (firstn k (seen a)) = Some t -> has_terminated t = false) /\
  map ob_gen (seen a) = seq 1 (length (seen a)) /\
  (completes H -> calls = length (seen a)).
Proof.
  intros I P Ar S H step i t0 ar save fuel a calls NF E.
  destruct (run_tinv H step t0 fuel NF _ _ _ (tinv_start _ _ _ _ H step i t0 ar save) E) as (R1 & R2 & (ex & R3 & R5) & R4).
  { cbn [start seen length]. lia. }
  destruct R1 as (W & U & G). split; [exists (term a); auto|]. split; auto. split.
  - apply nth_ext with (d := 0) (d' := 0); [now rewrite map_length, seq_length|]. rewrite map_length. intros k Hk.
    rewrite seq_nth by auto. rewrite (nth_indep _ 0 (@ob_gen I P {| ob_gen := 0; ob_inner := inner a; ob_opt := None |})) by (now rewrite map_length).
    rewrite map_nth, G by auto. lia.
  - intros C. cbn [start seen] in R3. simpl in R3. rewrite R3. symmetry. auto.
Qed.
Print Assumptions C34_any_termination.

(** C34, generations: a limit of N >= 1 generations, nothing forcing the termination and no exception:
    whenever the run ends, exactly N iterations were completed.  This includes loop-wise algorithms (several calls per iteration). *)
Theorem C34_generations : forall (I P Ar S : Type) (H : hooks I P Ar) (step : S -> @obs I P -> option (S * Q)) i N ar save fuel a calls,
  no_force H -> 1 <= N -> run H step fuel (start i (new (MaxGen (Limit N))) ar save) = Some (a, calls) ->
  length (seen a) = N /\ n_iter a = N + 1 /\ (completes H -> calls = N).
Proof.
  intros I P Ar S H step i N ar save fuel a calls NF HN E. destruct N as [|k]; [lia|].
  destruct (run_tinv H step _ fuel NF _ _ _ (tinv_start _ _ _ _ H step i (new (MaxGen (Limit (Datatypes.S k)))) ar save) E) as (R1 & R2 & (ex & R3 & R5) & R4).
  { cbn [start seen length]. lia. }
  destruct R1 as (W & U & G). set (d := {| ob_gen := 0; ob_inner := inner a; ob_opt := None |}) in *.
  assert (Hpre : forall m, m <= length (seen a) -> 1 <= m -> exists q, updates ob_gen (o_eval H) step (new (MaxGen (Limit (Datatypes.S k)))) (firstn m (seen a)) = Some q /\ has_terminated q = (Datatypes.S k <=? m)).
  { intros m Hm H1. destruct (budget_updates ob_gen (o_eval H) step MaxGen ob_gen k (update_max_gen _ _ _ k) (firstn m (seen a)) 0%Q) as (q & E1 & _ & E3).
    exists (Crit false q (MaxGen (Limit (Datatypes.S k)))). split; auto. unfold has_terminated; cbn [perc]. rewrite (E3 d).
    - f_equal. destruct m as [|m]; [lia|]. 
      assert (HL : last (firstn (Datatypes.S m) (seen a)) d = nth m (seen a) d).
      { clear - Hm. revert Hm. generalize (seen a). induction m as [|m IH]; intros l Hl; destruct l as [|x l]; simpl in Hl; try lia; auto.
        change (firstn (Datatypes.S (Datatypes.S m)) (x :: l)) with (x :: firstn (Datatypes.S m) l).
        cbn [nth]. rewrite <- IH by lia. destruct l; [simpl in Hl; lia|]. reflexivity. }
      rewrite HL, G by lia. lia.
    - intros EQ. apply (f_equal (@length _)) in EQ. rewrite firstn_length_le in EQ by auto. simpl in EQ. lia. }
  assert (Hne : seen a <> []).
  { intros EQ. rewrite EQ in U. cbn in U. injection U as U. rewrite <- U in R2. cbn in R2. discriminate. }
  assert (Hpos : 1 <= length (seen a)) by (destruct (seen a); [congruence|simpl; lia]).
  assert (HLen : length (seen a) = Datatypes.S k).
  { destruct (Hpre (length (seen a)) (le_n _) Hpos) as (q & E1 & E2). rewrite firstn_all, U in E1. injection E1 as <-. rewrite R2 in E2.
    symmetry in E2. apply Nat.leb_le in E2. destruct (Nat.eq_dec (length (seen a)) (Datatypes.S k)) as [|Hx]; auto.
    destruct (Hpre (Datatypes.S k) ltac:(lia) ltac:(lia)) as (q' & E3 & E4). specialize (R4 (Datatypes.S k) q' ltac:(lia) E3).
    rewrite Nat.leb_refl in E4. congruence. }
  split; auto. split.
  - destruct W as [W1 W2]. destruct (is_init a) eqn:EI; [rewrite W2 by auto; lia|]. destruct (W1 eq_refl) as [W3 _]. congruence.
  - intros C. rewrite <- (R5 C), <- HLen, R3. reflexivity.
Qed.
Print Assumptions C34_generations.

(** ... and the run does end, without exception, after exactly N calls of [next] *)
Theorem C34_generations_total : forall (I P Ar S : Type) (H : hooks I P Ar) (step : S -> @obs I P -> option (S * Q)) i N ar save,
  no_force H -> completes H -> 1 <= N ->
  exists a, run H step N (start i (new (MaxGen (Limit N))) ar save) = Some (a, N) /\ length (seen a) = N.
Proof.
  intros I P Ar S H step i N ar save NF C HN. destruct N as [|k]; [lia|]. clear HN.
  set (t0 := new (MaxGen (Limit (Datatypes.S k)))).
  assert (HT : forall t, exists q, updates ob_gen (o_eval H) step (S := S) t0 t = Some (Crit false q (MaxGen (Limit (Datatypes.S k))))).
  { intros t. destruct (budget_updates ob_gen (o_eval H) step MaxGen ob_gen k (update_max_gen _ _ _ k) t 0%Q) as (q & E1 & _). exists q. exact E1. }
  (* one call never fails *)
  assert (Hnext : forall a, tinv H step t0 a -> exists a', next H step a = Some a').
  { intros a (W & U & _). destruct (HT (seen a)) as [q Hq]. rewrite U in Hq. injection Hq as Hq.
    unfold next. destruct (infill H a) as [a1 p] eqn:E1. destruct (infill_spec H a a1 p E1 W) as (f & Hf & I1 & I2 & I3 & I4 & I5 & I6 & I7 & I8 & I9).
    rewrite (Hf NF) in I5.
    assert (Hadv : forall b p, term b = Crit false q (MaxGen (Limit (Datatypes.S k))) -> exists r, advance H step b p = Some r).
    { clear E1. intros b p' Hb. revert p'. clear - NF Hb. intros p. unfold advance. cbn [is_init n_iter inner opt term archive save_history history seen told].
      assert (Hpost : forall c : alg I P Ar S, term c = Crit false q (MaxGen (Limit (Datatypes.S k))) -> exists r, post_advance H step c = Some r).
      { intros c Hc. unfold post_advance. rewrite Hc, update_max_gen. eauto. }
      destruct NF as (_ & _ & F3 & F4 & _).
      destruct (is_init b).
      - specialize (F4 (n_iter b) (set_off H (inner b) p) p). destruct (advance_ H _ _ _) as [[i val] f]. simpl in F4. subst f.
        destruct val as [[|]|]; try (eexists; reflexivity).
        all: match goal with |- context [post_advance _ _ ?x] => destruct (Hpost x Hb) as [r Hr]; rewrite Hr end; eexists; reflexivity.
      - cbn [inner]. specialize (F3 1 (set_pop H (set_off H (inner b) p) p) p). destruct (init_advance H _ _ _) as [i f]. simpl in F3. subst f.
        match goal with |- context [post_advance _ _ ?x] => destruct (Hpost x Hb) as [r Hr]; rewrite Hr end; eexists; reflexivity. }
    destruct p as [p|].
    - destruct (Hadv (with_inner a1 (evaluate H (inner a1) p) false) (Some p)) as [r Hr]; [cbn; congruence|]. rewrite Hr. eexists; reflexivity.
    - destruct (Hadv a1 None) as [r Hr]; [congruence|]. rewrite Hr. eexists; reflexivity. }
  (* m more calls *)
  assert (Hrun : forall m a, tinv H step t0 a -> length (seen a) + m = Datatypes.S k -> exists a', run H step m a = Some (a', m) /\ length (seen a') = Datatypes.S k).
  { induction m as [|m IH]; intros a Ta Hlen.
    - exists a. cbn [run]. unfold has_next.
      destruct Ta as (W & U & G). destruct (budget_updates ob_gen (o_eval H) step MaxGen ob_gen k (update_max_gen _ _ _ k) (seen a) 0%Q) as (q & E1 & _ & E3).
      change (Crit false 0 (MaxGen (Limit (Datatypes.S k)))) with (t0) in E1. rewrite U in E1. injection E1 as E1. rewrite E1. unfold has_terminated; cbn [perc].
      set (d := {| ob_gen := 0; ob_inner := inner a; ob_opt := None |}) in *.
      assert (Hl : last (seen a) d = nth k (seen a) d).
      { clear - Hlen. rewrite Nat.add_0_r in Hlen. revert Hlen. generalize (seen a). generalize k. clear. induction k as [|k IH]; intros l Hl; destruct l as [|x l]; simpl in Hl; try lia.
        - destruct l; [auto|simpl in Hl; lia].
        - cbn [nth]. rewrite <- IH by lia. destruct l; [simpl in Hl; lia|reflexivity]. }
      rewrite (E3 d), Hl, G by (try lia; intros EQ; rewrite EQ in Hlen; simpl in Hlen; lia).
      replace (Datatypes.S k <=? k + 1) with true by (symmetry; apply Nat.leb_le; lia). cbn [negb]. split; auto. lia.
    - cbn [run]. unfold has_next.
      assert (Hnt : has_terminated (term a) = false).
      { destruct Ta as (W & U & G). destruct (budget_updates ob_gen (o_eval H) step MaxGen ob_gen k (update_max_gen _ _ _ k) (seen a) 0%Q) as (q & E1 & E2 & E3).
        change (Crit false 0 (MaxGen (Limit (Datatypes.S k)))) with (t0) in E1. rewrite U in E1. injection E1 as E1. rewrite E1. unfold has_terminated; cbn [perc].
        set (d := {| ob_gen := 0; ob_inner := inner a; ob_opt := None |}) in *.
        destruct (seen a) as [|x l] eqn:ES; [rewrite E2 by auto; reflexivity|].
        rewrite (E3 d) by discriminate. apply Nat.leb_gt.
        assert (Hl : last (x :: l) d = nth (length l) (x :: l) d).
        { clear. rewrite last_nth. f_equal. simpl. lia. }
        rewrite Hl, G by (simpl; lia). simpl in Hlen. lia. }
      rewrite Hnt. cbn [negb]. destruct (Hnext a Ta) as [a1 Ha1]. rewrite Ha1.
      destruct (tinv_next H step t0 a a1 NF Ta Ha1) as [T1 [[ob Hob]|(NC & _)]]; [|contradiction].
      destruct (IH a1 T1) as (a2 & E1 & E2). { rewrite Hob, app_length. simpl. lia. }
      exists a2. rewrite E1. cbn [option_map fst snd]. split; auto. repeat f_equal. lia. }
  destruct (Hrun (Datatypes.S k) (start i t0 ar save) (tinv_start _ _ _ _ H step i t0 ar save)) as (a & E1 & E2); [reflexivity|].
  exists a. auto.
Qed.
Print Assumptions C34_generations_total.

(** C34, evaluations: when a run limited to N evaluations ends, the counter has reached N in the last iteration and in no earlier one;
    hence the excess over the budget is less than the number of evaluations of the last iteration. *)
Theorem C34_evaluations : forall (I P Ar S : Type) (H : hooks I P Ar) (step : S -> @obs I P -> option (S * Q)) i N ar save fuel a calls,
  no_force H -> 1 <= N -> run H step fuel (start i (new (MaxEval (Limit N))) ar save) = Some (a, calls) ->
  let counts := map (fun ob => n_evals H (ob_inner ob)) (seen a) in
  exists earlier final, counts = earlier ++ [final] /\ N <= final /\ (forall c, In c earlier -> c < N) /\
    final - N < final - last earlier 0.
Proof.
  intros I P Ar S H step i N ar save fuel a calls NF HN E counts. destruct N as [|k]; [lia|].
  destruct (run_tinv H step _ fuel NF _ _ _ (tinv_start _ _ _ _ H step i (new (MaxEval (Limit (Datatypes.S k)))) ar save) E) as (R1 & R2 & (ex & R3 & R5) & R4).
  { cbn [start seen length]. lia. }
  destruct R1 as (W & U & G).
  destruct (exists_last (l := seen a)) as (l & x & EL).
  { intros EQ. rewrite EQ in U. cbn in U. injection U as U. rewrite <- U in R2. cbn in R2. discriminate. }
  assert (HB := fun os => budget_updates ob_gen (o_eval H) step MaxEval (o_eval H) k (update_max_eval _ _ _ k) os 0%Q).
  change (Crit false 0 (MaxEval (Limit (Datatypes.S k)))) with (@new S (MaxEval (Limit (Datatypes.S k)))) in HB.
  assert (Hfin : Datatypes.S k <= o_eval H x).
  { destruct (HB (seen a)) as (q & E1 & _ & E3). rewrite U in E1. injection E1 as E1. rewrite E1 in R2. unfold has_terminated in R2; cbn [perc] in R2.
    rewrite (E3 x), EL, last_last in R2 by (rewrite EL; intros EQ; destruct l; discriminate). now apply Nat.leb_le. }
  assert (Hear : forall c, In c (map (fun ob => n_evals H (ob_inner ob)) l) -> c < Datatypes.S k).
  { intros c Hc. apply in_map_iff in Hc. destruct Hc as (ob & <- & Hin). apply in_split in Hin. destruct Hin as (l1 & l2 & El).
    destruct (HB (l1 ++ [ob])) as (q & E1 & _ & E3).
    assert (Hf : firstn (length l1 + 1) (seen a) = l1 ++ [ob]).
    { rewrite EL, El. rewrite <- app_assoc. change ((ob :: l2) ++ [x]) with ([ob] ++ l2 ++ [x]). rewrite app_assoc.
      rewrite firstn_app. replace (length l1 + 1 - length (l1 ++ [ob])) with 0 by (rewrite app_length; simpl; lia). simpl. rewrite app_nil_r.
      apply firstn_all2. rewrite app_length; simpl; lia. }
    rewrite <- Hf in E1. specialize (R4 (length l1 + 1) _ ltac:(rewrite EL, El, !app_length; simpl; lia) E1).
    unfold has_terminated in R4; cbn [perc] in R4. rewrite (E3 x), last_last in R4 by (intros EQ; destruct l1; discriminate).
    apply Nat.leb_gt in R4. exact R4. }
  exists (map (fun ob => n_evals H (ob_inner ob)) l), (o_eval H x). unfold counts. rewrite EL, map_app. split; [reflexivity|]. split; [auto|]. split; [auto|].
  assert (last (map (fun ob => n_evals H (ob_inner ob)) l) 0 < Datatypes.S k); [|lia].
  clear EL. destruct l as [|y l _] using rev_ind; [simpl; lia|]. rewrite map_app. cbn [map]. rewrite last_last. apply Hear. rewrite map_app. apply in_or_app. right. left. auto.
Qed.
Print Assumptions C34_evaluations.

(** C34, forcing: once the termination has been forced ([termination.terminate()]), the next completed iteration is the last one;
    nothing else about the criterion matters *)
Theorem C34_forced : forall (I P Ar S : Type) (H : hooks I P Ar) (step : S -> @obs I P -> option (S * Q)) (a a' : alg I P Ar S),
  wf a -> force (term a) = true -> next H step a = Some a' -> seen a' <> seen a -> has_next a' = false.
Proof.
  intros I P Ar S H step a a' W F E Hs. destruct (next_spec H step a a' W E) as (f & g & _ & _ & _ & _ & HC & _).
  cbv zeta in HC. destruct HC as [HC|[_ HC]]; [|destruct HC as (_ & C2 & _); congruence].
  destruct HC as (ob & cf & t' & _ & _ & _ & _ & P5 & P6 & _).
  assert (HF : exists p b, (if g then terminate (if f then terminate (term a) else term a) else if f then terminate (term a) else term a) = Crit true p b).
  { destruct (term a) as [fo p b]. cbn in F. subst fo. exists p, b. destruct f, g; reflexivity. }
  destruct HF as (p & b & HF). rewrite HF in P5. cbn [update] in P5. injection P5 as <-. unfold has_next. rewrite P6. destruct cf; reflexivity.
Qed.
Print Assumptions C34_forced.

(** a callback that forces the termination does so too late for its own iteration: it is the next completed iteration that ends the run *)
Theorem C34_callback_one_more : forall (I P Ar S : Type) (H : hooks I P Ar) (step : S -> @obs I P -> option (S * Q)) (a : alg I P Ar S) b a',
  post_advance H step a = Some a' -> callback H (n_iter a) (inner a) = b ->
  exists t, update ob_gen (o_eval H) step (term a) {| ob_gen := n_iter a; ob_inner := inner a; ob_opt := set_optimum H (inner a) |} = Some t /\
    has_next a' = negb (has_terminated t) /\ (b = true -> force (term a') = true).
Proof.
  intros I P Ar S H step a b a' E Hb. unfold post_advance in E. cbv zeta in E. destruct (update _ _ _ _ _) as [t|] eqn:EU; [|discriminate].
  injection E as <-. exists t. split; [reflexivity|]. unfold has_next; cbn [term]. rewrite Hb. split.
  - destruct b; [destruct t|]; reflexivity.
  - intros ->. destruct t; reflexivity.
Qed.
Print Assumptions C34_callback_one_more.

(** ** C38 *)
(** one iteration driven from outside: ask, evaluate with the algorithm's evaluator, tell *)
Fixpoint drive {I P Ar S} (H : hooks I P Ar) (step : S -> @obs I P -> option (S * Q)) (sched : list bool) (a : alg I P Ar S) : option (alg I P Ar S) :=
  match sched with
  | [] => Some a
  | closed :: sched => match (if closed then next H step a else option_map fst (ask_eval_tell H step a)) with
                       | None => None
                       | Some a => drive H step sched a
                       end
  end.
(** C38: any mixture of [next] and ask/evaluate/tell leads to the state of that many calls of [next], including the exceptions raised *)
Theorem C38_ask_tell : forall (I P Ar S : Type) (H : hooks I P Ar) (step : S -> @obs I P -> option (S * Q)) sched (a : alg I P Ar S),
  drive H step sched a = nexts H step (length sched) a.
Proof.
  intros I P Ar S H step sched. induction sched as [|c sched IH]; intros a; [reflexivity|]. cbn [drive length nexts].
  assert (HE : (if c then next H step a else option_map fst (ask_eval_tell H step a)) = next H step a).
  { destruct c; [reflexivity|]. unfold ask_eval_tell, next. destruct (infill H a) as [a1 [p|]]; reflexivity. }
  rewrite HE. destruct (next H step a); auto.
Qed.
Print Assumptions C38_ask_tell.

(** C38: after any number of calls of [next] from a fresh algorithm: the iteration counter is one more than the number of completed
    iterations; these are numbered 1, 2, ...; the optimum is the one computed from the state of the last completed iteration; with
    [save_history] there is one entry per completed iteration, recording that iteration's number, state and optimum, without it none;
    each call handed exactly one set of infills to the algorithm; the archive is the initial one with exactly those sets added in order. *)
Theorem C38_invariant : forall (I P Ar S : Type) (H : hooks I P Ar) (step : S -> @obs I P -> option (S * Q)) i t ar save k a,
  nexts H step k (start i t ar save) = Some a ->
  length (told a) = k /\
  (0 < k -> n_iter a = length (seen a) + 1) /\ length (seen a) <= k /\ (completes H -> length (seen a) = k) /\
  map ob_gen (seen a) = seq 1 (length (seen a)) /\
  (forall ob, In ob (seen a) -> ob_opt ob = set_optimum H (ob_inner ob)) /\
  opt a = match rev (seen a) with [] => None | ob :: _ => ob_opt ob end /\
  map (fun s => (sn_iter s, sn_inner s, sn_opt s)) (history a) = (if save then map (fun ob => (ob_gen ob, ob_inner ob, ob_opt ob)) (seen a) else []) /\
  archive a = fold_left (arch_step H) (told a) ar.
Proof.
  intros I P Ar S H step i t ar save k.
  set (inv := fun k (a : alg I P Ar S) => wf a /\ save_history a = save /\ (is_init a = false -> k = 0 /\ opt a = None) /\
    length (told a) = k /\
    length (seen a) <= k /\ (completes H -> length (seen a) = k) /\
    map ob_gen (seen a) = seq 1 (length (seen a)) /\
    (forall ob, In ob (seen a) -> ob_opt ob = set_optimum H (ob_inner ob)) /\
    opt a = match rev (seen a) with [] => None | ob :: _ => ob_opt ob end /\
    map (fun s => (sn_iter s, sn_inner s, sn_opt s)) (history a) = (if save then map (fun ob => (ob_gen ob, ob_inner ob, ob_opt ob)) (seen a) else []) /\
    archive a = fold_left (arch_step H) (told a) ar).
  assert (Hstep : forall k a a', inv k a -> next H step a = Some a' -> inv (k + 1) a').
  { clear k. intros k a a' (W & S1 & S2 & S3 & S4 & S5 & S6 & S7 & S8 & S9 & S10) E.
    destruct (next_spec H step a a' W E) as (f & g & _ & W' & I1 & I2 & HC & infills & I3 & I4). cbv zeta in HC.
    split; [auto|]. split; [congruence|]. split; [congruence|]. split; [rewrite I3, app_length; simpl; lia|].
    assert (HAr : archive a' = fold_left (arch_step H) (told a') ar) by (rewrite I3, I4, fold_left_app, S10; reflexivity).
    destruct HC as [HC|[NC HC]].
    - destruct HC as (ob & cf & t' & P1 & P2 & P3 & P4 & P5 & P6 & P7 & P8 & P9).
      rewrite P4, P9, !map_app, !app_length, rev_app_distr, S1. cbn [map length rev app].
      split; [lia|]. split; [intros C; rewrite S5 by auto; lia|]. split; [rewrite seq_app, S6, P1; cbn [seq]; idtac; f_equal; f_equal; lia|].
      split; [intros o Ho; apply in_app_or in Ho; destruct Ho as [Ho|[<-|[]]]; [auto|congruence]|]. split; [auto|].
      split; [|auto]. destruct save; [rewrite map_app, S9; cbn [map]; auto|auto].
    - destruct HC as (C1 & C2 & C3 & C4 & C5). rewrite C2, C4, C5. split; [lia|]. split; [intros; contradiction|]. repeat (split; [auto|]). auto. }
  assert (Hall : forall k m a a', inv m a -> nexts H step k a = Some a' -> inv (m + k) a').
  { clear k. induction k as [|k IH]; intros m a a' Hi E; cbn [nexts] in E.
    - injection E as <-. now rewrite Nat.add_0_r.
    - destruct (next H step a) as [a1|] eqn:EN; [|discriminate]. rewrite <- (Nat.add_1_l k), Nat.add_assoc. apply (IH (m + 1) a1 a'); auto. now apply (Hstep m a). }
  intros a E. assert (HI : inv (0 + k) a).
  { apply (Hall k 0 (start i t ar save) a); auto. unfold inv, start; cbn. split; [apply start_wf|]. repeat (split; [now auto|]). split; [now destruct save|reflexivity]. }
  destruct HI as (W & S1 & S2 & S3 & S4 & S5 & S6 & S7 & S8 & S9 & S10).
  split; [auto|]. split.
  { intros Hk. destruct W as [W1 W2]. apply W2. destruct (is_init a) eqn:EI; auto. destruct (S2 eq_refl) as [HH _]. simpl in HH. lia. }
  repeat (split; [auto|]). auto.
Qed.
Print Assumptions C38_invariant.

(** C38: the solutions handed out by [ask] carry the number of the iteration in which they are told (when that iteration completes) *)
Theorem C38_tagged : forall (I P Ar S : Type) (H : hooks I P Ar) (step : S -> @obs I P -> option (S * Q)) (a a1 a2 : alg I P Ar S) p ev r,
  wf a -> infill H a = (a1, Some p) -> advance H step (with_inner a1 ev false) (Some p) = Some (a2, r) -> completes H ->
  exists i ob, inner a1 = tag H i p (ob_gen ob) /\ seen a2 = seen a ++ [ob].
Proof.
  intros I P Ar S H step a a1 a2 p ev r W E1 E2 HC. destruct W as [W1 W2].
  assert (HT : (exists i, inner a1 = tag H i p (length (seen a) + 1)) /\ seen a1 = seen a /\ (is_init a1 = true -> n_iter a1 = length (seen a1) + 1) /\ (is_init a1 = false -> seen a1 = [] /\ history a1 = [])).
  { unfold infill in E1. destruct (is_init a) eqn:EI; cbn [is_init n_iter inner] in E1; rewrite ?EI in E1.
    - destruct (infill_ H (n_iter a) (inner a)) as [[i q] f]. destruct q as [q|]; [|discriminate]. injection E1 as <- <-. cbn. rewrite (W2 eq_refl), EI. repeat split; eauto; discriminate.
    - destruct (init_infill H 1 (initialize H (inner a))) as [[i q] f]. destruct q as [q|]; [|discriminate]. injection E1 as <- <-. cbn. destruct (W1 eq_refl) as [-> ->]. cbn. repeat split; eauto; discriminate. }
  destruct HT as ((i & Hi) & Hs & Hn & Hh). apply advance_spec in E2; cbn; auto. destruct E2 as (f & _ & _ & _ & _ & [HD|[HD _]] & _); [|contradiction].
  destruct HD as (ob & cf & t' & P1 & _ & _ & P4 & _). cbn in P1, P4. exists i, ob. rewrite P1, P4, Hs. auto.
Qed.
Print Assumptions C38_tagged.

(** what [tell] returns: while there is a next iteration the current optimum, afterwards the result ... *)
Theorem C38_tell_returns : forall (I P Ar S : Type) (H : hooks I P Ar) (step : S -> @obs I P -> option (S * Q)) (a : alg I P Ar S) infills a' r,
  wf a -> advance H step a infills = Some (a', r) ->
  (has_next a' = true -> r = CurrentOpt (opt a')) /\
  (has_next a' = false -> exists ar, r = Result (opt a') ar /\ (archive a' = match ar, infills with Some x, Some p => Some (arch_add H x p) | _, _ => ar end)).
Proof.
  intros I P Ar S H step a infills a' r W E. apply advance_spec in E; try apply W.
  destruct E as (f & _ & _ & _ & _ & _ & _ & HA & HR). unfold has_next. destruct (has_terminated (term a')); cbn [negb]; split; try discriminate; auto.
  intros _. exists (archive a). split; auto.
Qed.
Print Assumptions C38_tell_returns.

(** a small algorithm: the inner state is (evaluations so far, population); each iteration evaluates [p] points *)
Definition demo (cb : nat -> bool) : hooks (nat * option nat) nat (list nat) :=
  {| init_infill := fun n i => (i, Some 5, false); infill_ := fun n i => (i, Some n, false);
     init_advance := fun _ i p => (i, false); advance_ := fun _ i p => (i, None, false);
     evaluate := fun i p => (fst i + p, snd i); n_evals := fst; tag := fun i _ _ => i; initialize := fun i => (fst i, None);
     set_pop := fun i p => (fst i, p); set_off := fun i _ => i; set_optimum := snd; arch_add := fun ar p => ar ++ [p]; callback := fun n _ => cb n |}.
Definition no_step (s : unit) (o : @obs (nat * option nat) nat) : option (unit * Q) := None.

Example C38_tagged_case : exists a1 p a2 r, infill (demo (fun _ => false)) (start (0, None) (new (MaxGen (Limit 3))) (Some []) false : alg (nat * option nat) nat (list nat) unit) = (a1, Some p) /\
  advance (demo (fun _ => false)) no_step (with_inner a1 (5, None) false) (Some p) = Some (a2, r) /\ completes (demo (fun _ => false)) /\ map ob_gen (seen a2) = [1].
Proof. do 4 eexists. split; [reflexivity|]. split; [vm_compute; reflexivity|]. split; [intros n i p; cbn; discriminate|reflexivity]. Qed.

(** ... but that result does not contain the last told solutions in its archive, although the algorithm's own archive does:
    the clause "the archive receives exactly the told solutions" fails for the archive of the returned result *)
Theorem C38_result_archive_refuted :
  ~ (forall (I P Ar S : Type) (H : hooks I P Ar) (step : S -> @obs I P -> option (S * Q)) i t ar save k (a a' : alg I P Ar S) r_opt r_ar,
       nexts H step k (start i t ar save) = Some a -> ask_eval_tell H step a = Some (a', Result r_opt r_ar) ->
       r_ar = fold_left (arch_step H) (told a') ar).
Proof.
  intros HH. pose (a := start (0, None) (new (MaxGen (Limit 1))) (Some []) false : alg (nat * option nat) nat (list nat) unit).
  assert (E : exists a' o ar, ask_eval_tell (demo (fun _ => false)) no_step a = Some (a', Result o ar) /\
              ar <> fold_left (arch_step (demo (fun _ => false))) (told a') (Some [])).
  { vm_compute. eexists _, _, _. split; [reflexivity|]. vm_compute. discriminate. }
  destruct E as (a' & o & r & E1 & E2). apply E2.
  apply (HH _ _ _ unit (demo (fun _ => false)) no_step (0, None) (new (MaxGen (Limit 1))) (Some []) false 0 a a' o r); [reflexivity|exact E1].
Qed.
Print Assumptions C38_result_archive_refuted.

(** the hypotheses are met: 12 evaluations, 5 in the first iteration, n in the n-th *)
Example C34_case : no_force (demo (fun _ => false)) /\ completes (demo (fun _ => false)) /\
  option_map (fun r => (map ob_gen (seen (fst r)), snd r)) (run (demo (fun _ => false)) no_step 9 (start (0, None) (new (MaxGen (Limit 3))) (Some []) true)) = Some ([1; 2; 3], 3) /\
  option_map (fun r => (map (fun ob => fst (ob_inner ob)) (seen (fst r)), archive (fst r), map sn_iter (history (fst r))))
    (run (demo (fun _ => false)) no_step 9 (start (0, None) (new (MaxEval (Limit 12))) (Some []) true)) = Some ([5; 7; 10; 14], Some [5; 2; 3; 4], [1; 2; 3; 4]) /\
  option_map (fun r => snd r) (run (demo (fun n => n =? 2)) no_step 9 (start (0, None) (new (MaxGen (Limit 7))) None false)) = Some 3.
Proof.
  split; [repeat split; intros; reflexivity|]. split; [intros n i p; cbn [demo advance_ fst snd]; discriminate|].
  split; [vm_compute; reflexivity|]. split; [vm_compute; reflexivity|vm_compute; reflexivity].
Qed.
