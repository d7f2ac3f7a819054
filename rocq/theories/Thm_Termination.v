(** * C35, C36, C37, C53: termination criteria *)
From Coq Require Import List Arith Bool QArith Lia Lqa.
From Verif Require Import M_Termination P_Termination.
Import ListNotations.
Local Open Scope nat_scope.

(** ** C35 *)
(** "any": every member is updated, and the combination is complete exactly when some member is *)
Theorem C35_any : forall (O S : Type) o_gen o_eval step p (cs : list (crit S)) (o : O) c',
  update o_gen o_eval step (Crit false p (AnyOf cs)) o = Some c' ->
  exists cs', cbody c' = AnyOf cs' /\ force c' = false /\ Forall2 (fun c d => update o_gen o_eval step c o = Some d) cs cs' /\
    (has_terminated c' = true <-> Exists (fun c => has_terminated c = true) cs').
Proof.
  intros O S o_gen o_eval step p cs o c' H. rewrite update_any in H.
  destruct (update_all o_gen o_eval step o cs) as [[|c l]|] eqn:E; try discriminate. cbv zeta in H.
  destruct (Qle_bool 0 _); [|discriminate]. injection H as <-. exists (c :: l). split; auto. split; auto.
  split; [now apply update_all_Forall2|]. unfold has_terminated at 1. cbn [perc]. rewrite Qle_bool_iff, py_max_ge.
  change (perc c :: map perc l) with (map perc (c :: l)). rewrite Exists_map. unfold has_terminated.
  split; intros HE; apply Exists_exists in HE; destruct HE as (x & H1 & H2); apply Exists_exists; exists x; split; auto; now apply Qle_bool_iff.
Qed.
(** "all": complete exactly when every member is *)
Theorem C35_all : forall (O S : Type) o_gen o_eval step p (cs : list (crit S)) (o : O) c',
  update o_gen o_eval step (Crit false p (AllOf cs)) o = Some c' ->
  exists cs', cbody c' = AllOf cs' /\ force c' = false /\ Forall2 (fun c d => update o_gen o_eval step c o = Some d) cs cs' /\
    (has_terminated c' = true <-> Forall (fun c => has_terminated c = true) cs').
Proof.
  intros O S o_gen o_eval step p cs o c' H. rewrite update_all_of in H.
  destruct (update_all o_gen o_eval step o cs) as [[|c l]|] eqn:E; try discriminate. cbv zeta in H.
  destruct (Qle_bool 0 _); [|discriminate]. injection H as <-. exists (c :: l). split; auto. split; auto.
  split; [now apply update_all_Forall2|]. unfold has_terminated at 1. cbn [perc]. rewrite Qle_bool_iff, py_min_ge.
  change (perc c :: map perc l) with (map perc (c :: l)). rewrite Forall_map. unfold has_terminated.
  rewrite !Forall_forall. split; intros HE x Hx; now apply Qle_bool_iff, HE.
Qed.
(** an update succeeds as soon as every member's does (and there is a member) *)
Theorem C35_combined_succeeds : forall (O S : Type) o_gen o_eval step p (cs : list (crit S)) (o : O), cs <> [] ->
  Forall (fun c => update o_gen o_eval step c o <> None) cs ->
  update o_gen o_eval step (Crit false p (AnyOf cs)) o <> None /\ update o_gen o_eval step (Crit false p (AllOf cs)) o <> None.
Proof.
  intros O S o_gen o_eval step p cs o Hne HF. rewrite update_any, update_all_of.
  assert (HE : exists cs', Forall2 (fun c d => update o_gen o_eval step c o = Some d) cs cs').
  { clear Hne. induction HF as [|c cs H HF IH]; [exists []; constructor|]. destruct IH as [cs' IH].
    destruct (update o_gen o_eval step c o) as [d|] eqn:E; [|congruence]. exists (d :: cs'). constructor; auto. }
  destruct HE as [cs' HE]. pose proof HE as HE'. apply update_all_Forall2 in HE. rewrite HE.
  assert (HN : Forall (fun y => (0 <= y)%Q) (map perc cs')).
  { rewrite Forall_map. clear - HE'. induction HE'; constructor; auto. eapply update_nonneg; eauto. }
  destruct HE' as [|c d cs cs' Hc HE']; [congruence|]. cbv zeta. cbn [map] in HN.
  assert (H1 : Qle_bool 0 (py_max (perc d) (map perc cs')) = true).
  { apply Qle_bool_iff, py_max_ge. constructor. now inversion HN. }
  assert (H2 : Qle_bool 0 (py_min (perc d) (map perc cs')) = true) by now apply Qle_bool_iff, py_min_ge.
  rewrite H1, H2. split; discriminate.
Qed.
(** forcing: nothing changes before the next update; every later update reports completion and no longer consults the criterion *)
Theorem C35_forced : forall (O S : Type) o_gen o_eval step (c : crit S) (os : list O),
  has_terminated (terminate c) = has_terminated c /\
  exists c', updates o_gen o_eval step (terminate c) os = Some c' /\ force c' = true /\ cbody c' = cbody c /\
             (os <> [] -> has_terminated c' = true).
Proof.
  intros O S o_gen o_eval step c os. split; [destruct c; auto|]. induction os as [|o os IH] using rev_ind.
  - exists (terminate c). destruct c. simpl. repeat split; auto; congruence.
  - rewrite updates_app. destruct IH as (c' & E & E1 & E2 & _). rewrite E. destruct c' as [f p b]. cbn in E1, E2. subst f b.
    exists (Crit true 1 (cbody c)). repeat split; auto.
Qed.
(** progress reported by a criterion is never negative *)
Theorem C35_progress_nonneg : forall (O S : Type) o_gen o_eval step (c : crit S) (os : list O) cs,
  trace o_gen o_eval step c os = Some cs -> Forall (fun c => (0 <= perc c)%Q) cs.
Proof.
  intros O S o_gen o_eval step c os. revert c. induction os as [|o os IH]; intros c cs; simpl; [intros [= <-]; constructor|].
  destruct (update o_gen o_eval step c o) as [c1|] eqn:E; [|discriminate]. destruct (trace o_gen o_eval step c1 os) eqn:E2; [|discriminate].
  intros [= <-]. constructor; eauto. eapply update_nonneg; eauto.
Qed.
Definition ex_any : crit unit := new (AnyOf [new (MaxGen (Limit 10)); new (AllOf [new (MaxEval (Limit 100)); new (MaxGen (Limit 3))])]).
Definition ex_step : unit -> nat * nat -> option (unit * Q) := fun s _ => Some (s, 0%Q).
Example C35_case : option_map has_terminated (updates fst snd ex_step ex_any [(1, 50); (2, 120)]) = Some false /\
  option_map has_terminated (updates fst snd ex_step ex_any [(1, 50); (2, 120); (3, 130)]) = Some true /\
  option_map has_terminated (updates fst snd ex_step (terminate ex_any) [(1, 1)]) = Some true /\ has_terminated (terminate ex_any) = false.
Proof. vm_compute. auto. Qed.

(** ** C36 *)
(** the window holds the last [min size count] entries in order *)
Theorem C36_window : forall (A : Type) s (xs : list A), let w := fold_left (window_append (Some s)) xs [] in
  w = skipn (length xs - s) xs /\ length w = Nat.min s (length xs).
Proof.
  intros A s xs. cbv zeta. rewrite window_fold. split; auto. rewrite skipn_length. lia.
Qed.
Theorem C36_window_unbounded : forall (A : Type) (xs : list A), fold_left (window_append None) xs [] = xs.
Proof.
  intros A xs. induction xs as [|x xs IH] using rev_ind; auto. rewrite fold_left_app. cbn [fold_left]. now rewrite IH.
Qed.
(** robust termination: complete exactly when the wrapped criterion was complete after each of the last [min period count] updates *)
Theorem C36_robust_exact : forall (O S : Type) o_gen o_eval step (c : crit S) period (os : list O) cs, 0 < period -> os <> [] ->
  trace o_gen o_eval step c os = Some cs ->
  exists r, updates o_gen o_eval step (new (Robust c period [])) os = Some r /\
    (has_terminated r = true <-> Forall (fun c => has_terminated c = true) (skipn (length os - period) cs)).
Proof.
  intros O S o_gen o_eval step c period os cs Hp Hne HT.
  destruct (robust_trace o_gen o_eval step c period Hp os cs HT) as (r & Hr & H2). eexists. split; [exact Hr|].
  destruct (H2 Hne) as (x & l & E & ->). unfold has_terminated at 1. cbn [perc]. rewrite Qle_bool_iff, py_min_ge, <- E.
  rewrite (trace_length _ _ _ _ _ _ HT), skipn_map, Forall_map, !Forall_forall. unfold has_terminated.
  split; intros H y Hy; apply Qle_bool_iff; auto.
Qed.
(** so from the [period]-th update on it is what the name says *)
Theorem C36_robust_full_window : forall (O S : Type) o_gen o_eval step (c : crit S) period (os : list O) cs, 0 < period -> period <= length os ->
  trace o_gen o_eval step c os = Some cs ->
  exists r, updates o_gen o_eval step (new (Robust c period [])) os = Some r /\
    (has_terminated r = true <-> forall k, k < period -> has_terminated (nth (length os - 1 - k) cs c) = true).
Proof.
  intros O S o_gen o_eval step c period os cs Hp Hl HT.
  destruct (C36_robust_exact O S o_gen o_eval step c period os cs Hp) as (r & Hr & H); auto.
  { intros ->. simpl in Hl. lia. }
  exists r. split; auto. rewrite H. pose proof (trace_length _ _ _ _ _ _ HT) as HL. rewrite Forall_forall. split; intros HF.
  - intros k Hk. apply HF. replace (length os - 1 - k) with (length os - period + (period - 1 - k)) by lia.
    assert (HN : forall n (l : list (crit S)) j d, nth j (skipn n l) d = nth (n + j) l d).
    { induction n; intros [|y l] j d; simpl; auto; destruct j; auto. }
    rewrite <- HN. apply nth_In. rewrite skipn_length. lia.
  - intros x Hx. apply In_nth with (d := c) in Hx. destruct Hx as (j & Hj & <-). rewrite skipn_length in Hj.
    assert (HN : forall n (l : list (crit S)) j d, nth j (skipn n l) d = nth (n + j) l d).
    { induction n; intros [|y l] i d; simpl; auto; destruct i; auto. }
    rewrite HN. specialize (HF (period - 1 - j) ltac:(lia)). replace (length os - 1 - (period - 1 - j)) with (length os - period + j) in HF by lia. auto.
Qed.
(** before that it is not: one complete update is enough to stop although the period is 30 *)
Theorem C36_robust_refuted : ~ (forall (O S : Type) o_gen o_eval step (c : crit S) period (os : list O) r, 0 < period ->
  updates o_gen o_eval step (new (Robust c period [])) os = Some r -> has_terminated r = true -> period <= length os).
Proof.
  intros H. specialize (H (nat * nat)%type unit fst snd ex_step (new (MaxGen (Limit 1))) 30 [(1, 1)] _ ltac:(lia) eq_refl eq_refl).
  simpl in H. lia.
Qed.
Example C36_case : trace fst snd ex_step (new (MaxGen (Limit 3))) [(1, 0); (2, 0); (3, 0); (4, 0)] <> None /\
  option_map has_terminated (updates fst snd ex_step (new (Robust (new (MaxGen (Limit 3))) 2 [])) [(1, 0); (2, 0); (3, 0)]) = Some false /\
  option_map has_terminated (updates fst snd ex_step (new (Robust (new (MaxGen (Limit 3))) 2 [])) [(1, 0); (2, 0); (3, 0); (4, 0)]) = Some true.
Proof. split; [discriminate|]. vm_compute. auto. Qed.

(** ** C37 *)
(** for positive targets and positive objective values the criterion is right *)
Theorem C37_fmin_partial : forall fmin best, (0 < fmin)%Q -> (0 < best)%Q ->
  exists b, decide (fmin_progress fmin true best) = Some b /\ (b = true <-> (best <= fmin)%Q).
Proof.
  intros fmin best H1 H2. unfold fmin_progress, np_div.
  assert (E : Qeq_bool best 0 = false). { apply not_true_iff_false. rewrite Qeq_bool_iff. lra. }
  rewrite E. cbn [decide].
  assert (HP : (0 <= fmin / best)%Q). { apply Qle_shift_div_l; auto. lra. }
  apply Qle_bool_iff in HP. rewrite HP. eexists. split; eauto. rewrite Qle_bool_iff. split; intros H.
  - apply Qmult_le_r with (z := best) in H; auto. rewrite Qmult_1_l in H. unfold Qdiv in H. rewrite <- Qmult_assoc in H.
    rewrite (Qmult_comm (/ best)), Qmult_inv_r, Qmult_1_r in H by lra. auto.
  - apply Qle_shift_div_l; auto. lra.
Qed.
Theorem C37_infeasible_continues : forall fmin best, decide (fmin_progress fmin false best) = Some false.
Proof. reflexivity. Qed.
(** the claim in general is false: negative targets are inverted, sign changes raise *)
Theorem C37_fmin_refuted :
  ~ (forall fmin best, decide (fmin_progress fmin true best) = Some (Qle_bool best fmin)) /\
  decide (fmin_progress (-(10)) true (-(5))) = Some true /\        (* target -10 not reached, stops *)
  decide (fmin_progress (-(10)) true (-(20))) = Some false /\      (* target reached, goes on *)
  decide (fmin_progress 1 true (-(1))) = None /\                   (* target reached, assertion error *)
  decide (fmin_progress 0 true (-(1))) = Some false /\             (* target 0 passed, never stops *)
  decide (fmin_progress 0 true 0) = None.                          (* target 0 reached exactly, assertion error *)
Proof.
  split; [|vm_compute; auto]. intros H. specialize (H (-(10))%Q (-(5))%Q). vm_compute in H. discriminate.
Qed.
Example C37_case : decide (fmin_progress (1 # 10) true (1 # 5)) = Some false /\ decide (fmin_progress (1 # 10) true (1 # 20)) = Some true.
Proof. vm_compute. auto. Qed.

(** ** C53 *)
(** tolerance based criteria: progress stays in [0, 1]; after any history, an update that compares reports completion exactly when the change
    is within the tolerance; an update that does not compare (first one, or skipped) never reports it *)
Definition compares {D} (n_skip : nat) (st : @dstate D) : bool :=
  match d_data st with None => false | Some _ => (d_counter st =? 0) || (d_counter st mod (n_skip + 1) =? 0) end.
Lemma delta_inv (D : Type) (delta : D -> D -> option Q) tol n_skip (curs : list D) : (0 <= tol)%Q ->
  let st := fold_left (delta_update delta tol n_skip) curs d_new in
  (0 <= d_perc st <= 1)%Q /\ (d_data st = None -> d_counter st = 0) /\ ((1 <= d_perc st)%Q -> compares n_skip st = true).
Proof.
  intros Ht. cbv zeta. induction curs as [|cur curs IH] using rev_ind.
  - simpl. split; [lra|]. split; [auto|intros H; lra].
  - rewrite fold_left_app. cbn [fold_left]. set (st := fold_left (delta_update delta tol n_skip) curs d_new) in *.
    destruct IH as (H1 & H2 & H3). unfold delta_update, d_remember.
    destruct (d_data st) as [prev|] eqn:E; [|simpl; split; [lra|]; split; [discriminate|]; intros; lra].
    destruct ((0 <? d_counter st) && negb (d_counter st mod (n_skip + 1) =? 0)) eqn:E1.
    { cbn [d_perc d_data d_counter]. split; auto. split; [discriminate|]. intros HC. apply H3 in HC. unfold compares in HC. rewrite E in HC.
      apply andb_true_iff in E1. destruct E1 as [E1 E2]. apply Nat.ltb_lt in E1. apply negb_true_iff in E2. rewrite E2 in HC.
      apply orb_true_iff in HC. destruct HC as [HC|HC]; [apply Nat.eqb_eq in HC; lia|discriminate]. }
    destruct (delta prev cur) as [dl|].
    + destruct (Qle_bool dl tol) eqn:E2.
      * cbn [d_perc d_data d_counter]. split; [lra|]. split; [auto|]. intros _. unfold compares. cbn [d_data d_counter].
        apply andb_false_iff in E1. destruct E1 as [E1|E1]; [|now apply negb_false_iff in E1; rewrite E1, orb_true_r].
        apply Nat.ltb_ge in E1. replace (d_counter st =? 0) with true; auto. symmetry. apply Nat.eqb_eq. lia.
      * assert (Hd : (tol < dl)%Q). { apply Qnot_le_lt. intros C. apply Qle_bool_iff in C. congruence. }
        cbn [d_perc d_data d_counter].
        assert (HB : (0 < 1 / (1 + (dl - tol)) < 1)%Q).
        { split; [apply Qlt_shift_div_l; lra|apply Qlt_shift_div_r; lra]. }
        split; [lra|]. split; [discriminate|]. intros; lra.
    + simpl. split; [lra|]. split; [discriminate|]. intros; lra.
Qed.
Theorem C53_delta : forall (D : Type) (delta : D -> D -> option Q) tol n_skip (curs : list D) cur, (0 <= tol)%Q ->
  let st := fold_left (delta_update delta tol n_skip) curs d_new in
  let st' := delta_update delta tol n_skip st cur in
  (0 <= d_perc st' <= 1)%Q /\
  ((1 <= d_perc st')%Q <-> compares n_skip st = true /\ exists prev dl, d_data st = Some prev /\ delta prev cur = Some dl /\ (dl <= tol)%Q).
Proof.
  intros D delta tol n_skip curs cur Ht. cbv zeta.
  pose proof (delta_inv D delta tol n_skip (curs ++ [cur]) Ht) as HI. cbv zeta in HI. rewrite fold_left_app in HI. cbn [fold_left] in HI.
  pose proof (delta_inv D delta tol n_skip curs Ht) as HJ. cbv zeta in HJ.
  set (st := fold_left (delta_update delta tol n_skip) curs d_new) in *.
  split; [apply HI|]. clear HI. destruct HJ as (J1 & J2 & J3). unfold delta_update, d_remember, compares in *.
  destruct (d_data st) as [prev|] eqn:E.
  2:{ simpl. split; [intros; lra|]. intros [C _]. discriminate. }
  destruct ((0 <? d_counter st) && negb (d_counter st mod (n_skip + 1) =? 0)) eqn:E1.
  { apply andb_true_iff in E1. destruct E1 as [E1 E2]. apply Nat.ltb_lt in E1. apply negb_true_iff in E2. rewrite E2 in *.
    replace (d_counter st =? 0) with false in * by (symmetry; apply Nat.eqb_neq; lia). cbn [d_perc]. cbn [orb] in *.
    split; [intros C; apply J3 in C; discriminate|intros [C _]; discriminate]. }
  assert (EC : (d_counter st =? 0) || (d_counter st mod (n_skip + 1) =? 0) = true).
  { apply andb_false_iff in E1. destruct E1 as [E1|E1]; [|now apply negb_false_iff in E1; rewrite E1, orb_true_r].
    apply Nat.ltb_ge in E1. replace (d_counter st =? 0) with true; auto. symmetry. apply Nat.eqb_eq. lia. }
  rewrite EC. destruct (delta prev cur) as [dl|] eqn:E2.
  - destruct (Qle_bool dl tol) eqn:E3.
    + cbn [d_perc]. apply Qle_bool_iff in E3. split; [|intros; lra]. intros _. split; auto. exists prev, dl. auto.
    + assert (Hd : (tol < dl)%Q). { apply Qnot_le_lt. intros C. apply Qle_bool_iff in C. congruence. }
      cbn [d_perc].
      assert (HB : (1 / (1 + (dl - tol)) < 1)%Q) by (apply Qlt_shift_div_r; lra).
      split; [intros; lra|]. intros (_ & p' & d' & Hp & Hd' & Hle). injection Hp as <-. rewrite E2 in Hd'. injection Hd' as <-. lra.
  - simpl. split; [intros; lra|]. intros (_ & p' & d' & Hp & Hd' & Hle). injection Hp as <-. congruence.
Qed.
(** with no skipping, after an update that did not complete, the reference is that update's observation *)
Theorem C53_reference : forall (D : Type) (delta : D -> D -> option Q) tol (curs : list D) cur, (0 <= tol)%Q ->
  ~ (1 <= d_perc (fold_left (delta_update delta tol 0) (curs ++ [cur]) d_new))%Q ->
  d_data (fold_left (delta_update delta tol 0) (curs ++ [cur]) d_new) = Some cur.
Proof.
  intros D delta tol curs cur Ht HN. rewrite fold_left_app in *. cbn [fold_left] in *.
  set (st := fold_left (delta_update delta tol 0) curs d_new) in *. unfold delta_update, d_remember in *.
  destruct (d_data st) as [prev|]; auto. destruct (_ && _); auto. destruct (delta prev cur) as [dl|]; auto.
  destruct (Qle_bool dl tol); auto. exfalso. apply HN. simpl. lra.
Qed.
(** once complete, the reference is frozen: later observations are compared with the same old one until the change exceeds the tolerance *)
Theorem C53_frozen : forall (D : Type) (delta : D -> D -> option Q) tol n_skip (st : @dstate D) prev cur dl,
  d_data st = Some prev -> compares n_skip st = true -> delta prev cur = Some dl -> (dl <= tol)%Q ->
  let st' := delta_update delta tol n_skip st cur in d_data st' = Some prev /\ compares n_skip st' = true /\ d_perc st' = 1%Q.
Proof.
  intros D delta tol n_skip st prev cur dl E HC Hd Hle. cbv zeta. unfold delta_update. rewrite E.
  assert (EB : (0 <? d_counter st) && negb (d_counter st mod (n_skip + 1) =? 0) = false).
  { unfold compares in HC. rewrite E in HC. apply orb_true_iff in HC. destruct HC as [HC|HC].
    - apply Nat.eqb_eq in HC. rewrite HC. auto.
    - rewrite HC. apply andb_false_r. }
  rewrite EB, Hd. apply Qle_bool_iff in Hle. rewrite Hle. cbn [d_data d_perc]. split; auto. split; auto.
  unfold compares in *. cbn [d_data d_counter]. now rewrite E in HC.
Qed.
Example C53_case : let dq := fun a b : Q => Some (if Qle_bool a b then 0%Q else (a - b)%Q) in
  map (fun k => Qle_bool 1 (d_perc (fold_left (delta_update dq (1 # 10) 0) (firstn k [5#1; 4#1; 39#10; 2#1; 2#1]) d_new))) [1; 2; 3; 4; 5]
    = [false; false; true; false; true] /\
  d_data (fold_left (delta_update dq (1 # 10) 0) [5#1; 4#1; 39#10] d_new) = Some (4#1).
Proof. vm_compute. auto. Qed.
Print Assumptions C35_any.
Print Assumptions C35_all.
Print Assumptions C35_forced.
Print Assumptions C36_robust_exact.
Print Assumptions C37_fmin_partial.
Print Assumptions C53_delta.
