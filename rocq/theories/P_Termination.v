From Coq Require Import List Arith Bool QArith Lia Lqa.
From Verif Require Import M_Termination.
Import ListNotations.
Local Open Scope nat_scope.

Lemma py_max_ge x l (b : Q) : (b <= py_max x l)%Q <-> Exists (fun y => (b <= y)%Q) (x :: l).
Proof.
  revert x. induction l as [|y l IH]; intros x; simpl.
  - split; [intros H; constructor; auto|]. intros H. inversion H as [? ? H1|? ? H1]; auto. inversion H1.
  - rewrite IH. destruct (Qle_bool y x) eqn:E.
    + apply Qle_bool_iff in E. split; intros H.
      * inversion H as [? ? H1|? ? H1]; subst; [constructor 1; auto|constructor 2; constructor 2; auto].
      * inversion H as [? ? H1|? ? H1]; subst; [constructor 1; auto|]. inversion H1 as [? ? H2|? ? H2]; subst.
        { constructor 1. lra. } { constructor 2; auto. }
    + assert (E' : (x < y)%Q). { apply Qnot_le_lt. intros C. apply Qle_bool_iff in C. congruence. }
      split; intros H.
      * constructor 2. auto.
      * inversion H as [? ? H1|? ? H1]; subst; auto. constructor 1. lra.
Qed.
Lemma py_min_ge x l (b : Q) : (b <= py_min x l)%Q <-> Forall (fun y => (b <= y)%Q) (x :: l).
Proof.
  revert x. induction l as [|y l IH]; intros x; simpl.
  - split; [intros H; constructor; auto|]. intros H. inversion H; auto.
  - rewrite IH. destruct (Qle_bool x y) eqn:E.
    + apply Qle_bool_iff in E. split; intros H; inversion H as [|? ? H1 H2]; subst.
      * repeat constructor; auto. lra.
      * inversion H2; subst. constructor; auto.
    + assert (E' : (y < x)%Q). { apply Qnot_le_lt. intros C. apply Qle_bool_iff in C. congruence. }
      split; intros H; inversion H as [|? ? H1 H2]; subst.
      * constructor; [lra|]. constructor; auto.
      * auto.
Qed.

Lemma shrink_skipn {A} s (l : list A) : shrink s l = skipn (length l - s) l.
Proof.
  induction l as [|x l IH]; auto. cbn [shrink]. destruct (Nat.ltb_spec s (length (x :: l))) as [H|H].
  - rewrite IH. cbn [length] in *. replace (S (length l) - s) with (S (length l - s)) by lia. auto.
  - replace (length (x :: l) - s) with 0 by lia. auto.
Qed.
Lemma window_fold {A} s (xs : list A) : fold_left (window_append (Some s)) xs [] = skipn (length xs - s) xs.
Proof.
  induction xs as [|x xs IH] using rev_ind; auto. rewrite fold_left_app. cbn [fold_left]. rewrite IH.
  unfold window_append. cbv zeta. rewrite shrink_skipn. rewrite !app_length, skipn_length. cbn [length].
  destruct (le_lt_dec (length xs) s) as [H|H].
  - replace (length xs - s) with 0 by lia. cbn [skipn]. f_equal. lia.
  - replace (length xs - (length xs - s) + 1 - s) with 1 by lia. replace (length xs + 1 - s) with (1 + (length xs - s)) by lia.
    rewrite (skipn_app (1 + (length xs - s))). replace (1 + (length xs - s) - length xs) with (1 - s) by lia.
    rewrite skipn_app, skipn_length. replace (length xs - (length xs - s)) with s by lia. f_equal.
    clear IH. revert H. generalize (length xs - s). intros k _. revert xs. induction k as [|k IH]; intros xs; [auto|].
    destruct xs as [|y xs]; [auto|]. apply IH.
Qed.

Section T.
  Context {O S : Type} (o_gen o_eval : O -> nat) (step : S -> O -> option (S * Q)).
  Notation update := (update o_gen o_eval step).
  Notation update_body := (update_body o_gen o_eval step).
  Notation trace := (trace o_gen o_eval step).
  Notation updates := (updates o_gen o_eval step).

  Definition update_all (o : O) : list (crit S) -> option (list (crit S)) :=
    fix update_all cs :=
    match cs with
    | [] => Some []
    | c :: cs => match update c o with
                 | None => None
                 | Some c' => match update_all cs with None => None | Some cs' => Some (c' :: cs') end
                 end
    end.
  Lemma update_all_Forall2 o cs cs' : update_all o cs = Some cs' <-> Forall2 (fun c c' => update c o = Some c') cs cs'.
  Proof.
    revert cs'. induction cs as [|c cs IH]; intros cs'; simpl.
    - split; [intros [= <-]; constructor|]. intros H; inversion H; auto.
    - destruct (update c o) as [c1|] eqn:E.
      + destruct (update_all o cs) as [cs1|] eqn:E1.
        * split; [intros [= <-]; constructor; auto; now apply IH|].
          intros H. inversion H as [|? ? ? ? H1 H2]; subst. apply IH in H2. congruence.
        * split; [discriminate|]. intros H. inversion H as [|? ? ? ? H1 H2]; subst. apply IH in H2. congruence.
      + split; [discriminate|]. intros H. inversion H as [|? ? ? ? H1 H2]; subst. congruence.
  Qed.
  Lemma update_any p cs o : update (Crit false p (AnyOf cs)) o =
    match update_all o cs with
    | None | Some [] => None
    | Some (c :: cs) => let q := py_max (perc c) (map perc cs) in if Qle_bool 0 q then Some (Crit false q (AnyOf (c :: cs))) else None
    end.
  Proof.
    change (update (Crit false p (AnyOf cs)) o) with (match (match update_all o cs with None | Some [] => None
                  | Some (c :: cs) => Some (AnyOf (c :: cs), py_max (perc c) (map perc cs)) end)
      with None => None | Some (b', q) => if Qle_bool 0 q then Some (Crit false q b') else None end).
    destruct (update_all o cs) as [[|c l]|]; auto.
  Qed.
  Lemma update_all_of p cs o : update (Crit false p (AllOf cs)) o =
    match update_all o cs with
    | None | Some [] => None
    | Some (c :: cs) => let q := py_min (perc c) (map perc cs) in if Qle_bool 0 q then Some (Crit false q (AllOf (c :: cs))) else None
    end.
  Proof.
    change (update (Crit false p (AllOf cs)) o) with (match (match update_all o cs with None | Some [] => None
                  | Some (c :: cs) => Some (AllOf (c :: cs), py_min (perc c) (map perc cs)) end)
      with None => None | Some (b', q) => if Qle_bool 0 q then Some (Crit false q b') else None end).
    destruct (update_all o cs) as [[|c l]|]; auto.
  Qed.

  Lemma update_nonneg c o c' : update c o = Some c' -> (0 <= perc c')%Q.
  Proof.
    destruct c as [f p b]. cbn [M_Termination.update]. destruct f; [intros [= <-]; simpl; lra|].
    fold update_body. destruct (update_body b o) as [[b' q]|]; [|discriminate].
    destruct (Qle_bool 0 q) eqn:E; [|discriminate]. intros [= <-]. simpl. now apply Qle_bool_iff.
  Qed.

  Lemma trace_app c os o : trace c (os ++ [o]) =
    match trace c os with
    | None => None
    | Some cs => match update (last cs c) o with None => None | Some c' => Some (cs ++ [c']) end
    end.
  Proof.
    revert c. induction os as [|o1 os IH]; intros c.
    - simpl. destruct (update c o); auto.
    - cbn [app M_Termination.trace]. destruct (update c o1) as [c1|]; auto. rewrite IH.
      destruct (trace c1 os) as [cs|]; auto. cbn [option_map].
      replace (last (c1 :: cs) c) with (last cs c1).
      + destruct (update (last cs c1) o); auto.
      + destruct cs as [|c2 cs]; auto. cbn [last]. clear. revert c2. induction cs as [|c3 cs IH]; intros c2; auto. simpl in *. apply IH.
  Qed.
  Lemma updates_app c os o : updates c (os ++ [o]) = match updates c os with None => None | Some c' => update c' o end.
  Proof. revert c. induction os as [|o1 os IH]; intros c; simpl; [destruct (update c o); auto|]. destruct (update c o1); auto. Qed.
  Lemma trace_length c os cs : trace c os = Some cs -> length cs = length os.
  Proof.
    revert c cs. induction os as [|o os IH]; intros c cs; simpl; [intros [= <-]; auto|].
    destruct (update c o); [|discriminate]. destruct (trace c0 os) eqn:E; [|discriminate]. intros [= <-]. simpl. f_equal. eauto.
  Qed.

  Lemma robust_trace c period : 0 < period -> forall os cs, trace c os = Some cs ->
    exists r, updates (new (Robust c period [])) os = Some (Crit false r (Robust (last cs c) period (skipn (length cs - period) (map perc cs)))) /\
              (os <> [] -> exists x l, skipn (length cs - period) (map perc cs) = x :: l /\ r = py_min x l).
  Proof.
    intros Hp os. induction os as [|o os IH] using rev_ind; intros cs H.
    - injection H as <-. exists 0%Q. split; auto. congruence.
    - rewrite trace_app in H. destruct (trace c os) as [cs0|] eqn:E; [|discriminate].
      destruct (update (last cs0 c) o) as [c'|] eqn:E1; [|discriminate]. injection H as <-.
      destruct (IH cs0 eq_refl) as (r & Hr & _). rewrite updates_app, Hr. cbn [M_Termination.update M_Termination.update_body].
      fold update. rewrite E1.
      assert (EW : window_append (Some period) (skipn (length cs0 - period) (map perc cs0)) (perc c') =
                   skipn (length (cs0 ++ [c']) - period) (map perc (cs0 ++ [c']))).
      { rewrite <- (map_length perc cs0), <- (map_length perc (cs0 ++ [c'])), <- !window_fold, map_app, fold_left_app. auto. }
      rewrite EW.
      assert (HN : skipn (length (cs0 ++ [c']) - period) (map perc (cs0 ++ [c'])) <> []).
      { intros C. apply (f_equal (@length _)) in C. rewrite skipn_length, map_length, app_length in C. simpl in C. lia. }
      destruct (skipn (length (cs0 ++ [c']) - period) (map perc (cs0 ++ [c']))) as [|x l] eqn:E2; [congruence|].
      assert (HP : (0 <= py_min x l)%Q).
      { apply py_min_ge. rewrite <- E2. apply Forall_forall. intros y Hy.
        assert (Hy' : In y (map perc (cs0 ++ [c']))).
        { rewrite <- (firstn_skipn (length (cs0 ++ [c']) - period)). apply in_or_app. auto. }
        apply in_map_iff in Hy'. destruct Hy' as (cc & <- & Hin). 
        assert (HT : trace c (os ++ [o]) = Some (cs0 ++ [c'])) by (rewrite trace_app, E, E1; auto).
        clear - HT Hin. revert HT Hin. generalize (os ++ [o]) (cs0 ++ [c']). intros l1 l2. revert c l2. induction l1 as [|a l1 IH]; intros c l2; simpl.
        - intros [= <-] [].
        - destruct (update c a) as [c1|] eqn:E; [|discriminate]. destruct (trace c1 l1) eqn:E2; [|discriminate].
          intros [= <-] [<-|Hin]; [eapply update_nonneg; eauto|eapply IH; eauto]. }
      apply Qle_bool_iff in HP. rewrite HP. exists (py_min x l). split; [|intros _; eauto]. now rewrite last_last.
  Qed.
End T.
