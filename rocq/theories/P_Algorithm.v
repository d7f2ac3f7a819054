From Coq Require Import List Arith Bool QArith Lia.
From Verif Require Import M_Termination P_Termination M_Algorithm.
Import ListNotations.
Local Open Scope nat_scope.

Section A.
  Context {I P Ar S : Type} (H : hooks I P Ar) (step : S -> @obs I P -> option (S * Q)).
  Notation upd_ := (update ob_gen (o_eval H) step).
  Notation next := (next H step).
  Notation nexts := (nexts H step).
  Notation run := (run H step).

  (** no method and no callback forces the termination *)
  Definition no_force : Prop :=
    (forall n i, snd (init_infill H n i) = false) /\ (forall n i, snd (infill_ H n i) = false) /\
    (forall n i p, snd (init_advance H n i p) = false) /\ (forall n i p, snd (advance_ H n i p) = false) /\
    (forall n i, callback H n i = false).
  (** every call of [_advance] completes an iteration (returns None or True; only loop-wise algorithms return False) *)
  Definition completes : Prop := forall n i p, snd (fst (advance_ H n i p)) <> Some false.

  Definition wf (a : alg I P Ar S) : Prop :=
    (is_init a = false -> seen a = [] /\ history a = []) /\ (is_init a = true -> n_iter a = length (seen a) + 1).

  Definition arch_step (ar : option Ar) (p : option P) : option Ar :=
    match ar, p with Some x, Some q => Some (arch_add H x q) | _, _ => ar end.

  Definition completed (a a' : alg I P Ar S) (t : crit S) : Prop :=
    exists ob cf t', ob_gen ob = length (seen a) + 1 /\ ob_inner ob = inner a' /\ ob_opt ob = set_optimum H (inner a') /\
      seen a' = seen a ++ [ob] /\ upd_ t ob = Some t' /\ term a' = (if cf : bool then terminate t' else t') /\ (no_force -> cf = false) /\
      opt a' = ob_opt ob /\
      history a' = if save_history a then history a ++ [{| sn_iter := ob_gen ob; sn_inner := ob_inner ob; sn_opt := ob_opt ob; sn_term := t' |}] else history a.
  Definition incomplete (a a' : alg I P Ar S) (t : crit S) : Prop :=
    is_init a = true /\ seen a' = seen a /\ term a' = t /\ history a' = history a /\ opt a' = opt a.

  Lemma post_spec a a' : post_advance H step a = Some a' -> n_iter a = length (seen a) + 1 ->
    exists ob cf t', ob_gen ob = length (seen a) + 1 /\ ob_inner ob = inner a' /\ ob_opt ob = set_optimum H (inner a') /\
      seen a' = seen a ++ [ob] /\ upd_ (term a) ob = Some t' /\ term a' = (if cf : bool then terminate t' else t') /\ (no_force -> cf = false) /\
      opt a' = ob_opt ob /\
      history a' = (if save_history a then history a ++ [{| sn_iter := ob_gen ob; sn_inner := ob_inner ob; sn_opt := ob_opt ob; sn_term := t' |}] else history a) /\
      is_init a' = is_init a /\ n_iter a' = n_iter a + 1 /\ save_history a' = save_history a /\ told a' = told a /\ archive a' = archive a.
  Proof.
    unfold post_advance. intros E Hn.
    destruct (upd_ (term a) {| ob_gen := n_iter a; ob_inner := inner a; ob_opt := set_optimum H (inner a) |}) as [t'|] eqn:Eu; [|discriminate].
    injection E as <-.
    exists {| ob_gen := n_iter a; ob_inner := inner a; ob_opt := set_optimum H (inner a) |}, (callback H (n_iter a) (inner a)), t'.
    cbn [ob_gen ob_inner ob_opt inner seen term opt history is_init n_iter save_history told archive].
    repeat (split; [now auto|]). split; [intros (_ & _ & _ & _ & HC); auto|]. repeat (split; [now auto|]). auto.
  Qed.

  Lemma advance_spec a infills a' r : advance H step a infills = Some (a', r) -> (is_init a = true -> n_iter a = length (seen a) + 1) ->
    (is_init a = false -> seen a = [] /\ history a = []) ->
    exists f : bool, (no_force -> f = false) /\
      is_init a' = true /\ n_iter a' = length (seen a') + 1 /\ save_history a' = save_history a /\
      (completed a a' (if f then terminate (term a) else term a) \/ (~ completes /\ incomplete a a' (if f then terminate (term a) else term a))) /\
      told a' = told a ++ [infills] /\ archive a' = arch_step (archive a) infills /\
      r = (if has_terminated (term a') then Result (opt a') (archive a) else CurrentOpt (opt a')).
  Proof.
    unfold advance. cbn [is_init n_iter inner opt term archive save_history history seen told]. intros E Hn Hi.
    destruct (is_init a) eqn:EI.
    - destruct (advance_ H (n_iter a) (set_off H (inner a) infills) infills) as [[i val] f] eqn:EA.
      exists f. split.
      { intros (_ & _ & _ & HC & _). specialize (HC (n_iter a) (set_off H (inner a) infills) infills). rewrite EA in HC. auto. }
      set (b := with_inner _ i f) in E.
      assert (Hb : n_iter b = length (seen b) + 1) by (unfold b, with_inner; cbn [n_iter seen]; auto).
      destruct val as [[|]|].
      1,3: (destruct (post_advance H step b) as [a1|] eqn:EP; [|discriminate]; apply post_spec in EP; auto;
        destruct EP as (ob & cf & t' & P1 & P2 & P3 & P4 & P5 & P6 & P7 & P8 & P9 & P10 & P11 & P12 & P13 & P14);
        injection E as <- <-; cbn [is_init n_iter inner opt term archive save_history history seen told];
        unfold b, with_inner in *; cbn [is_init n_iter inner opt term archive save_history history seen told] in *;
        split; [auto|]; split; [rewrite P4, app_length; simpl; lia|]; split; [auto|]; split;
        [left; exists ob, cf, t'; cbn [is_init n_iter inner opt term archive save_history history seen told]; repeat (split; [now auto|]); auto|];
        split; [auto|]; split; [unfold arch_step; rewrite P14; auto|now rewrite P14]).
      injection E as <- <-. unfold b, with_inner in *; cbn [is_init n_iter inner opt term archive save_history history seen told] in *.
      split; [auto|]. split; [auto|]. split; [auto|]. split; [right|].
      { split; [|repeat split; auto]. intros HC. specialize (HC (n_iter a) (set_off H (inner a) infills) infills). rewrite EA in HC. apply HC. auto. }
      split; auto.
    - destruct (Hi eq_refl) as [Hs Hh].
      cbn [is_init n_iter inner opt term archive save_history history seen told] in E.
      destruct (init_advance H 1 (set_pop H (set_off H (inner a) infills) infills) infills) as [i f] eqn:EA.
      exists f. split.
      { intros (_ & _ & HC & _). specialize (HC 1 (set_pop H (set_off H (inner a) infills) infills) infills). rewrite EA in HC. auto. }
      unfold with_inner in E. cbn [is_init n_iter inner opt term archive save_history history seen told] in E.
      match type of E with context [post_advance H step ?x] => set (b := x) in E end.
      destruct (post_advance H step b) as [a1|] eqn:EP; [|discriminate]. apply post_spec in EP; [|unfold b; cbn [n_iter seen]; rewrite Hs; auto].
      destruct EP as (ob & cf & t' & P1 & P2 & P3 & P4 & P5 & P6 & P7 & P8 & P9 & P10 & P11 & P12 & P13 & P14).
      injection E as <- <-. cbn [is_init n_iter inner opt term archive save_history history seen told].
      unfold b in *; cbn [is_init n_iter inner opt term archive save_history history seen told] in *.
      split; [auto|]. split; [rewrite P4, app_length, Hs; simpl; rewrite P11; auto|]. split; [auto|]. split.
      { left. exists ob, cf, t'; cbn [is_init n_iter inner opt term archive save_history history seen told]. repeat (split; [now auto|]); auto. }
      split; [auto|]. split; [unfold arch_step; rewrite P14; auto|now rewrite P14].
  Qed.

  Lemma infill_spec a a1 infills : infill H a = (a1, infills) -> wf a ->
    exists f : bool, (no_force -> f = false) /\ is_init a1 = is_init a /\ (is_init a1 = true -> n_iter a1 = length (seen a1) + 1) /\
      seen a1 = seen a /\ history a1 = history a /\ term a1 = (if f then terminate (term a) else term a) /\ archive a1 = archive a /\
      told a1 = told a /\ save_history a1 = save_history a /\ (is_init a = true -> opt a1 = opt a).
  Proof.
    intros E [W1 W2]. unfold infill in E.
    match type of E with (let '(_, _) := ?x in _) = _ => destruct x as [[i p] f] eqn:E1 end.
    exists f. split.
    { intros (HC1 & HC2 & _). destruct (is_init a) eqn:EI; cbn [is_init n_iter inner] in E1; rewrite ?EI in E1.
      - specialize (HC2 (n_iter a) (inner a)). now rewrite E1 in HC2.
      - specialize (HC1 1 (initialize H (inner a))). now rewrite E1 in HC1. }
    destruct (is_init a) eqn:EI; destruct p as [p|]; injection E as <- <-; unfold with_inner;
      cbn [is_init n_iter inner opt term archive save_history history seen told]; repeat (split; [now auto|]); auto; try discriminate.
  Qed.

  Lemma next_spec a a' : wf a -> next a = Some a' ->
    exists f g : bool, (no_force -> f = false /\ g = false) /\
      wf a' /\ is_init a' = true /\ save_history a' = save_history a /\
      (let t := if f then terminate (term a) else term a in let t := if g then terminate t else t in
       completed a a' t \/ (~ completes /\ incomplete a a' t)) /\
      exists infills, told a' = told a ++ [infills] /\ archive a' = arch_step (archive a) infills.
  Proof.
    intros HW E. unfold M_Algorithm.next in E. destruct (infill H a) as [a1 infills] eqn:E1.
    destruct (infill_spec a a1 infills E1 HW) as (f & Hf & I1 & I2 & I3 & I4 & I5 & I6 & I7 & I8 & I9).
    assert (HE : exists b r, advance H step b infills = Some (a', r) /\ is_init b = is_init a1 /\ n_iter b = n_iter a1 /\ seen b = seen a1 /\ history b = history a1 /\
              term b = term a1 /\ archive b = archive a1 /\ told b = told a1 /\ save_history b = save_history a1 /\ opt b = opt a1).
    { destruct infills as [p|].
      - destruct (advance H step (with_inner a1 (evaluate H (inner a1) p) false) (Some p)) as [[x r]|] eqn:EA; [|discriminate].
        injection E as <-. exists (with_inner a1 (evaluate H (inner a1) p) false), r. repeat split; auto.
      - destruct (advance H step a1 None) as [[x r]|] eqn:EA; [|discriminate]. injection E as <-. exists a1, r. repeat split; auto. }
    destruct HE as (b & r & EA & B1 & B2 & B3 & B4 & B5 & B6 & B7 & B8 & B9).
    apply advance_spec in EA.
    2:{ rewrite B1, B2, B3. auto. }
    2:{ rewrite B1, B3, B4, I1, I3, I4. apply HW. }
    destruct EA as (g & Hg & A1 & A2 & A3 & A4 & A5 & A6 & _).
    exists f, g. split; [auto|]. split; [split; [congruence|auto]|]. split; auto. split; [congruence|]. split.
    - cbv zeta. rewrite B5, I5 in A4. destruct A4 as [A4|[N A4]]; [left|right; split; auto].
      + unfold completed in *. rewrite B3, B4, B8, I3, I4, I8 in A4. exact A4.
      + unfold incomplete in *. rewrite B1, B3, B4, B9, I1, I3, I4 in A4. destruct A4 as (C1 & C2 & C3 & C4 & C5). repeat split; auto. rewrite C5. auto.
    - exists infills. split; congruence.
  Qed.

  Lemma start_wf i t ar save : wf (start i t ar save).
  Proof. split; [auto|discriminate]. Qed.

  (** without forcing, the termination object is the initial one updated with everything seen *)
  Definition tinv (t0 : crit S) (a : alg I P Ar S) : Prop :=
    wf a /\ updates ob_gen (o_eval H) step t0 (seen a) = Some (term a) /\
    (forall k, k < length (seen a) -> ob_gen (nth k (seen a) {| ob_gen := 0; ob_inner := inner a; ob_opt := None |}) = k + 1).

  Lemma tinv_next t0 a a' : no_force -> tinv t0 a -> next a = Some a' ->
    tinv t0 a' /\ ((exists ob, seen a' = seen a ++ [ob]) \/ (~ completes /\ seen a' = seen a /\ term a' = term a)).
  Proof.
    intros NF (W & U & G) E. destruct (next_spec a a' W E) as (f & g & Hfg & W' & _ & _ & HC & _). destruct (Hfg NF) as [-> ->].
    cbv zeta in HC. cbn iota in HC. destruct HC as [HC|[NC HC]].
    - destruct HC as (ob & cf & t' & P1 & P2 & P3 & P4 & P5 & P6 & P7 & P8 & P9). rewrite (P7 NF) in P6.
      split; [|left; exists ob; auto]. split; auto. split.
      + rewrite P4, updates_app, U. rewrite P6. auto.
      + intros k Hk. rewrite P4 in *. rewrite app_length in Hk. simpl in Hk. destruct (Nat.eq_dec k (length (seen a))) as [->|Hne].
        * rewrite app_nth2, Nat.sub_diag by lia. simpl. auto.
        * rewrite app_nth1 by lia. rewrite <- (G k ltac:(lia)). f_equal. apply nth_indep. lia.
    - destruct HC as (_ & C2 & C3 & _). split; [|right; auto]. split; auto. rewrite C2, C3. split; auto.
      intros k Hk. rewrite <- (G k Hk). f_equal. apply nth_indep. auto.
  Qed.

  Lemma run_tinv t0 fuel : no_force -> forall a a' calls, tinv t0 a -> run fuel a = Some (a', calls) ->
    (forall k t, k < length (seen a) -> updates ob_gen (o_eval H) step t0 (firstn k (seen a)) = Some t -> has_terminated t = false) ->
    tinv t0 a' /\ has_terminated (term a') = true /\ (exists ex, seen a' = seen a ++ ex /\ (completes -> length ex = calls)) /\
    (forall k t, k < length (seen a') -> updates ob_gen (o_eval H) step t0 (firstn k (seen a')) = Some t -> has_terminated t = false).
  Proof.
    intros NF. induction fuel as [|fuel IH]; intros a a' calls HT E HB; cbn [M_Algorithm.run] in E; unfold has_next in E.
    - destruct (has_terminated (term a)) eqn:Ht; cbn [negb] in E; [|discriminate]. injection E as <- <-.
      split; auto. split; auto. split; auto. exists []. rewrite app_nil_r. split; auto.
    - destruct (has_terminated (term a)) eqn:Ht; cbn [negb] in E.
      { injection E as <- <-. split; auto. split; auto. split; auto. exists []. rewrite app_nil_r. split; auto. }
      destruct (next a) as [a1|] eqn:EN; [|discriminate]. destruct (run fuel a1) as [[a2 c2]|] eqn:ER; [|discriminate].
      injection E as <- <-. destruct (tinv_next t0 a a1 NF HT EN) as [HT1 HC].
      destruct (IH a1 a2 c2 HT1 ER) as (R1 & R2 & (ex & R3 & R5) & R4).
      + destruct HC as [[ob HC]|(_ & HC & _)]; rewrite HC; auto.
        intros k t Hk HU. rewrite app_length in Hk. simpl in Hk. destruct (Nat.eq_dec k (length (seen a))) as [->|Hne].
        * rewrite firstn_app, Nat.sub_diag, firstn_all in HU. simpl in HU. rewrite app_nil_r in HU.
          destruct HT as (_ & U & _). rewrite U in HU. injection HU as <-. auto.
        * rewrite firstn_app in HU. replace (k - length (seen a)) with 0 in HU by lia. simpl in HU. rewrite app_nil_r in HU. apply (HB k t); auto. lia.
      + split; auto. split; auto. split; auto. destruct HC as [[ob HC]|(NC & HC & _)].
        * exists (ob :: ex). rewrite R3, HC, <- app_assoc. split; auto. intros C. simpl. rewrite (R5 C). lia.
        * exists ex. rewrite R3, HC. split; auto. intros C. contradiction.
  Qed.
End A.
