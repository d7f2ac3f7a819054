(** * C101: the theorems *)
From Coq Require Import List Arith Bool QArith Qabs Lia Lqa.
From Verif Require Import ListAux M_Termination P_Termination Thm_Termination M_Default Thm_Default Thm_Default2.
Import ListNotations.
Local Open Scope nat_scope.

Section Main.
  Context {X : Type}.
  Variables (dx : X -> X -> option Q) (igd : list (list Q) -> list (list Q) -> Q) (xtol cvtol ftol : Q) (n_skip period ng ne : nat).
  Hypothesis Hp : 0 < period.
  Notation run := (default_run dx igd xtol cvtol ftol n_skip).
  Definition okobs (o : tobs X) : Prop := ob_cv o <> [].
  Definition yes (o : tobs X) : bool := true.
  Notation stx := (tst dx xtol n_skip yes ob_x).
  Notation stc := (tst cv_delta cvtol n_skip cv_act cv_dat).
  Notation stf := (tst so_delta ftol n_skip yes (so_data true)).
  Notation stm := (tst (mo_delta igd) ftol n_skip yes (mo_data true)).
  Definition lastp {D} (st : list (tobs X) -> @dstate D) (os : list (tobs X)) : Prop := forall j, length os - period <= j < length os -> done (st (firstn (S j) os)).
  Lemma crit_runs os : os <> [] -> Forall okobs os ->
    (exists r, run (new (Robust (new (Other (TX d_new))) period [])) os = Some r /\ (has_terminated r = true <-> lastp stx os)) /\
    (exists r, run (new (Robust (new (Other (TCV d_new))) period [])) os = Some r /\ (has_terminated r = true <-> lastp stc os)) /\
    (exists r, run (new (Robust (new (Other (TF d_new))) period [])) os = Some r /\ (has_terminated r = true <-> lastp stf os)) /\
    (exists r, run (new (Robust (new (Other (TM d_new))) period [])) os = Some r /\ (has_terminated r = true <-> lastp stm os)).
  Proof.
    intros Hne HG. split; [|split; [|split]].
    - apply (robust_updates ob_n_gen ob_n_eval _ dx xtol n_skip yes ob_x TX okobs); auto.
    - apply (robust_updates ob_n_gen ob_n_eval _ cv_delta cvtol n_skip cv_act cv_dat TCV okobs); auto.
      intros st o Ho. cbn [tstep]. rewrite cv_step by auto. reflexivity.
    - apply (robust_updates ob_n_gen ob_n_eval _ so_delta ftol n_skip yes (so_data true) TF okobs); auto.
    - apply (robust_updates ob_n_gen ob_n_eval _ (mo_delta igd) ftol n_skip yes (mo_data true) TM okobs); auto.
  Qed.
  Lemma any_total (cs : list (crit (tstate X))) os : cs <> [] -> Forall (fun c => run c os <> None) cs -> (forall n, n <= length os -> Forall (fun c => run c (firstn n os) <> None) cs) ->
    run (new (AnyOf cs)) os <> None.
  Proof.
    clear. intros Hc _ HF.
    assert (G : forall n, n <= length os -> exists p cs', run (new (AnyOf cs)) (firstn n os) = Some (Crit false p (AnyOf cs')) /\ Forall2 (fun c c' => run c (firstn n os) = Some c') cs cs').
    { induction n as [|n IH]; intros Hn.
      - exists 0%Q, cs. split; auto. clear. induction cs; constructor; auto.
      - destruct (IH ltac:(lia)) as (p & cs' & E & F). destruct (nth_error os n) as [o|] eqn:EN; [|apply nth_error_None in EN; lia].
        rewrite (firstn_S_nth _ _ _ EN). unfold default_run in *. rewrite updates_app, E.
        assert (U : Forall (fun c => update ob_n_gen ob_n_eval (tstep dx igd xtol cvtol ftol n_skip) c o <> None) cs').
        { specialize (HF (S n) Hn). rewrite (firstn_S_nth _ _ _ EN) in HF. clear - F HF. induction F as [|c c' cs cs' H F IH]; constructor; inversion HF as [|? ? A B]; subst; auto.
          rewrite updates_app, H in A. exact A. }
        assert (Hc' : cs' <> []) by (intros ->; inversion F; subst; congruence).
        destruct (update ob_n_gen ob_n_eval (tstep dx igd xtol cvtol ftol n_skip) (Crit false p (AnyOf cs')) o) as [r|] eqn:ER; [|exfalso; apply (proj1 (C35_combined_succeeds _ _ ob_n_gen ob_n_eval (tstep dx igd xtol cvtol ftol n_skip) p cs' o Hc' U)); auto].
        destruct (C35_any _ _ _ _ _ _ _ _ _ ER) as (cs2 & B1 & B2 & B3 & _). destruct r as [f q b]. cbn in B1, B2. subst f b. exists q, cs2. split; auto.
        clear - F B3. revert cs2 B3. induction F as [|c c1 cs cs1 H F IH]; intros cs2 B3; inversion B3; subst; constructor; auto. rewrite updates_app, H. auto. }
    destruct (G (length os) (le_n _)) as (p & cs' & E & _). rewrite firstn_all in E. rewrite E. discriminate.
  Qed.
  (** when the whole criterion is complete *)
  Definition fdone (f : tstate X) (os : list (tobs X)) : Prop := match f with TF _ => lastp stf os | TM _ => lastp stm os | _ => False end.
  Lemma default_exact f os o : f = TF d_new \/ f = TM d_new -> Forall okobs (os ++ [o]) ->
    exists r, run (default_crit f period (Limit (S ng)) (Limit (S ne))) (os ++ [o]) = Some r /\
      (has_terminated r = true <-> lastp stx (os ++ [o]) \/ lastp stc (os ++ [o]) \/ fdone f (os ++ [o]) \/ S ng <= ob_n_gen o \/ S ne <= ob_n_eval o).
  Proof.
    intros Hf HG. set (l := os ++ [o]) in *. assert (Hne : l <> []) by (unfold l; destruct os; discriminate).
    set (cs := [ new (Robust (new (Other (TX d_new))) period []); new (Robust (new (Other (TCV d_new))) period []); new (Robust (new (Other f)) period []); new (MaxGen (Limit (S ng))); new (MaxEval (Limit (S ne))) ]).
    assert (TT : forall n, n <= length l -> Forall (fun c => run c (firstn n l) <> None) cs).
    { intros n Hn. destruct n as [|n]; [cbn [firstn]; repeat constructor; discriminate|].
      assert (HGn : Forall okobs (firstn (S n) l)) by (apply Forall_forall; intros y Hy; rewrite Forall_forall in HG; apply HG; revert Hy; clear; intros Hy; rewrite <- (firstn_skipn (S n) l); apply in_or_app; auto).
      assert (NE : firstn (S n) l <> []) by (destruct l; [congruence|discriminate]).
      destruct (crit_runs _ NE HGn) as ((r1 & R1 & _) & (r2 & R2 & _) & (r3 & R3 & _) & (r4 & R4 & _)).
      destruct (nth_error l n) as [y|] eqn:EY; [|apply nth_error_None in EY; lia].
      constructor; [congruence|]. constructor; [congruence|]. constructor; [destruct Hf; subst f; congruence|].
      rewrite (firstn_S_nth _ _ _ EY). constructor; [apply maxgen_updates|]. constructor; [apply maxeval_updates|constructor]. }
    pose proof (any_total cs l ltac:(discriminate) ltac:(rewrite <- (firstn_all l); apply TT; lia) TT) as TOT.
    change (default_crit f period (Limit (S ng)) (Limit (S ne))) with (new (AnyOf cs)).
    destruct (run (new (AnyOf cs)) l) as [r|] eqn:ER; [|congruence]. exists r. split; auto.
    destruct (any_updates _ _ _ cs l r Hne ER) as (cs' & F & T). rewrite T. clear T TOT TT ER r.
    destruct (crit_runs _ Hne HG) as ((r1 & R1 & T1) & (r2 & R2 & T2) & (r3 & R3 & T3) & (r4 & R4 & T4)).
    unfold cs in F. inversion F as [|? c1 ? cs1 F1 Fa]; subst. inversion Fa as [|? c2 ? cs2 F2 Fb]; subst. inversion Fb as [|? c3 ? cs3 F3 Fc]; subst.
    inversion Fc as [|? c4 ? cs4 F4 Fd]; subst. inversion Fd as [|? c5 ? cs5 F5 Fe]; subst. inversion Fe; subst. clear F Fa Fb Fc Fd Fe.
    unfold default_run in *. rewrite R1 in F1. injection F1 as <-. rewrite R2 in F2. injection F2 as <-.
    pose proof (proj2 (maxgen_updates ob_n_gen ob_n_eval (tstep dx igd xtol cvtol ftol n_skip) ng os o) c4 F4) as T5.
    pose proof (proj2 (maxeval_updates ob_n_gen ob_n_eval (tstep dx igd xtol cvtol ftol n_skip) ne os o) c5 F5) as T6.
    assert (TF3 : has_terminated c3 = true <-> fdone f l).
    { destruct Hf; subst f; cbn [fdone]; [rewrite R3 in F3|rewrite R4 in F3]; injection F3 as <-; auto. }
    rewrite !Exists_cons, Exists_nil, T1, T2, TF3, T5, T6. tauto.
  Qed.
End Main.

Lemma lastp_stalled {X D} (delta : D -> D -> option Q) tol n_skip (act : tobs X -> bool) (dat : tobs X -> D) (part : tobs X -> Prop) (close : tobs X -> tobs X -> Prop) period os :
  0 < period -> os <> [] -> (forall o, In o os -> (act o = true <-> part o)) ->
  (forall o o', In o os -> In o' os -> part o -> part o' -> within delta tol dat o o' -> close o o') ->
  lastp period (tst delta tol n_skip act dat) os -> stalled part close period os.
Proof.
  intros Hp Hne HA HC HL. assert (Hn : 0 < length os) by (destruct os; [congruence|simpl; lia]).
  destruct (done_run delta tol n_skip act dat os (length os - period) ltac:(lia) HL) as (s & o & S1 & S2 & S3 & S4 & S5).
  assert (In o os) by (eapply nth_error_In; eauto). exists s, o. split; [lia|]. split; auto. split; [now apply HA|]. split.
  - intros i o' Hi HN HP. assert (In o' os) by (eapply nth_error_In; eauto). apply HC; auto; [now apply HA|]. apply (S4 i o'); auto. now apply HA.
  - intros i o' Hi HN. apply HA; [eapply nth_error_In; eauto|]. eauto.
Qed.
Lemma so_close {X} ftol (o o' : tobs X) : within so_delta ftol (so_data true) o o' -> f_close ftol o o'.
Proof.
  intros (d & D1 & D2). unfold so_delta in D1. destruct (so_data true o) as [b|] eqn:E1; [|discriminate]. destruct (so_data true o') as [b'|] eqn:E2; [|discriminate].
  injection D1 as <-. exists b, b'. split; [now apply so_best|]. split; [now apply so_best|]. apply (py_max_le 0 [(b - b')%Q]) in D2.
  exact (Forall_inv (Forall_inv_tail D2)).
Qed.
Lemma cvc_close {X} cvtol (o o' : tobs X) : ob_cv o <> [] -> ob_cv o' <> [] -> within cv_delta cvtol cv_dat o o' -> cv_close cvtol o o'.
Proof.
  intros H H' (d & D1 & D2). unfold cv_delta in D1. injection D1 as <-. exists (cv_dat o), (cv_dat o'). split; [now apply cv_least|]. split; [now apply cv_least|].
  apply (py_max_le 0 [(cv_dat o - cv_dat o')%Q]) in D2. exact (Forall_inv (Forall_inv_tail D2)).
Qed.
(** ** C101: soundness.  The default single-objective termination never raises, and if it stops the run after the observations [os ++ [o]], then a budget is exhausted, or for
    at least [period] observations the optimum did not move by more than xtol in the design space, or nothing feasible was known and the violation did not drop by more than
    cvtol, or the best feasible objective value did not improve by more than ftol *)
Theorem C101_single : forall (X : Type) dx igd xtol cvtol ftol n_skip period ng ne os (o : tobs X), 0 < period -> Forall (fun o => ob_cv o <> []) (os ++ [o]) ->
  exists r, default_run dx igd xtol cvtol ftol n_skip (default_single period (Limit (S ng)) (Limit (S ne))) (os ++ [o]) = Some r /\
  (S ng <= ob_n_gen o \/ S ne <= ob_n_eval o -> has_terminated r = true) /\
  (has_terminated r = true ->
     (S ng <= ob_n_gen o \/ S ne <= ob_n_eval o) \/
     stalled (fun _ => True) (x_close dx xtol) period (os ++ [o]) \/
     stalled nothing_feasible (cv_close cvtol) period (os ++ [o]) \/
     stalled (fun _ => True) (f_close ftol) period (os ++ [o])).
Proof.
  intros X dx igd xtol cvtol ftol n_skip period ng ne os o Hp HG.
  destruct (default_exact dx igd xtol cvtol ftol n_skip period ng ne Hp (TF d_new) os o (or_introl eq_refl) HG) as (r & R & T).
  assert (Hne : os ++ [o] <> []) by (destruct os; discriminate). exists r. split; [exact R|]. split; [intros H; apply T; tauto|]. intros H. apply T in H.
  destruct H as [H|[H|[H|H]]]; [| | |left; tauto].
  - right. left. apply (lastp_stalled dx xtol n_skip yes ob_x); [exact Hp|exact Hne|unfold yes; tauto| |exact H]. intros a b _ _ _ _ W. exact W.
  - right. right. left. apply (lastp_stalled cv_delta cvtol n_skip cv_act cv_dat); [exact Hp|exact Hne|intros; apply cv_act_iff| |exact H]. rewrite Forall_forall in HG. intros a b Ha Hb _ _ W. apply cvc_close; auto; now apply HG.
  - right. right. right. apply (lastp_stalled so_delta ftol n_skip yes (so_data true)); [exact Hp|exact Hne|unfold yes; tauto| |exact H]. intros a b _ _ _ _ W. now apply so_close.
Qed.
(** the same for several objectives *)
Theorem C101_multi : forall (X : Type) dx igd xtol cvtol ftol n_skip n_obj period ng ne os (o : tobs X), 0 < period -> 0 < n_obj ->
  Forall (fun o => ob_cv o <> [] /\ forall row, In row (ob_F o) -> length row = n_obj) (os ++ [o]) ->
  exists r, default_run dx igd xtol cvtol ftol n_skip (default_multi period (Limit (S ng)) (Limit (S ne))) (os ++ [o]) = Some r /\
  (S ng <= ob_n_gen o \/ S ne <= ob_n_eval o -> has_terminated r = true) /\
  (has_terminated r = true ->
     (S ng <= ob_n_gen o \/ S ne <= ob_n_eval o) \/
     stalled (fun _ => True) (x_close dx xtol) period (os ++ [o]) \/
     stalled nothing_feasible (cv_close cvtol) period (os ++ [o]) \/
     stalled (fun _ => True) (m_close igd n_obj ftol) period (os ++ [o])).
Proof.
  intros X dx igd xtol cvtol ftol n_skip m period ng ne os o Hp Hm HG.
  assert (HG1 : Forall (fun o => ob_cv o <> []) (os ++ [o])) by (eapply Forall_impl; [|exact HG]; cbv beta; tauto).
  destruct (default_exact dx igd xtol cvtol ftol n_skip period ng ne Hp (TM d_new) os o (or_intror eq_refl) HG1) as (r & R & T).
  assert (Hne : os ++ [o] <> []) by (destruct os; discriminate). exists r. split; [exact R|]. split; [intros H; apply T; tauto|]. intros H. apply T in H.
  rewrite Forall_forall in HG. destruct H as [H|[H|[H|H]]]; [| | |left; tauto].
  - right. left. apply (lastp_stalled dx xtol n_skip yes ob_x); [exact Hp|exact Hne|unfold yes; tauto| |exact H]. intros a b _ _ _ _ W. exact W.
  - right. right. left. apply (lastp_stalled cv_delta cvtol n_skip cv_act cv_dat); [exact Hp|exact Hne|intros; apply cv_act_iff| |exact H]. intros a b Ha Hb _ _ W. apply cvc_close; auto; now apply HG.
  - right. right. right. apply (lastp_stalled (mo_delta igd) ftol n_skip yes (mo_data true)); [exact Hp|exact Hne|unfold yes; tauto| |exact H]. intros a b Ha Hb _ _ (d & D1 & D2). apply (mo_close igd m ftol a b d); auto.
    intros row Hr. apply in_app_or in Hr. destruct Hr; [apply (HG a)|apply (HG b)]; auto.
Qed.
(** in particular: neither stops within the first [period] observations except for a budget, and no stop blamed on the objective values or, with something feasible in the
    optimum, on the violation, is possible without a feasible solution (resp. with one) *)
Theorem C101_not_early : forall (X : Type) dx igd xtol cvtol ftol n_skip period ng ne os (o : tobs X) c r, 0 < period -> Forall (fun o => ob_cv o <> []) (os ++ [o]) ->
  c = default_single period (Limit (S ng)) (Limit (S ne)) \/ c = default_multi period (Limit (S ng)) (Limit (S ne)) ->
  length (os ++ [o]) <= period -> ob_n_gen o < S ng -> ob_n_eval o < S ne ->
  default_run dx igd xtol cvtol ftol n_skip c (os ++ [o]) = Some r -> has_terminated r = false.
Proof.
  intros X dx igd xtol cvtol ftol n_skip period ng ne os o c r Hp HG Hc HL H1 H2 HR.
  assert (Hne : os ++ [o] <> []) by (destruct os; discriminate).
  assert (NS : forall D (delta : D -> D -> option Q) tol (act : tobs X -> bool) dat, ~ lastp period (tst delta tol n_skip act dat) (os ++ [o])).
  { intros D delta tol act dat HLP. destruct (done_run delta tol n_skip act dat (os ++ [o]) (length (os ++ [o]) - period)) as (s & x & S1 & _); auto; [rewrite app_length; simpl; lia|]. lia. }
  assert (G : forall f, f = TF d_new \/ f = TM d_new -> default_run dx igd xtol cvtol ftol n_skip (default_crit f period (Limit (S ng)) (Limit (S ne))) (os ++ [o]) = Some r -> has_terminated r = false).
  { intros f Hf HR'. destruct (default_exact dx igd xtol cvtol ftol n_skip period ng ne Hp f os o Hf HG) as (r' & R & T). rewrite R in HR'. injection HR' as ->.
    destruct (has_terminated r) eqn:E; auto. exfalso. destruct (proj1 T eq_refl) as [K|[K|[K|[K|K]]]]; [| | |lia|lia]; revert K; try apply NS.
    destruct Hf; subst f; apply NS. }
  destruct Hc; subst c; [apply (G (TF d_new))|apply (G (TM d_new))]; auto.
Qed.
(** ** C101: completeness.  Once nothing changes any more, it stops: [period + n_skip + 1] further observations suffice *)
Definition from {X} (k : nat) (os : list (tobs X)) (P : tobs X -> Prop) : Prop := forall i o, k <= i -> nth_error os i = Some o -> P o.
Lemma lastp_intro {X D} (delta : D -> D -> option Q) tol n_skip (act : tobs X -> bool) (dat : tobs X -> D) period os k :
  k + n_skip + 1 + period <= length os -> 0 < period ->
  (forall i o', k <= i -> nth_error os i = Some o' -> act o' = true) ->
  (forall x y, In x (skipn k os) -> In y (skipn k os) -> within delta tol dat x y) ->
  (forall d x y, In x (skipn k os) -> In y (skipn k os) -> (exists dl, delta d (dat x) = Some dl /\ (dl <= tol)%Q) -> exists dl, delta d (dat y) = Some dl /\ (dl <= tol)%Q) ->
  lastp period (tst delta tol n_skip act dat) os.
Proof.
  intros Hk Hp HA HW HS j Hj.
  assert (IN : forall i x, k <= i -> nth_error os i = Some x -> In x (skipn k os)).
  { clear. intros i x Hi HN. assert (E : nth_error (skipn k os) (i - k) = Some x).
    { rewrite <- HN. rewrite <- (firstn_skipn k os) at 2. assert (L : i < length os) by (apply nth_error_Some; congruence).
      rewrite nth_error_app2; rewrite firstn_length; [f_equal; lia|lia]. }
    eapply nth_error_In; eauto. }
  apply (stall_done delta tol n_skip act dat os k); [lia|exact HA| | |lia].
  - intros i j' x y Hi Hj' Nx Ny. apply HW; eauto.
  - intros d i j' x y Hi Hj' Nx Ny. apply HS; eauto.
Qed.
Lemma In_skipn_from {X} k (os : list (tobs X)) P x : from k os P -> In x (skipn k os) -> P x.
Proof.
  intros HF HI. apply In_nth_error in HI. destruct HI as (j & Hj). apply (HF (k + j) x); [lia|]. rewrite <- Hj. rewrite <- (firstn_skipn k os) at 1.
  assert (L : j < length (skipn k os)) by (apply nth_error_Some; congruence). rewrite skipn_length in L.
  rewrite nth_error_app2; rewrite firstn_length; [f_equal; lia|lia].
Qed.
Theorem C101_stops : forall (X : Type) dx igd xtol cvtol ftol n_skip period ng ne os (o : tobs X) k, 0 < period -> (0 <= cvtol)%Q -> (0 <= ftol)%Q -> Forall (fun o => ob_cv o <> []) (os ++ [o]) ->
  k + n_skip + 1 + period <= length (os ++ [o]) ->
  let single := default_run dx igd xtol cvtol ftol n_skip (default_single period (Limit (S ng)) (Limit (S ne))) (os ++ [o]) in
  let multi := default_run dx igd xtol cvtol ftol n_skip (default_multi period (Limit (S ng)) (Limit (S ne))) (os ++ [o]) in
  let stops := fun r => exists c, r = Some c /\ has_terminated c = true in
  (forall x d, from k (os ++ [o]) (fun o' => ob_x o' = x) -> dx x x = Some d -> (d <= xtol)%Q -> stops single /\ stops multi) /\
  (forall c, from k (os ++ [o]) (fun o' => nothing_feasible o' /\ least_cv o' c) -> stops single /\ stops multi) /\
  (forall b, from k (os ++ [o]) (fun o' => best_feasible o' b) -> stops single) /\
  (forall F, F <> [] -> from k (os ++ [o]) (fun o' => feasible_rows o' = F) -> (forall N, (igd N N <= ftol)%Q) -> stops multi).
Proof.
  intros X dx igd xtol cvtol ftol n_skip period ng ne os o k Hp Hcv Hft HG HL single multi stops. set (l := os ++ [o]) in *.
  destruct (default_exact dx igd xtol cvtol ftol n_skip period ng ne Hp (TF d_new) os o (or_introl eq_refl) HG) as (r & R & T).
  destruct (default_exact dx igd xtol cvtol ftol n_skip period ng ne Hp (TM d_new) os o (or_intror eq_refl) HG) as (r' & R' & T').
  fold l in T, T', R, R'.
  assert (SG : (lastp period (tst dx xtol n_skip yes ob_x) l \/ lastp period (tst cv_delta cvtol n_skip cv_act cv_dat) l) -> stops single /\ stops multi).
  { intros H. split; [exists r|exists r']; (split; [assumption|]); [apply T|apply T']; tauto. }
  split; [|split; [|split]].
  - intros x d HF HD Hd. apply SG. left. apply (lastp_intro _ _ _ _ _ _ _ k); auto.
    + intros a b Ha Hb. exists d. rewrite (In_skipn_from _ _ _ _ HF Ha), (In_skipn_from _ _ _ _ HF Hb). auto.
    + intros e a b Ha Hb. rewrite (In_skipn_from _ _ _ _ HF Ha), (In_skipn_from _ _ _ _ HF Hb). auto.
  - intros c HF. apply SG. right. rewrite Forall_forall in HG.
    assert (EQ : forall a, In a (skipn k l) -> (cv_dat a == c)%Q).
    { intros a Ha. destruct (In_skipn_from _ _ _ _ HF Ha) as [_ [A1 A2]]. assert (IA : In a l) by (rewrite <- (firstn_skipn k l); apply in_or_app; auto).
      destruct (cv_least a (HG a IA)) as [B1 B2]. apply Qle_antisym; auto. }
    apply (lastp_intro _ _ _ _ _ _ _ k); auto.
    + intros i o' Hi HN. apply cv_act_iff. exact (proj1 (HF i o' Hi HN)).
    + intros a b Ha Hb. eexists. split; [reflexivity|]. apply py_max_le. pose proof (EQ a Ha). pose proof (EQ b Hb). constructor; auto. constructor; [lra|constructor].
    + intros e a b Ha Hb (dl & [= <-] & L). eexists. split; [reflexivity|]. pose proof (EQ a Ha). pose proof (EQ b Hb).
      apply (py_max_le 0 [(e - cv_dat a)%Q]) in L. pose proof (Forall_inv L). pose proof (Forall_inv (Forall_inv_tail L)). cbv beta in *.
      apply py_max_le. constructor; auto. constructor; [lra|constructor].
  - intros b HF. exists r. split; [assumption|]. apply T. right. right. left. cbn [fdone].
    assert (EQ : forall a, In a (skipn k l) -> exists b', so_data true a = Some b' /\ (b' == b)%Q).
    { intros a Ha. apply so_best_conv. exact (In_skipn_from _ _ _ _ HF Ha). }
    apply (lastp_intro _ _ _ _ _ _ _ k); auto.
    + intros a a' Ha Ha'. destruct (EQ a Ha) as (b1 & E1 & Q1). destruct (EQ a' Ha') as (b2 & E2 & Q2). unfold within, so_delta. rewrite E1, E2. eexists. split; [reflexivity|].
      apply py_max_le. constructor; auto. constructor; [lra|constructor].
    + intros e a a' Ha Ha' (dl & D1 & L). destruct (EQ a Ha) as (b1 & E1 & Q1). destruct (EQ a' Ha') as (b2 & E2 & Q2). unfold so_delta in *. rewrite E1 in D1. rewrite E2. destruct e as [e|]; [|discriminate].
      injection D1 as <-. eexists. split; [reflexivity|].
      apply (py_max_le 0 [(e - b1)%Q]) in L. pose proof (Forall_inv L). pose proof (Forall_inv (Forall_inv_tail L)). cbv beta in *.
      apply py_max_le. constructor; auto. constructor; [lra|constructor].
  - intros F HN HF HI. exists r'. split; [assumption|]. apply T'. right. right. left. cbn [fdone].
    assert (MD : forall a, In a (skipn k l) -> mo_data true a = F). { intros a Ha. exact (In_skipn_from _ _ _ _ HF Ha). }
    assert (SELF : forall u n, (calc_delta_norm u u n <= ftol)%Q).
    { intros u n. unfold calc_delta_norm.
      assert (Z : Forall (fun y => (y == 0)%Q) (map2 (fun d k : Q => Qabs (d / k)) (map2 Qminus u u) n)).
      { revert n. clear. induction u as [|x u IH]; intros [|y n]; cbn [map2]; constructor; auto. assert (E : ((x - x) / y == 0)%Q) by (unfold Qdiv, Qminus; rewrite Qplus_opp_r; apply Qmult_0_l). rewrite E. reflexivity. }
      destruct (map2 (fun d k : Q => Qabs (d / k)) (map2 Qminus u u) n) as [|z zs]; [exact Hft|]. apply py_max_le. eapply Forall_impl; [|exact Z]. intros y Hy. cbv beta in Hy. lra. }
    apply (lastp_intro _ _ _ _ _ _ _ k); auto.
    + intros a a' Ha Ha'. unfold within. rewrite (MD a Ha), (MD a' Ha'). destruct F as [|f0 F0] eqn:EF; [congruence|]. eexists. split; [reflexivity|].
      apply py_max_le. constructor; [apply SELF|]. constructor; [apply SELF|]. constructor; [apply HI|constructor].
    + intros e a a' Ha Ha'. now rewrite (MD a Ha), (MD a' Ha').
Qed.
