(** * C101: the default terminations *)
From Coq Require Import List Arith Bool QArith Qabs Lia Lqa.
From Verif Require Import ListAux M_Termination P_Termination Thm_Termination M_Default.
Import ListNotations.
Local Open Scope nat_scope.

(** ** one tolerance criterion, seen from outside: [act o] whether the observation takes part, [dat o] what is remembered *)
Section Stall.
  Context {O D : Type}.
  Variables (delta : D -> D -> option Q) (tol : Q) (n_skip : nat) (act : O -> bool) (dat : O -> D).
  Definition tupd (st : @dstate D) (o : O) : @dstate D := if act o then delta_update delta tol n_skip st (dat o) else set_perc st 0.
  Definition tst (os : list O) : @dstate D := fold_left tupd os d_new.
  (** "o differs from the earlier s by at most the tolerance" *)
  Definition within (s o : O) : Prop := exists dl, delta (dat s) (dat o) = Some dl /\ (dl <= tol)%Q.
  Definition done (st : @dstate D) : Prop := (1 <= d_perc st)%Q.
  Lemma tst_snoc os o : tst (os ++ [o]) = tupd (tst os) o.
  Proof. unfold tst. now rewrite fold_left_app. Qed.
  Definition skipping (st : @dstate D) : bool := (0 <? d_counter st) && negb (d_counter st mod (n_skip + 1) =? 0).
  (** the reference: position of the observation the next one is compared with *)
  Definition ref_ok (os : list O) (st : @dstate D) : Prop :=
    (0 <= d_perc st <= 1)%Q /\ (done st -> skipping st = false /\ d_data st <> None) /\ (d_data st = None -> d_counter st = 0) /\
    forall d, d_data st = Some d -> exists s o, nth_error os s = Some o /\ act o = true /\ dat o = d /\
       forall i o', s < i -> nth_error os i = Some o' -> act o' = true -> within o o'.
  Lemma nth_snoc {A} (l : list A) x i y : nth_error (l ++ [x]) i = Some y -> nth_error l i = Some y \/ (i = length l /\ y = x).
  Proof.
    clear. intros H. destruct (le_lt_dec (length l) i) as [L|L].
    - rewrite nth_error_app2 in H by lia. destruct (i - length l) as [|k] eqn:E; simpl in H; [|destruct k; discriminate].
      injection H as <-. right. split; auto; lia.
    - rewrite nth_error_app1 in H by lia. auto.
  Qed.
  Lemma ref_step os o : ref_ok os (tst os) -> ref_ok (os ++ [o]) (tst (os ++ [o])).
  Proof.
    rewrite tst_snoc. set (st := tst os). intros (H1 & H2 & H3 & H4). unfold tupd. destruct (act o) eqn:EA.
    2:{ unfold ref_ok, set_perc, done in *. cbn [d_perc d_data]. split; [lra|]. split; [intros; lra|]. split; [exact H3|].
        intros d Hd. destruct (H4 d Hd) as (s & x & E1 & E2 & E3 & E4). exists s, x.
        assert (s < length os) by (apply nth_error_Some; congruence).
        split; [rewrite nth_error_app1; auto|]. split; auto. split; auto. intros i o' Hi HN HA.
        apply nth_snoc in HN. destruct HN as [HN|[_ ->]]; [eauto|congruence]. }
    assert (New : forall p, (0 <= p <= 1)%Q -> ~ (1 <= p)%Q -> ref_ok (os ++ [o]) (d_remember st (dat o) p)).
    { intros p Hp Hn. unfold ref_ok, d_remember, done. cbn [d_perc d_data]. split; auto. split; [tauto|]. split; [discriminate|].
      intros d [= <-]. exists (length os), o. split; [rewrite nth_error_app2, Nat.sub_diag; auto|]. split; auto. split; auto.
      intros i o' Hi HN _. exfalso. apply nth_snoc in HN. destruct HN as [HN|[-> _]]; [|lia].
      assert (i < length os) by (apply nth_error_Some; congruence). lia. }
    unfold delta_update. destruct (d_data st) as [prev|] eqn:E; [|apply New; lra].
    fold (skipping st). destruct (skipping st) eqn:ES.
    { apply New; auto. intros C. destruct (H2 C) as [C1 _]. congruence. }
    destruct (H4 prev eq_refl) as (s & x & E1 & E2 & E3 & E4).
    destruct (delta prev (dat o)) as [dl|] eqn:ED; [|apply New; lra].
    destruct (Qle_bool dl tol) eqn:EQ.
    - apply Qle_bool_iff in EQ. unfold ref_ok, done, skipping. cbn [d_perc d_data d_counter]. split; [lra|]. split; [intros _; split; [exact ES|discriminate]|].
      split; [discriminate|]. intros d [= <-]. assert (s < length os) by (apply nth_error_Some; congruence). exists s, x.
      split; [rewrite nth_error_app1; auto|]. split; auto. split; auto. intros i o' Hi HN HA.
      apply nth_snoc in HN. destruct HN as [HN|[_ ->]]; [eauto|]. exists dl. rewrite E3. auto.
    - assert (Hd : (tol < dl)%Q). { apply Qnot_le_lt. intros C. apply Qle_bool_iff in C. congruence. }
      assert (HB : (0 < 1 / (1 + (dl - tol)) < 1)%Q). { split; [apply Qlt_shift_div_l; lra|apply Qlt_shift_div_r; lra]. }
      apply New; lra.
  Qed.
  Lemma ref_all os : ref_ok os (tst os).
  Proof.
    induction os as [|o os IH] using rev_ind; [|now apply ref_step].
    unfold ref_ok, tst, done. cbn. split; [lra|]. split; [intros; lra|]. split; [auto|discriminate].
  Qed.
  (** a complete update took part and did not move the reference; an incomplete one that took part is the new reference *)
  Lemma done_step os o : done (tst (os ++ [o])) -> act o = true /\ d_data (tst (os ++ [o])) = d_data (tst os) /\ d_data (tst os) <> None.
  Proof.
    rewrite tst_snoc. pose proof (ref_all os) as (H1 & H2 & H3 & H4). set (st := tst os) in *. unfold tupd, done.
    destruct (act o); [|cbn [set_perc d_perc]; intros; lra]. unfold delta_update. destruct (d_data st) as [prev|] eqn:E; [|cbn; intros; lra].
    fold (skipping st). destruct (skipping st) eqn:ES; [cbn [d_remember d_perc]; intros C; destruct (H2 C); congruence|].
    destruct (delta prev (dat o)) as [dl|]; [|cbn; intros; lra]. destruct (Qle_bool dl tol) eqn:EQ.
    - intros _. cbn [d_data]. split; auto. split; auto. discriminate.
    - assert (Hd : (tol < dl)%Q). { apply Qnot_le_lt. intros C. apply Qle_bool_iff in C. congruence. }
      assert (HB : (0 < 1 / (1 + (dl - tol)) < 1)%Q). { split; [apply Qlt_shift_div_l; lra|apply Qlt_shift_div_r; lra]. }
      cbn [d_remember d_perc]. intros; lra.
  Qed.
  Lemma done_within os o d : done (tst (os ++ [o])) -> d_data (tst os) = Some d -> exists dl, delta d (dat o) = Some dl /\ (dl <= tol)%Q.
  Proof.
    intros DL ED. destruct (done_step _ _ DL) as (DA & _ & _). destruct (ref_all os) as (H1 & H2 & _ & _).
    rewrite tst_snoc in DL. unfold tupd in DL. rewrite DA in DL. unfold delta_update in DL. rewrite ED in DL.
    fold (skipping (tst os)) in DL. destruct (skipping (tst os)) eqn:ES.
    { unfold done in DL. cbn [d_remember d_perc] in DL. destruct (H2 DL) as [C _]. congruence. }
    destruct (delta d (dat o)) as [dl|]; [|unfold done in DL; cbn in DL; lra]. exists dl. split; auto.
    destruct (Qle_bool dl tol) eqn:EQ; [now apply Qle_bool_iff|].
    assert (Hd : (tol < dl)%Q). { apply Qnot_le_lt. intros C. apply Qle_bool_iff in C. congruence. }
    assert (HB : (0 < 1 / (1 + (dl - tol)) < 1)%Q). { split; [apply Qlt_shift_div_l; lra|apply Qlt_shift_div_r; lra]. }
    unfold done in DL. cbn [d_remember d_perc] in DL. lra.
  Qed.
  Lemma firstn_S_nth {A} (l : list A) m x : nth_error l m = Some x -> firstn (S m) l = firstn m l ++ [x].
  Proof. clear. revert m. induction l as [|y l IH]; intros [|m] H; simpl in *; try discriminate; [now injection H as ->|]. f_equal. auto. Qed.
  Lemma nth_firstn_err {A} (l : list A) m i : i < m -> nth_error (firstn m l) i = nth_error l i.
  Proof. clear. revert m i. induction l as [|y l IH]; intros [|m] [|i] H; simpl; auto; try lia. apply IH. lia. Qed.
  (** complete after each of the updates [k .. length os - 1]: then they all took part, and everything since some earlier observation stayed within the tolerance of it *)
  Lemma done_run os k : k < length os -> (forall j, k <= j < length os -> done (tst (firstn (S j) os))) ->
    exists s o, s < k /\ nth_error os s = Some o /\ act o = true /\
      (forall i o', s < i -> nth_error os i = Some o' -> act o' = true -> within o o') /\
      (forall i o', k <= i -> nth_error os i = Some o' -> act o' = true).
  Proof.
    intros Hk HD.
    assert (Step : forall j o, k <= j -> nth_error os j = Some o -> done (tst (firstn j os ++ [o]))).
    { intros j o Hj HN. rewrite <- (firstn_S_nth _ _ _ HN). apply HD. split; auto. apply nth_error_Some. congruence. }
    destruct (nth_error os k) as [ok|] eqn:EK; [|apply nth_error_None in EK; lia].
    destruct (done_step _ _ (Step k ok (le_n _) EK)) as (_ & _ & DN).
    destruct (ref_all (firstn k os)) as (_ & _ & _ & R). destruct (d_data (tst (firstn k os))) as [d|] eqn:ED; [|congruence].
    destruct (R d eq_refl) as (s & o & E1 & E2 & E3 & E4).
    assert (Hs : s < k). { assert (s < length (firstn k os)) by (apply nth_error_Some; congruence). rewrite firstn_length in H. lia. }
    rewrite nth_firstn_err in E1 by auto.
    assert (M : forall m, k <= m <= length os -> d_data (tst (firstn m os)) = Some d /\
                (forall i o', s < i -> i < m -> nth_error os i = Some o' -> act o' = true -> within o o')).
    { intros m. induction m as [|m IH]; intros Hm; [lia|]. destruct (Nat.eq_dec k (S m)) as [<-|NE].
      - split; auto. intros i o' Hi Hik HN HA. apply (E4 i o'); auto. now rewrite nth_firstn_err.
      - destruct (IH ltac:(lia)) as [I1 I2]. destruct (nth_error os m) as [om|] eqn:EM; [|apply nth_error_None in EM; lia].
        pose proof (Step m om ltac:(lia) EM) as DM. rewrite (firstn_S_nth _ _ _ EM). destruct (done_step _ _ DM) as (D1 & D2 & D3).
        split; [congruence|]. intros i o' Hi Him HN HA. destruct (Nat.eq_dec i m) as [->|Ni]; [|apply (I2 i o'); auto; lia].
        rewrite EM in HN. injection HN as ->. unfold within. rewrite E3. eapply done_within; eauto. }
    destruct (M (length os) ltac:(lia)) as [_ M2]. exists s, o. split; auto. split; auto. split; auto. split.
    - intros i o' Hi HN HA. apply (M2 i o'); auto. apply nth_error_Some. congruence.
    - intros i o' Hi HN. exact (proj1 (done_step _ _ (Step i o' Hi HN))).
  Qed.
  (** an update that took part without completing becomes the reference *)
  Lemma not_done_ref os o : act o = true -> ~ done (tst (os ++ [o])) -> d_data (tst (os ++ [o])) = Some (dat o).
  Proof.
    intros HA. rewrite tst_snoc. unfold tupd. rewrite HA. unfold delta_update, done. set (st := tst os).
    destruct (d_data st) as [prev|]; [|auto]. destruct (_ && _); [auto|]. destruct (delta prev (dat o)) as [dl|]; [|auto].
    destruct (Qle_bool dl tol); auto. cbn [d_perc]. intros C. exfalso. apply C. lra.
  Qed.
  (** nothing changes any more from position k on (up to what the difference sees): complete from position k + n_skip + 1 on *)
  Lemma stall_done os k : k < length os -> (forall i o', k <= i -> nth_error os i = Some o' -> act o' = true) ->
    (forall i j x y, k <= i -> k <= j -> nth_error os i = Some x -> nth_error os j = Some y -> within x y) ->
    (forall d i j x y, k <= i -> k <= j -> nth_error os i = Some x -> nth_error os j = Some y ->
       (exists dl, delta d (dat x) = Some dl /\ (dl <= tol)%Q) -> exists dl, delta d (dat y) = Some dl /\ (dl <= tol)%Q) ->
    forall j, k + n_skip + 1 <= j < length os -> done (tst (firstn (S j) os)).
  Proof.
    intros HK HA HW HS.
    assert (HO : forall j, k <= j < length os -> exists x, nth_error os j = Some x /\ firstn (S j) os = firstn j os ++ [x] /\ act x = true).
    { intros j Hj. destruct (nth_error os j) as [x|] eqn:E; [|apply nth_error_None in E; lia]. exists x. split; auto. split; [now apply firstn_S_nth|].
      apply (HA j x); auto. lia. }
    (* once complete, always complete *)
    assert (A1 : forall j, k <= j < length os -> done (tst (firstn (S j) os)) -> S j < length os -> done (tst (firstn (S (S j)) os))).
    { intros j Hj HD HJ. destruct (HO j Hj) as (x & X1 & X2 & X3). destruct (HO (S j) ltac:(lia)) as (y & Y1 & Y2 & Y3).
      rewrite Y2, tst_snoc. rewrite X2 in HD |- *. destruct (done_step _ _ HD) as (D1 & D2 & D3).
      destruct (d_data (tst (firstn j os))) as [d|] eqn:ED; [|congruence].
      destruct (HS d j (S j) x y ltac:(lia) ltac:(lia) X1 Y1 (done_within _ _ _ HD ED)) as (dl & L1 & L2).
      destruct (ref_all (firstn j os ++ [x])) as (_ & H2 & _). destruct (H2 HD) as [S1 _].
      unfold tupd. rewrite Y3. unfold delta_update. rewrite D2. fold (skipping (tst (firstn j os ++ [x]))). rewrite S1.
      rewrite L1. apply Qle_bool_iff in L2. rewrite L2. unfold done. cbn [d_perc]. lra. }
    (* otherwise the counter goes up *)
    assert (A2 : forall j, k <= j < length os -> ~ done (tst (firstn (S j) os)) -> (exists x, nth_error os j = Some x /\ d_data (tst (firstn (S j) os)) = Some (dat x)) /\
                 d_counter (tst (firstn (S j) os)) = S (d_counter (tst (firstn j os)))).
    { intros j Hj HN. destruct (HO j Hj) as (x & X1 & X2 & X3). rewrite X2 in *. split; [exists x; split; auto; now apply not_done_ref|].
      revert HN. rewrite tst_snoc. unfold tupd. rewrite X3. unfold delta_update, done. set (st := tst (firstn j os)).
      assert (RM : forall p, d_counter (d_remember st (dat x) p) = S (d_counter st)) by (intros; cbn; lia).
      destruct (d_data st) as [prev|]; [|intros; apply RM]. destruct (_ && _); [intros; apply RM|]. destruct (delta prev (dat x)) as [dl|]; [|intros; apply RM].
      destruct (Qle_bool dl tol); [|intros; apply RM]. cbn [d_perc]. intros C. exfalso. apply C. lra. }
    (* a comparing update whose reference is one of these observations completes *)
    assert (A3 : forall j i y, k < j < length os -> k <= i -> nth_error os i = Some y -> d_data (tst (firstn j os)) = Some (dat y) ->
                 d_counter (tst (firstn j os)) mod (n_skip + 1) = 0 -> done (tst (firstn (S j) os))).
    { intros j i y Hj Hi HY HD HM. destruct (HO j ltac:(lia)) as (x & X1 & X2 & X3). rewrite X2, tst_snoc. unfold tupd. rewrite X3. unfold delta_update. rewrite HD, HM.
      cbn [Nat.eqb negb]. rewrite andb_false_r. destruct (HW i j y x ltac:(lia) ltac:(lia) HY X1) as (dl & L1 & L2). rewrite L1. apply Qle_bool_iff in L2. rewrite L2. unfold done. cbn [d_perc]. lra. }
    assert (Dec : forall st : @dstate D, done st \/ ~ done st). { intros st. unfold done. destruct (Qlt_le_dec (d_perc st) 1); [right; lra|left; lra]. }
    assert (Once : forall j0 j, k <= j0 -> done (tst (firstn (S j0) os)) -> j0 <= j < length os -> done (tst (firstn (S j) os))).
    { intros j0 j H0 HD Hj. induction j as [|j IH]; [replace j0 with 0 in * by lia; auto|]. destruct (Nat.eq_dec j0 (S j)) as [<-|NE]; auto.
      apply A1; [lia| |lia]. apply IH. lia. }
    intros j Hj.
    destruct (Dec (tst (firstn (S (k + n_skip + 1)) os))) as [Y|N]; [apply (Once (k + n_skip + 1)); auto; lia|]. exfalso.
    (* none of k .. k + n_skip + 1 completed, so the counter passed through a multiple of n_skip + 1 *)
    assert (NN : forall i, k <= i <= k + n_skip + 1 -> ~ done (tst (firstn (S i) os))).
    { intros i Hi C. apply N. apply (Once i); auto; lia. }
    set (c := d_counter (tst (firstn (S k) os))).
    assert (CC : forall t, t <= n_skip + 1 -> d_counter (tst (firstn (S (k + t)) os)) = c + t).
    { induction t as [|t IH]; intros Ht; [unfold c; rewrite !Nat.add_0_r; auto|].
      destruct (A2 (k + S t) ltac:(lia) (NN (k + S t) ltac:(lia))) as [_ A]. rewrite A. replace (k + S t) with (S (k + t)) by lia. rewrite IH by lia. lia. }
    pose proof (Nat.mod_upper_bound c (n_skip + 1) ltac:(lia)) as MB.
    set (t := if c mod (n_skip + 1) =? 0 then 0 else n_skip + 1 - c mod (n_skip + 1)).
    assert (Ht : t <= n_skip). { unfold t. destruct (Nat.eqb_spec (c mod (n_skip + 1)) 0); lia. }
    assert (MZ : (c + t) mod (n_skip + 1) = 0).
    { unfold t. destruct (Nat.eqb_spec (c mod (n_skip + 1)) 0) as [Z|Z]; [now rewrite Nat.add_0_r|].
      rewrite (Nat.div_mod c (n_skip + 1)) at 1 by lia.
      replace ((n_skip + 1) * (c / (n_skip + 1)) + c mod (n_skip + 1) + (n_skip + 1 - c mod (n_skip + 1))) with ((1 + c / (n_skip + 1)) * (n_skip + 1)) by (set (u := c / (n_skip + 1)) in *; set (v := c mod (n_skip + 1)) in *; clearbody u v; nia).
      apply Nat.mod_mul. lia. }
    destruct (A2 (k + t) ltac:(lia) (NN (k + t) ltac:(lia))) as [(y & Y1 & Y2) _].
    apply (NN (S (k + t)) ltac:(lia)). apply (A3 _ (k + t) y); [lia|lia|exact Y1|exact Y2|rewrite CC by lia; exact MZ].
  Qed.
End Stall.

(** ** from criteria to runs *)
Section Runs.
  Context {O SV : Type}.
  Variables (o_gen o_eval : O -> nat) (step : SV -> O -> option (SV * Q)).
  Notation upds := (updates o_gen o_eval step).
  Lemma any_updates (cs : list (crit SV)) os r : os <> [] -> upds (new (AnyOf cs)) os = Some r ->
    exists cs', Forall2 (fun c c' => upds c os = Some c') cs cs' /\ (has_terminated r = true <-> Exists (fun c => has_terminated c = true) cs').
  Proof.
    intros Hne HR.
    assert (G : forall os r, upds (new (AnyOf cs)) os = Some r -> exists p cs', r = Crit false p (AnyOf cs') /\ Forall2 (fun c c' => upds c os = Some c') cs cs' /\
                  (os <> [] -> (has_terminated r = true <-> Exists (fun c => has_terminated c = true) cs'))).
    { clear Hne HR os r. intros os. induction os as [|o os IH] using rev_ind; intros r HR.
      - injection HR as <-. exists 0%Q, cs. split; auto. split; [|congruence]. clear. induction cs; constructor; auto.
      - rewrite updates_app in HR. destruct (upds (new (AnyOf cs)) os) as [c1|] eqn:E1; [|discriminate].
        destruct (IH c1 eq_refl) as (p & cs1 & -> & F1 & _). destruct (C35_any _ _ _ _ _ _ _ _ _ HR) as (cs' & B1 & B2 & B3 & B4).
        destruct r as [f q b]. cbn in B1, B2. subst f b. exists q, cs'. split; auto. split; [|intros _; exact B4].
        clear - F1 B3. revert cs' B3. induction F1 as [|c c1 cs cs1 H F IH]; intros cs' B3; inversion B3; subst; constructor; auto.
        rewrite updates_app, H. auto. }
    destruct (G os r HR) as (p & cs' & _ & F & T). exists cs'. split; auto.
  Qed.
  Lemma maxgen_updates n os o : upds (new (MaxGen (Limit (S n)))) (os ++ [o]) <> None /\
    (forall r, upds (new (MaxGen (Limit (S n)))) (os ++ [o]) = Some r -> (has_terminated r = true <-> S n <= o_gen o)).
  Proof.
    assert (G : forall os, exists p, upds (new (MaxGen (Limit (S n)))) os = Some (Crit false p (MaxGen (Limit (S n))))).
    { clear. induction os as [|o os [p IH]] using rev_ind; [exists 0%Q; auto|]. rewrite updates_app, IH. cbn [update update_body ratio option_map].
      assert (H : Qle_bool 0 (inject_Z (Z.of_nat (o_gen o)) / inject_Z (Z.of_nat (S n))) = true).
      { apply Qle_bool_iff. apply Qle_shift_div_l; [rewrite <- (Zlt_Qlt 0); lia|]. rewrite Qmult_0_l, <- (Zle_Qle 0). lia. }
      rewrite H. eexists. reflexivity. }
    destruct (G os) as [p E]. rewrite updates_app, E. cbn [update update_body ratio option_map].
    assert (H : Qle_bool 0 (inject_Z (Z.of_nat (o_gen o)) / inject_Z (Z.of_nat (S n))) = true).
    { apply Qle_bool_iff. apply Qle_shift_div_l; [rewrite <- (Zlt_Qlt 0); lia|]. rewrite Qmult_0_l, <- (Zle_Qle 0). lia. }
    rewrite H. split; [discriminate|]. intros r [= <-]. unfold has_terminated. cbn [perc]. rewrite Qle_bool_iff. split; intros C.
    - apply (Qmult_le_r _ _ (inject_Z (Z.of_nat (S n)))) in C; [|rewrite <- (Zlt_Qlt 0); lia].
      rewrite Qmult_1_l in C. unfold Qdiv in C. rewrite <- Qmult_assoc, (Qmult_comm (/ _)), Qmult_inv_r, Qmult_1_r in C.
      + rewrite <- Zle_Qle in C. lia.
      + intros Z. assert (0 < inject_Z (Z.of_nat (S n)))%Q by (rewrite <- (Zlt_Qlt 0); lia). lra.
    - apply Qle_shift_div_l; [rewrite <- (Zlt_Qlt 0); lia|]. rewrite Qmult_1_l, <- Zle_Qle. lia.
  Qed.
  Lemma maxeval_updates n os o : upds (new (MaxEval (Limit (S n)))) (os ++ [o]) <> None /\
    (forall r, upds (new (MaxEval (Limit (S n)))) (os ++ [o]) = Some r -> (has_terminated r = true <-> S n <= o_eval o)).
  Proof.
    assert (G : forall os, exists p, upds (new (MaxEval (Limit (S n)))) os = Some (Crit false p (MaxEval (Limit (S n))))).
    { clear. induction os as [|o os [p IH]] using rev_ind; [exists 0%Q; auto|]. rewrite updates_app, IH. cbn [update update_body ratio option_map].
      assert (H : Qle_bool 0 (inject_Z (Z.of_nat (o_eval o)) / inject_Z (Z.of_nat (S n))) = true).
      { apply Qle_bool_iff. apply Qle_shift_div_l; [rewrite <- (Zlt_Qlt 0); lia|]. rewrite Qmult_0_l, <- (Zle_Qle 0). lia. }
      rewrite H. eexists. reflexivity. }
    destruct (G os) as [p E]. rewrite updates_app, E. cbn [update update_body ratio option_map].
    assert (H : Qle_bool 0 (inject_Z (Z.of_nat (o_eval o)) / inject_Z (Z.of_nat (S n))) = true).
    { apply Qle_bool_iff. apply Qle_shift_div_l; [rewrite <- (Zlt_Qlt 0); lia|]. rewrite Qmult_0_l, <- (Zle_Qle 0). lia. }
    rewrite H. split; [discriminate|]. intros r [= <-]. unfold has_terminated. cbn [perc]. rewrite Qle_bool_iff. split; intros C.
    - apply (Qmult_le_r _ _ (inject_Z (Z.of_nat (S n)))) in C; [|rewrite <- (Zlt_Qlt 0); lia].
      rewrite Qmult_1_l in C. unfold Qdiv in C. rewrite <- Qmult_assoc, (Qmult_comm (/ _)), Qmult_inv_r, Qmult_1_r in C.
      + rewrite <- Zle_Qle in C. lia.
      + intros Z. assert (0 < inject_Z (Z.of_nat (S n)))%Q by (rewrite <- (Zlt_Qlt 0); lia). lra.
    - apply Qle_shift_div_l; [rewrite <- (Zlt_Qlt 0); lia|]. rewrite Qmult_1_l, <- Zle_Qle. lia.
  Qed.

  (** a tolerance criterion made robust *)
  Context {D : Type}.
  Variables (delta : D -> D -> option Q) (tol : Q) (n_skip : nat) (act : O -> bool) (dat : O -> D) (K : @dstate D -> SV) (good : O -> Prop).
  Notation stt := (tst delta tol n_skip act dat).
  Hypothesis Hstep : forall st o, good o -> step (K st) o = Some (K (tupd delta tol n_skip act dat st o), d_perc (tupd delta tol n_skip act dat st o)).
  Definition cstate (os : list O) : crit SV := Crit false (d_perc (stt os)) (Other (K (stt os))).
  Lemma other_trace os : Forall good os -> trace o_gen o_eval step (new (Other (K d_new))) os = Some (map (fun k => cstate (firstn (S k) os)) (seq 0 (length os))).
  Proof.
    induction os as [|o os IH] using rev_ind; intros HG; [reflexivity|]. apply Forall_app in HG. destruct HG as [HG Ho].
    inversion Ho as [|? ? Hgo _]; subst. rewrite trace_app, (IH HG). rewrite app_length. cbn [length]. rewrite Nat.add_1_r, seq_S, map_app. cbn [map Nat.add].
    assert (EL : last (map (fun k => cstate (firstn (S k) os)) (seq 0 (length os))) (new (Other (K d_new))) = cstate os).
    { destruct (length os) as [|n] eqn:EN; [apply length_zero_iff_nil in EN; subst; reflexivity|].
      rewrite seq_S, map_app. cbn [map Nat.add]. rewrite last_last, firstn_all2; auto. lia. }
    rewrite EL. unfold cstate at 1. cbn [update update_body]. rewrite (Hstep _ _ Hgo). cbn [option_map fst snd].
    pose proof (ref_all delta tol n_skip act dat (os ++ [o])) as (B & _). rewrite tst_snoc in B. destruct B as [B _]. apply Qle_bool_iff in B. rewrite B.
    f_equal. f_equal.
    - apply map_ext_in. intros k Hk. apply in_seq in Hk. rewrite firstn_app. replace (S k - length os) with 0 by lia. now rewrite app_nil_r.
    - f_equal. rewrite firstn_all2 by (rewrite app_length; simpl; lia). unfold cstate. rewrite tst_snoc. reflexivity.
  Qed.
  Lemma robust_updates period os : 0 < period -> os <> [] -> Forall good os ->
    exists r, upds (new (Robust (new (Other (K d_new))) period [])) os = Some r /\
      (has_terminated r = true <-> forall j, length os - period <= j < length os -> done (stt (firstn (S j) os))).
  Proof.
    intros Hp Hne HG. destruct (C36_robust_exact _ _ o_gen o_eval step (new (Other (K d_new))) period os _ Hp Hne (other_trace os HG)) as (r & R1 & R2).
    exists r. split; auto. rewrite R2, skipn_map.
    assert (ES : forall a n k, skipn k (seq a n) = seq (a + k) (n - k)).
    { clear. intros a n k. revert a n. induction k; intros a n; [now rewrite Nat.add_0_r, Nat.sub_0_r|]. destruct n; simpl; auto. rewrite IHk. f_equal. lia. }
    rewrite ES, Forall_map, Forall_forall. unfold has_terminated, cstate, done. cbn [perc]. split.
    - intros H j Hj. apply Qle_bool_iff, H, in_seq. lia.
    - intros H k Hk. apply in_seq in Hk. apply Qle_bool_iff, H. lia.
  Qed.
End Runs.
