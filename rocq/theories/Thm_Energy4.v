(** * C118: which points the energy method returns *)
From Coq Require Import List Arith Bool Reals Lra Lia.
From Verif Require Import ListAux M_NSGA3R M_Energy Thm_Energy Thm_Energy2.
Import ListNotations.
Local Open Scope R_scope.

(** a visited configuration: the points (with the moments of Adam), the learning rate, the time step *)
Definition visit : Type := list row * R * nat.
Definition energy_of (o : opts) (v : visit) : R := log_energy (o_d o) (points (fst (fst v))).
Definition step_of (o : opts) (v : visit) : option (list row) := step o (snd (fst v)) (snd v) (fst (fst v)).
(** [b] is the first visited configuration of least energy; the histories list the latest configuration first *)
Definition best_of (o : opts) (b : visit) (H : list visit) : Prop :=
  exists later earlier, H = later ++ b :: earlier /\ Forall (fun v => energy_of o b <= energy_of o v) later /\ Forall (fun v => energy_of o b < energy_of o v) earlier.
(** the configurations whose energy is computed: the given points; after each either the points moved by one step, or (a restart) the points to which the step from the best
    configuration so far leads, with new moments and half the learning rate *)
Inductive visits (o : opts) (X0 : list row) : list visit -> Prop :=
| visit_first : visits o X0 [(X0, 5 / 1000, 1%nat)]
| visit_next X alpha t H X' : visits o X0 ((X, alpha, t) :: H) -> step o alpha t X = Some X' -> visits o X0 ((X', alpha, S t) :: (X, alpha, t) :: H)
| visit_restart X alpha t H b Y : visits o X0 ((X, alpha, t) :: H) -> restarts o = true -> best_of o b ((X, alpha, t) :: H) -> step_of o b = Some Y -> visits o X0 ((map fresh Y, alpha / 2, 1%nat) :: (X, alpha, t) :: H).

Lemma all_rows_length l r : all_rows l = Some r -> length r = length l.
Proof.
  revert r. induction l as [|[a|] l IH]; cbn; intros r E; [injection E as <-; auto| |discriminate]. destruct (all_rows l) as [q|]; [|discriminate]. injection E as <-. cbn. now rewrite IH.
Qed.
Lemma step_length o alpha t X X' : step o alpha t X = Some X' -> length X' = length X.
Proof. intros E. apply all_rows_length in E. now rewrite map_length in E. Qed.

Definition loop_inv (o : opts) (X0 : list row) (H : list visit) (ret : list row) (obj : option R) : Prop :=
  (H = [] /\ obj = None /\ ret = X0) \/ exists b, best_of o b H /\ step_of o b = Some ret /\ obj = Some (energy_of o b) /\ length ret = length X0.
Lemma loop_best o X0 np fuel : (2 <= length X0)%nat -> forall X alpha t ret obj bad (H : list visit) out, length X = length X0 -> visits o X0 ((X, alpha, S t) :: H) -> loop_inv o X0 H ret obj -> (fuel = 0%nat -> H <> []) ->
  solve_loop o fuel np X alpha t ret obj bad = Some out ->
  exists H', visits o X0 H' /\ (length H' <= length H + fuel)%nat /\ exists b, best_of o b H' /\ step_of o b = Some out.
Proof.
  intros H2. induction fuel as [|fuel IH]; intros X alpha t ret obj bad H out HX HV HI Hf E; cbn [solve_loop] in E.
  - injection E as <-. destruct HI as [(-> & _)|(b & Hb & Hs & _ & _)]; [now destruct (Hf eq_refl)|]. exists H. split; [|split; [lia|eauto]]. inversion HV; subst; auto. now destruct (Hf eq_refl).
  - replace (length X <? 2)%nat with false in E by (symmetry; apply Nat.ltb_ge; lia). destruct (step o alpha (S t) X) as [X'|] eqn:ES; [|discriminate]. set (v := (X, alpha, S t) : visit) in *.
    change (log_energy (o_d o) (points X)) with (energy_of o v) in E. pose proof (step_length _ _ _ _ _ ES) as HL.
    assert (HI' : let '(ret, obj, bad) := if improves (energy_of o v) obj then (X', Some (energy_of o v), O) else (ret, obj, S bad) in exists b, best_of o b (v :: H) /\ step_of o b = Some ret /\ obj = Some (energy_of o b) /\ length ret = length X0).
    { destruct HI as [(-> & -> & ->)|(b & (la & ea & -> & B1 & B2) & Hs & -> & HLr)]; cbn [improves].
      - exists v. split; [exists [], []; auto|]. split; [exact ES|]. split; auto. congruence.
      - destruct (Rlt_dec (energy_of o v) (energy_of o b)) as [Hlt|Hge].
        + exists v. split; [|split; [exact ES|split; [auto|congruence]]]. exists [], (la ++ b :: ea). split; auto. split; auto. apply Forall_app. split; [eapply Forall_impl; [|exact B1]; cbn; intros; lra|]. constructor; auto. eapply Forall_impl; [|exact B2]; cbn; intros; lra.
        + exists b. split; [|auto]. exists (v :: la), ea. split; auto. split; auto. constructor; auto. lra. }
    destruct (if improves (energy_of o v) obj then _ else _) as [[ret1 obj1] bad1]. destruct HI' as (b & Hb & Hs & Ho & HLr).
    destruct (Rlt_dec _ _).
    + injection E as <-. exists (v :: H). split; auto. split; [cbn; lia|]. eauto.
    + destruct (restarts o && (n_max_not_improved o <? bad1)%nat) eqn:ER.
      * apply andb_true_iff in ER as [ER _]. apply IH with (H := v :: H) in E.
        -- destruct E as (H' & E1 & E2 & E3). exists H'. split; auto. split; [cbn in E2; lia|auto].
        -- rewrite map_length. exact HLr.
        -- eapply visit_restart; eauto.
        -- right. eauto.
        -- discriminate.
      * apply IH with (H := v :: H) in E.
        -- destruct E as (H' & E1 & E2 & E3). exists H'. split; auto. split; [cbn in E2; lia|auto].
        -- congruence.
        -- apply visit_next; auto.
        -- right. eauto.
        -- discriminate.
Qed.

(** the points given, followed by the fixed additional ones *)
Definition start (X : list (list R)) (F : option (list (list R))) (fe : bool) : list row :=
  map (fun x => make_row (some_frozen fe x) x) X ++ match F with None => [] | Some F => map (make_row true) F end.
(** C118: the points returned are those to which the step from the first visited configuration of least energy leads (their own energy is not looked at).  A single point
    is returned as it is *)
Theorem C118_best : forall o X F fe Y, (1 <= n_max_iter o)%nat -> forallb frozen (start X F fe) = false -> solve o X F fe = Some Y ->
  ((2 <= length (start X F fe))%nat -> exists H b out, visits o (start X F fe) H /\ (length H <= n_max_iter o)%nat /\ best_of o b H /\ step_of o b = Some out /\ Y = firstn (length X) (points out)) /\
  ((length (start X F fe) < 2)%nat -> Y = X).
Proof.
  intros o X F fe Y Hn Hf E. unfold solve in E. fold (start X F fe) in E. change (map (fun x => make_row (fe && edge x) x) X) with (map (fun x => make_row (some_frozen fe x) x) X) in E. fold (start X F fe) in E. rewrite Hf in E.
  destruct (solve_loop _ _ _ _ _ _ _ _ _) as [out|] eqn:EL; [|discriminate]. injection E as <-. split; intros HL.
  - eapply (loop_best o (start X F fe)) with (H := []) in EL; auto; [|apply visit_first|left; auto|lia]. destruct EL as (H & V & HLn & b & Hb & Hs). exists H, b, out. cbn in HLn. auto.
  - destruct (n_max_iter o) as [|m]; [lia|]. cbn [solve_loop] in EL. replace (length (start X F fe) <? 2)%nat with true in EL by (symmetry; now apply Nat.ltb_lt). injection EL as <-.
    unfold start, points. rewrite map_app, map_map. rewrite firstn_app, map_length, Nat.sub_diag. cbn [firstn]. rewrite app_nil_r, firstn_all2 by (rewrite map_length; lia). rewrite <- (map_id X) at 2. apply map_ext. intros x. apply coords_make.
Qed.
