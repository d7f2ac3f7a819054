(** * C99: dynamic NSGA-II - generations *)
From Coq Require Import List Arith Bool ZArith QArith Lia Permutation Floats.SpecFloat.
From Verif Require Import Flt ListAux NpSort M_NDS M_Survival M_Optimum M_GDE3 S_Pareto S_NDS S_Survival P_Peel P_NDS1 P_Survival P_Survival2 P_Survival3 P_Survival4 P_Optimum Thm_Survival M_AGE Thm_AGE M_RankOpt Thm_GDE3 Thm_GDE3b Thm_RankOpt M_Repro Thm_Repro M_DNSGA Thm_DNSGA.
Import ListNotations.
Local Open Scope nat_scope.

Lemma replace_spec {X} (dx : X) : forall J new (xs : list X), NoDup J -> (forall i, In i J -> i < length xs) -> length new = length J ->
  length (replace_at xs J new) = length xs /\ (forall k, k < length J -> nth (nth k J 0) (replace_at xs J new) dx = nth k new dx) /\ (forall i, ~ In i J -> nth i (replace_at xs J new) dx = nth i xs dx).
Proof.
  unfold replace_at. induction J as [|j J IH]; intros new xs ND HB HL; [split; [reflexivity|]; split; [cbn; lia|auto]|].
  destruct new as [|y new]; [discriminate|]. cbn [combine fold_left fst snd]. inversion ND as [|? ? N1 N2]; subst. injection HL as HL.
  destruct (IH new (upd xs j y) N2) as (I1 & I2 & I3); [intros i Hi; rewrite length_upd; apply HB; now right|exact HL|]. rewrite length_upd in I1. split; [exact I1|]. split.
  - intros [|k] Hk; [|cbn [nth]; apply I2; cbn in Hk; lia]. cbn [nth]. rewrite I3 by exact N1. rewrite nth_upd, Nat.eqb_refl. replace (j <? length xs) with true by (symmetry; apply Nat.ltb_lt, HB; now left). reflexivity.
  - intros i Hi. rewrite I3 by (intros H; apply Hi; now right). rewrite nth_upd. destruct (Nat.eqb_spec i j) as [-> |E]; [exfalso; apply Hi; now left|reflexivity].
Qed.
Lemma picked_In p u i : In i (picked p u) <-> i < length u /\ (nth i u 0 < p)%Q.
Proof. unfold picked. rewrite filter_In, in_seq, Qlt_alt. destruct (nth i u 0 ?= p)%Q; split; intros [H1 H2]; split; try lia; congruence. Qed.
Lemma picked_NoDup p u : NoDup (picked p u).
Proof. apply NoDup_filter, seq_NoDup. Qed.

Section Gen.
  Context {X : Type} (dx : X) (asort dsort : list flt -> list nat) (nds : fltmat -> nat -> list (list nat)) (crowding : fltmat -> nat -> list flt) (m : nat).
  Hypotheses (Ha : asort_ok asort) (Hd : dsort_ok dsort) (Hc : forall M r, length (crowding M r) = length M) (Hn : nds_ok m nds).
  Notation dom a b := (dominates (snd a) (snd b)).

  Lemma ev_un (L : list (X * list flt)) : Forall (fun a => row_ok m (snd a)) L -> evaluated (fun _ => f_zero) (fun _ => true) snd m false L.
  Proof. intros H. split; [eapply Forall_impl; [|exact H]; intros a Hr; split; [exact Hr|reflexivity]|]. repeat split; auto; discriminate. Qed.
  Lemma beats_un (a b : X * list flt) : beats (fun _ => f_zero) snd a b <-> dom a b.
  Proof. unfold beats, constr_dominates. split; [intros [H|[_ H]]; [discriminate|exact H]|intros H; right; split; [reflexivity|exact H]]. Qed.
  Lemma dsurvive_perm (L : list (X * list flt)) : Forall (fun a => row_ok m (snd a)) L -> Permutation.Permutation (dsurvive dx asort dsort nds crowding (length L) L []) L.
  Proof.
    intros HL. unfold dsurvive, nsga2_advance. rewrite app_nil_r.
    destruct (surv_basic (dd dx) (fun _ => f_zero) (fun _ => true) snd m asort dsort nds crowding Ha Hd Hc Hn false (length L) L (ev_un L HL)) as (B1 & B2 & B3).
    rewrite Nat.min_id in B3. set (SV := survival_do _ _ _ _ _ _ _ _ _) in *.
    rewrite <- (gather_seq (dd dx) L) at 2. apply Permutation_map. apply NoDup_Permutation_bis; [exact B1|rewrite seq_length; lia|]. intros i Hi. apply in_seq. specialize (B2 i Hi). lia.
  Qed.
  Lemma dsurvive_spec n (pop off : list (X * list flt)) : Forall (fun a => row_ok m (snd a)) (pop ++ off) -> 0 < n -> length pop = n ->
    let all := pop ++ off in let new := dsurvive dx asort dsort nds crowding n pop off in let opt := doptimum dx asort dsort nds crowding n pop off in
    length new = n /\ incl new all /\ opt <> [] /\ (forall x, In x opt <-> In x new /\ forall b, In b all -> ~ dom b x) /\
    (forall a, In a all -> (forall b, In b all -> ~ dom b a) -> In a opt \/ Forall (fun x => forall b, In b all -> ~ dom b x) new).
  Proof.
    intros HR Hn0 LP all new opt.
    destruct (C11_nsga2_generation _ (dd dx) (fun _ => f_zero) (fun _ => true) snd m asort dsort nds crowding false n pop off Ha Hd Hc Hn Hn0 LP (ev_un _ HR)) as (G1 & G2 & G3 & _).
    assert (NE : pop ++ off <> []) by (destruct pop; [cbn in LP; lia|discriminate]).
    destruct (C96_generation _ (dd dx) (fun _ => f_zero) (fun _ => true) snd m asort dsort nds crowding false n pop off Ha Hd Hc Hn (ev_un _ HR) NE Hn0) as (O1 & O2 & O3 & _).
    fold all in G1, G2, G3, O1, O2, O3. change (gather (dd dx) all (nsga2_advance (dd dx) (fun _ => f_zero) (fun _ => true) snd asort dsort nds crowding false n pop off)) with new in *.
    change (nsga2_optimum (dd dx) (fun _ => f_zero) (fun _ => true) snd asort dsort nds crowding false n pop off) with opt in *.
    assert (EX : exists a, In a all /\ true = true) by (unfold all; destruct (pop ++ off) as [|a l]; [congruence|exists a; split; [now left|reflexivity]]).
    assert (OI : forall x, In x opt <-> In x new /\ forall b, In b all -> ~ dom b x). { intros x. rewrite (O3 EX x). split; [intros (A1 & _ & A2)|intros (A1 & A2)]; auto. }
    split; [exact G1|]. split; [exact G2|]. split; [exact O1|]. split; [exact OI|]. intros a Iall Ua. destruct (In_nth _ _ (dd dx) Iall) as (k & Hk & Ek).
    assert (UB : unbeaten_in (fun _ : X * list flt => f_zero) snd all a) by (intros b Hb Bb; apply beats_un in Bb; now apply (Ua b)).
    rewrite <- Ek in UB. destruct (G3 k Hk eq_refl UB) as [H|H].
    - left. apply OI. split; [|exact Ua]. rewrite <- Ek. apply in_map_iff. exists k. auto.
    - right. eapply Forall_impl; [|exact H]. intros x [_ Ux] b Hb Db. apply (Ux b Hb). now apply beats_un.
  Qed.
End Gen.

(** what the population is replaced by when a change was detected: the individuals whose random number is at least perc_diversity keep their variables; the k-th of the others gets the k-th new
    vector: a sampled one (version "A") or the mutation of the picked ones (version "B") *)
Definition replaced {X} (dx : X) (c : dconf) (s : dstep X) (pop : list (X * list flt)) (xs : list X) : Prop :=
  let J := picked (dc_perc_div c) (ds_u s) in
  length xs = length pop /\
  (forall i, i < length pop -> ~ (nth i (ds_u s) 0 < dc_perc_div c)%Q -> nth i xs dx = fst (nth i pop (dx, []))) /\
  (forall k, k < length J -> nth (nth k J 0) xs dx = nth k (match dc_version c with VA => ds_new s | _ => ds_mutate s (map (fun i => fst (nth i pop (dx, []))) J) end) dx).

(** C99: one generation.  The parents are the population as it was (no change detected) or the replaced population evaluated with the current objective function; the new population has the configured
    size and consists of parents and offspring; the reported optimum is exactly the survivors dominated by none of them; a non-dominated one is lost only if only non-dominated ones survive; the evaluations
    are counted; after a detected change every value is up to date, and so it is if it was before.  An exception is raised only after a detection, for an unknown version or a sampling of the wrong size *)
Theorem C99_generation : forall (X : Type) (dx : X) fsum asort dsort nds crowding m c s (pop : list (X * list flt)),
  asort_ok asort -> dsort_ok dsort -> (forall M r, length (crowding M r) = length M) -> nds_ok m nds -> 0 < dc_size c -> length pop = dc_size c ->
  (forall x, row_ok m (ds_f s x)) -> Forall (fun a => row_ok m (snd a)) pop -> length (ds_u s) = length pop -> (forall l, length (ds_mutate s l) = length l) ->
  let changed := change_detected dx fsum (dc_eps c) (ds_f s) pop (ds_sample s) in
  match dadvance dx fsum asort dsort nds crowding c s pop with
  | None => changed = true /\ (dc_version c = VOther \/ dc_version c = VA /\ length (ds_new s) <> length (picked (dc_perc_div c) (ds_u s)))
  | Some r => exists par off, off = map (fun x => (x, ds_f s x)) (ds_mating s par) /\
      (changed = false -> par = pop) /\ (changed = true -> exists xs, replaced dx c s pop xs /\ Permutation.Permutation par (map (fun x => (x, ds_f s x)) xs)) /\
      length (dr_pop r) = dc_size c /\ incl (dr_pop r) (par ++ off) /\ dr_opt r <> [] /\
      (forall x, In x (dr_opt r) <-> In x (dr_pop r) /\ forall b, In b (par ++ off) -> ~ dominates (snd b) (snd x)) /\
      (forall a, In a (par ++ off) -> (forall b, In b (par ++ off) -> ~ dominates (snd b) (snd a)) ->
         In a (dr_opt r) \/ Forall (fun x => forall b, In b (par ++ off) -> ~ dominates (snd b) (snd x)) (dr_pop r)) /\
      dr_evals r = length (ds_sample s) + (if changed then length pop else 0) + length off /\
      (changed = true \/ Forall (up_to_date (ds_f s)) pop -> Forall (up_to_date (ds_f s)) (dr_pop r))
  end.
Proof.
  intros X dx fsum asort dsort nds crowding m c s pop Ha Hd Hc Hn Hn0 LP Hf HP LU HM changed.
  assert (ROW : forall xs, Forall (fun a => row_ok m (snd a)) (devaluate (ds_f s) xs)) by (intros xs; apply Forall_forall; intros a Hin; apply in_map_iff in Hin as (x & <- & _); apply Hf).
  assert (UP : forall xs, Forall (up_to_date (ds_f s)) (devaluate (ds_f s) xs)) by (intros xs; apply Forall_forall; intros a Hin; apply in_map_iff in Hin as (x & <- & _); reflexivity).
  assert (DP : match dparents dx fsum asort dsort nds crowding c s pop with
    | None => changed = true /\ (dc_version c = VOther \/ dc_version c = VA /\ length (ds_new s) <> length (picked (dc_perc_div c) (ds_u s)))
    | Some par => length par = dc_size c /\ Forall (fun a => row_ok m (snd a)) par /\ (changed = false -> par = pop) /\ (changed = true -> exists xs, replaced dx c s pop xs /\ Permutation.Permutation par (devaluate (ds_f s) xs)) end).
  { unfold dparents. fold changed. destruct changed; [|repeat split; auto; discriminate].
    set (J := picked (dc_perc_div c) (ds_u s)).
    assert (JB : forall i, In i J -> i < length (map fst pop)) by (intros i Hi; apply picked_In in Hi; rewrite map_length; lia).
    assert (KEY : forall new, length new = length J -> new = match dc_version c with VA => ds_new s | _ => ds_mutate s (map (fun i => fst (nth i pop (dx, []))) J) end ->
      let xs := replace_at (map fst pop) J new in let par := dsurvive dx asort dsort nds crowding (length xs) (devaluate (ds_f s) xs) [] in
      length par = dc_size c /\ Forall (fun a => row_ok m (snd a)) par /\ (true = false -> par = pop) /\ (true = true -> exists xs, replaced dx c s pop xs /\ Permutation.Permutation par (devaluate (ds_f s) xs))).
    { intros new LN EN xs par. destruct (replace_spec dx J new (map fst pop) (picked_NoDup _ _) JB LN) as (R1 & R2 & R3). fold xs in R1, R2, R3. rewrite map_length in R1.
      assert (PP : Permutation.Permutation par (devaluate (ds_f s) xs)). { unfold par. replace (length xs) with (length (devaluate (ds_f s) xs)) by apply map_length. apply (dsurvive_perm dx asort dsort nds crowding m Ha Hd Hc Hn). apply ROW. }
      split; [rewrite (Permutation_length PP); unfold devaluate; rewrite map_length; lia|]. split; [rewrite PP; apply ROW|]. split; [discriminate|]. intros _. exists xs. split; [|exact PP].
      split; [exact R1|]. split.
      - intros i Hi Ni. rewrite R3. + rewrite (nth_indep _ dx (fst ((dx, []) : X * list flt))) by (rewrite map_length; auto). apply (map_nth fst). + intros HJ. apply picked_In in HJ. tauto.
      - fold J. rewrite <- EN. exact R2. }
    assert (GE : gather dx (map fst pop) J = map (fun i => fst (nth i pop (dx, []))) J).
    { apply map_ext_in. intros i Hi. apply JB in Hi. rewrite (nth_indep _ dx (fst ((dx, []) : X * list flt))) by auto. apply (map_nth fst). }
    unfold diversify. destruct (dc_version c) eqn:EV.
    - fold J. destruct (length (ds_new s) =? length J) eqn:EL; cbn [option_map].
      + apply Nat.eqb_eq in EL. apply (KEY (ds_new s)); auto.
      + apply Nat.eqb_neq in EL. auto.
    - cbn [option_map]. fold J. rewrite GE. apply (KEY (ds_mutate s (map (fun i => fst (nth i pop (dx, []))) J))); [rewrite HM, map_length; reflexivity|reflexivity].
    - cbn [option_map]. auto. }
  unfold dadvance. fold changed. destruct (dparents dx fsum asort dsort nds crowding c s pop) as [par|]; [|exact DP]. destruct DP as (D1 & D2 & D3 & D4). cbn [dr_pop dr_opt dr_evals].
  set (off := devaluate (ds_f s) (ds_mating s par)). exists par, off.
  assert (HA : Forall (fun a => row_ok m (snd a)) (par ++ off)) by (apply Forall_app; split; [exact D2|apply ROW]).
  destruct (dsurvive_spec dx asort dsort nds crowding m Ha Hd Hc Hn (dc_size c) par off HA Hn0 D1) as (S1 & S2 & S3 & S4 & S5).
  split; [reflexivity|]. split; [exact D3|]. split; [exact D4|]. split; [exact S1|]. split; [exact S2|]. split; [exact S3|]. split; [exact S4|]. split; [exact S5|]. split; [reflexivity|].
  intros HU. apply Forall_forall. intros a Hin. apply S2 in Hin. apply in_app_iff in Hin. destruct Hin as [Hin|Hin]; [|revert a Hin; apply Forall_forall, UP].
  destruct changed eqn:EC.
  - destruct (D4 eq_refl) as (xs & _ & PP). apply (Permutation_in _ PP) in Hin. revert a Hin. apply Forall_forall, UP.
  - rewrite (D3 eq_refl) in Hin. destruct HU as [HU|HU]; [discriminate|]. rewrite Forall_forall in HU. auto.
Qed.
Print Assumptions C99_generation.
