(** * Theorems C61 (ideal, worst and nadir point), C62 (normalisation), C63 (normalised problem) *)
From Coq Require Import List Arith Bool ZArith QArith Lia Lqa.
From Verif Require Import ListAux M_Individual M_Survival M_RefDirs2 M_Norm S_Crowding S_Decomp S_Norm Thm_RefDirs2 Thm_Decomp Thm_Crowding.
Import ListNotations.
Local Open Scope Q_scope.

Lemma col_min_length m X : length (col_min m X) = m.
Proof. unfold col_min. now rewrite map_length, seq_length. Qed.
Lemma col_max_length m X : length (col_max m X) = m.
Proof. unfold col_max. now rewrite map_length, seq_length. Qed.
Lemma column_ne j X : X <> [] -> column j X <> [].
Proof. destruct X; [congruence|discriminate]. Qed.
Lemma nth_seq_map {A} (f : nat -> A) m j d : (j < m)%nat -> nth j (map f (seq 0 m)) d = f j.
Proof. intros H. rewrite (nth_indep _ d (f 0%nat)) by (rewrite map_length, seq_length; auto). rewrite map_nth, seq_nth; auto. Qed.
Lemma col_min_least m X j : X <> [] -> (j < m)%nat -> least j X (nth j (col_min m X) 0).
Proof.
  intros HX Hj. unfold col_min. rewrite nth_seq_map by auto. destruct (qmin_list_min (column j X) (column_ne j X HX)) as [H1 H2]. split.
  - apply in_map_iff in H1 as (r & E & Hr). exists r. split; auto.
  - intros r Hr. apply H2. apply (in_map (fun r => nth j r 0)) in Hr. exact Hr.
Qed.
Lemma col_max_greatest m X j : X <> [] -> (j < m)%nat -> greatest j X (nth j (col_max m X) 0).
Proof.
  intros HX Hj. unfold col_max. rewrite nth_seq_map by auto. destruct (qmax_list_max (column j X) (column_ne j X HX)) as [H1 H2]. split.
  - apply in_map_iff in H1 as (r & E & Hr). exists r. split; auto.
  - intros r Hr. apply H2. apply (in_map (fun r => nth j r 0)) in Hr. exact Hr.
Qed.
Lemma least_cons j c X Y v : least j X (nth j c 0) -> least j (c :: Y) v -> least j (X ++ Y) v.
Proof.
  intros [(r & Hr & Er) H2] [(s & Hs & Es) H4]. split.
  - destruct Hs as [<-|Hs]; [exists r; split; [apply in_app_iff; auto|congruence]|exists s; split; [apply in_app_iff; auto|auto]].
  - intros x Hx. apply in_app_iff in Hx as [Hx|Hx]; [|apply H4; simpl; auto]. eapply Qle_trans; [apply H4; simpl; auto|]. auto.
Qed.
Lemma greatest_cons j c X Y v : greatest j X (nth j c 0) -> greatest j (c :: Y) v -> greatest j (X ++ Y) v.
Proof.
  intros [(r & Hr & Er) H2] [(s & Hs & Es) H4]. split.
  - destruct Hs as [<-|Hs]; [exists r; split; [apply in_app_iff; auto|congruence]|exists s; split; [apply in_app_iff; auto|auto]].
  - intros x Hx. apply in_app_iff in Hx as [Hx|Hx]; [|apply H4; simpl; auto]. eapply Qle_trans; [|apply H4; simpl; auto]. auto.
Qed.
Lemma argminQ_from_spec l : forall best bi i, let r := argminQ_from best bi i l in
  (r = bi /\ Forall (fun x => best <= x) l) \/
  (exists q, (q < length l)%nat /\ r = (i + q)%nat /\ nth q l 0 < best /\ Forall (fun x => nth q l 0 <= x) l).
Proof.
  induction l as [|x l IH]; intros best bi i; cbn [argminQ_from]; [left; auto|]. destruct (Qle_bool best x) eqn:E.
  - apply Qle_bool_iff in E. destruct (IH best bi (S i)) as [[-> H]|(q & Hq & -> & H2 & H3)].
    + left. split; auto.
    + right. exists (S q). cbn [nth length]. split; [lia|]. split; [lia|]. split; [auto|]. constructor; auto. lra.
  - assert (x < best) by (apply Qnot_le_lt; rewrite <- Qle_bool_iff; congruence). right.
    destruct (IH x i (S i)) as [[-> H1]|(q & Hq & -> & H2 & H3)].
    + exists 0%nat. cbn [nth length]. split; [lia|]. split; [lia|]. split; [auto|]. constructor; auto. lra.
    + exists (S q). cbn [nth length]. split; [lia|]. split; [lia|]. split; [lra|]. constructor; auto. lra.
Qed.
Lemma argminQ_spec l : l <> [] -> (argminQ l < length l)%nat /\ Forall (fun x => nth (argminQ l) l 0 <= x) l.
Proof.
  destruct l as [|x l]; [congruence|]. intros _. unfold argminQ.
  destruct (argminQ_from_spec l x 0%nat 1%nat) as [[-> H]|(q & Hq & -> & H2 & H3)]; cbn [nth length Nat.add]; (split; [lia|]); constructor; auto; lra.
Qed.

(** ** C61 *)
(** an update of the normalisation: objective vectors (rows of [m] numbers) and the rows of the non-dominated front, if given *)
Definition good_update (m : nat) (u : list (list Q) * option (list nat)) : Prop :=
  table m (fst u) /\ match snd u with None => True | Some l => l <> [] /\ forall i, In i l -> (i < length (fst u))%nat end.
Definition seen (us : list (list (list Q) * option (list nat))) : list (list Q) := concat (map fst us).
Definition front_of (u : list (list Q) * option (list nat)) : list (list Q) :=
  match snd u with None => fst u | Some l => map (fun i => nth i (fst u) []) l end.
Definition ok_state (m : nat) (us : list (list (list Q) * option (list nat))) (s : hyp) : Prop :=
  exists ideal worst nadir extreme,
    h_ideal s = Some ideal /\ h_worst s = Some worst /\ h_nadir s = Some nadir /\ h_extreme s = Some extreme /\
    length ideal = m /\ length worst = m /\ length nadir = m /\ length extreme = m /\
    (forall j, (j < m)%nat -> least j (seen us) (nth j ideal 0) /\ greatest j (seen us) (nth j worst 0)) /\
    (forall e, In e extreme -> In e (seen us)).

Lemma front_ne m u : good_update m u -> gather [] (fst u) (match snd u with None => seq 0 (length (fst u)) | Some l => l end) <> [] /\
  gather [] (fst u) (match snd u with None => seq 0 (length (fst u)) | Some l => l end) = front_of u /\ (forall r, In r (front_of u) -> In r (fst u)).
Proof.
  intros [[H1 H2] H3]. unfold front_of. destruct (snd u) as [l|].
  - destruct H3 as [H3 H4]. split; [destruct l; [congruence|discriminate]|]. split; auto. intros r Hr. apply in_map_iff in Hr as (i & <- & Hi). apply nth_In; auto.
  - rewrite gather_seq. auto.
Qed.
Lemma seen_snoc us u : seen (us ++ [u]) = seen us ++ fst u.
Proof. unfold seen. rewrite map_app, concat_app. simpl. now rewrite app_nil_r. Qed.
Lemma seen_ne m us : us <> [] -> Forall (good_update m) us -> seen us <> [].
Proof. intros H HF. destruct us as [|u us]; [congruence|]. inversion HF as [|? ? [[H1 _] _] _]; subst. unfold seen; simpl. destruct (fst u); [congruence|discriminate]. Qed.

Lemma extreme_in m F ideal E : F <> [] -> forall e, In e (get_extreme_points m F ideal E) -> In e (match E with None => F | Some E => E ++ F end).
Proof.
  intros HF e He. unfold get_extreme_points in He. set (X := match E with None => F | Some E => E ++ F end) in *.
  apply in_map_iff in He as (i & <- & _). apply nth_In.
  assert (X <> []) by (unfold X; destruct E as [[|? ?]|]; [auto|discriminate|auto]).
  destruct (argminQ_spec (map (extreme_asf ideal i) X)) as [H1 _]; [destruct X; [congruence|discriminate]|]. now rewrite map_length in H1.
Qed.

Lemma nadir_length solve m E ideal worst wf wp : length ideal = m -> length worst = m -> length wf = m -> length wp = m ->
  (forall M p, solve M = Some p -> length p = m) -> length (get_nadir_point solve E ideal worst wf wp) = m.
Proof.
  intros H1 H2 H3 H4 HS. unfold get_nadir_point. rewrite length_map2, combine_length. unfold hyperplane_nadir.
  destruct (solve _) as [p|] eqn:Ep; [|lia]. destruct (_ || _); [lia|]. rewrite !length_map2, map_length, (HS _ _ Ep). lia.
Qed.

Lemma hyp_step solve m us s u : (forall M p, solve M = Some p -> length p = m) -> good_update m u ->
  (us = [] /\ s = hyp0) \/ ok_state m us s -> ok_state m (us ++ [u]) (hyp_update solve m s u).
Proof.
  intros HS Hu Hs. destruct (front_ne m u Hu) as (Hf1 & Hf2 & Hf3). destruct u as [F nds]. cbn [fst snd] in *. unfold hyp_update.
  pose proof Hu as [[HF1 HF2] _]. cbn [fst] in HF1, HF2. rewrite Hf2 in *.
  set (ideal := match h_ideal s with None => col_min m F | Some c => col_min m (c :: F) end).
  set (worst := match h_worst s with None => col_max m F | Some c => col_max m (c :: F) end).
  set (ex := get_extreme_points m (front_of (F, nds)) ideal (h_extreme s)).
  exists ideal, worst, (get_nadir_point solve ex ideal worst (col_max m (front_of (F, nds))) (col_max m F)), ex.
  assert (L1 : length ideal = m) by (unfold ideal; destruct (h_ideal s); apply col_min_length).
  assert (L2 : length worst = m) by (unfold worst; destruct (h_worst s); apply col_max_length).
  do 4 (split; [reflexivity|]). do 2 (split; [assumption|]).
  split; [apply nadir_length; auto; apply col_max_length|].
  split; [unfold ex, get_extreme_points; now rewrite map_length, seq_length|]. split.
  - intros j Hj. rewrite seen_snoc. cbn [fst]. destruct Hs as [[-> ->]|(i0 & w0 & n0 & e0 & E1 & E2 & E3 & E4 & _ & _ & _ & _ & HB & _)].
    + unfold ideal, worst; cbn [hyp0 h_ideal h_worst]. split; [apply col_min_least|apply col_max_greatest]; auto.
    + destruct (HB j Hj) as [B1 B2]. unfold ideal, worst. rewrite E1, E2. split.
      * eapply least_cons; [exact B1|]. apply col_min_least; auto. discriminate.
      * eapply greatest_cons; [exact B2|]. apply col_max_greatest; auto. discriminate.
  - intros e He. rewrite seen_snoc. cbn [fst]. apply in_app_iff. unfold ex in He. apply extreme_in in He; auto.
    destruct Hs as [[-> ->]|(i0 & w0 & n0 & e0 & E1 & E2 & E3 & E4 & _ & _ & _ & _ & _ & HE)].
    + cbn [hyp0 h_extreme] in He. right. auto.
    + rewrite E4 in He. apply in_app_iff in He as [He|He]; [left; auto|right; auto].
Qed.

Lemma hyp_history solve m us : (forall M p, solve M = Some p -> length p = m) -> Forall (good_update m) us ->
  (us = [] /\ fold_left (hyp_update solve m) us hyp0 = hyp0) \/ ok_state m us (fold_left (hyp_update solve m) us hyp0).
Proof.
  intros HS. induction us as [|u us IH] using rev_ind; intros HG; [left; auto|]. right. rewrite fold_left_app. cbn [fold_left].
  apply Forall_app in HG as [HG Hu]. inversion Hu; subst. apply hyp_step; auto.
Qed.
(** C61: after any sequence of updates the ideal point is the componentwise minimum and the worst point the maximum of everything ever seen,
    and every extreme point is one of the objective vectors seen *)
Theorem C61_history : forall solve m us, us <> [] -> Forall (good_update m) us -> (forall M p, solve M = Some p -> length p = m) ->
  exists ideal worst extreme, let s := fold_left (hyp_update solve m) us hyp0 in
    h_ideal s = Some ideal /\ h_worst s = Some worst /\ h_extreme s = Some extreme /\
    length ideal = m /\ length worst = m /\ length extreme = m /\
    (forall j, (j < m)%nat -> least j (seen us) (nth j ideal 0) /\ greatest j (seen us) (nth j worst 0)) /\
    (forall e, In e extreme -> In e (seen us)).
Proof.
  intros solve m us Hne HG HS. destruct (hyp_history solve m us HS HG) as [[X _]|(i & w & n & e & E1 & E2 & E3 & E4 & L1 & L2 & L3 & L4 & B & EX)]; [congruence|].
  exists i, w, e. cbv zeta. tauto.
Qed.
Print Assumptions C61_history.

Lemma nth_combine2 {A B} (l : list A) (m : list B) j da db : (j < length l)%nat -> (j < length m)%nat -> nth j (combine l m) (da, db) = (nth j l da, nth j m db).
Proof. revert m j; induction l as [|x l IH]; intros [|y m] [|j] H1 H2; simpl in *; try lia; auto. apply IH; lia. Qed.
Lemma Qle_bool_false a b : Qle_bool a b = false -> b < a.
Proof. intros H. apply Qnot_le_lt. rewrite <- Qle_bool_iff. congruence. Qed.
Lemma map2_nth {A B C} (f : A -> B -> C) l m j d da db : (j < length l)%nat -> (j < length m)%nat -> nth j (map2 f l m) d = f (nth j l da) (nth j m db).
Proof. intros H1 H2. apply nth_map2; lia. Qed.

(** the hyperplane is accepted: the solution is (nearly) exact and all intercepts are larger than 1e-6 (a zero coefficient: no intercept) *)
Definition plane_ok (M : list (list Q)) (plane : list Q) : Prop :=
  (forall r, In r M -> let v := qsum (map2 Qmult r plane) in - (1001 # 100000000) <= v - 1 <= (1001 # 100000000)) /\
  (forall p, In p plane -> p == 0 \/ small < / p).
Lemma hyperplane_spec solve E ideal worst : match hyperplane_nadir solve E ideal worst with
  | Some n => exists plane, solve (map (fun e => map2 Qminus e ideal) E) = Some plane /\ plane_ok (map (fun e => map2 Qminus e ideal) E) plane /\
      forall j, (j < length ideal)%nat -> (j < length worst)%nat -> (j < length plane)%nat ->
        nth j n 0 = (if Qeq_bool (nth j plane 0) 0 then nth j worst 0 else if Qle_bool (nth j ideal 0 + / nth j plane 0) (nth j worst 0) then nth j ideal 0 + / nth j plane 0 else nth j worst 0)
  | None => solve (map (fun e => map2 Qminus e ideal) E) = None \/ exists plane, solve (map (fun e => map2 Qminus e ideal) E) = Some plane /\ ~ plane_ok (map (fun e => map2 Qminus e ideal) E) plane
  end.
Proof.
  unfold hyperplane_nadir. set (M := map _ E). destruct (solve M) as [plane|] eqn:ES; [|auto].
  assert (HC : forall a, close_to_one a = true <-> - (1001 # 100000000) <= a - 1 <= (1001 # 100000000)).
  { intros a. unfold close_to_one, qabs. rewrite Qle_bool_iff. destruct (Qle_bool 0 (a - 1)) eqn:E0; [apply Qle_bool_iff in E0|apply Qle_bool_false in E0]; split; intros; try split; lra. }
  set (b1 := forallb _ M). set (b2 := existsb _ _).
  assert (HB : negb b1 || b2 = false <-> plane_ok M plane).
  { rewrite orb_false_iff, negb_false_iff. unfold b1, b2, plane_ok. rewrite forallb_forall. split; intros [H1 H2]; split.
    - intros r Hr. apply HC, H1; auto.
    - intros p Hp. destruct (Qeq_bool p 0) eqn:Ep; [left; now apply Qeq_bool_iff|]. right. apply Qnot_le_lt. intros Hle.
      assert (existsb (fun o => match o with Some q => Qle_bool q small | None => false end) (map (fun p => if Qeq_bool p 0 then None else Some (/ p)) plane) = true); [|congruence].
      apply existsb_exists. exists (Some (/ p)). split; [apply in_map_iff; exists p; rewrite Ep; auto|]. now apply Qle_bool_iff.
    - intros r Hr. apply HC, H1; auto.
    - destruct (existsb _ _) eqn:EX; auto. apply existsb_exists in EX as (o & Ho & EQ). apply in_map_iff in Ho as (p & <- & Hp).
      destruct (Qeq_bool p 0) eqn:Ep; [discriminate|]. apply Qle_bool_iff in EQ. apply Qeq_bool_neq in Ep. destruct (H2 p Hp); [contradiction|lra]. }
  destruct (negb b1 || b2) eqn:EB.
  - right. exists plane. split; auto. intros HP. apply HB in HP. congruence.
  - exists plane. split; auto. split; [now apply HB|]. intros j H1 H2 H3.
    rewrite (map2_nth _ _ _ j 0 (Some 0) 0) by (rewrite ?length_map2, ?map_length; lia).
    rewrite (map2_nth _ _ _ j (Some 0) 0 (Some 0)) by (rewrite ?map_length; lia).
    rewrite (nth_indep _ (Some 0) ((fun p => if Qeq_bool p 0 then None else Some (/ p)) 0)) by (rewrite map_length; auto).
    rewrite (map_nth (fun p => if Qeq_bool p 0 then None else Some (/ p))). destruct (Qeq_bool (nth j plane 0) 0); reflexivity.
Qed.

(** C61: the nadir point after any sequence of updates [us] followed by [u]: between the ideal and the worst point; it exceeds the ideal by more
    than 1e-6 in every objective in which some member of the last population does *)
Theorem C61_nadir : forall solve m us u, Forall (good_update m) us -> good_update m u -> (forall M p, solve M = Some p -> length p = m) ->
  exists ideal worst nadir, let s := fold_left (hyp_update solve m) (us ++ [u]) hyp0 in
    h_ideal s = Some ideal /\ h_worst s = Some worst /\ h_nadir s = Some nadir /\ length nadir = m /\
    forall j, (j < m)%nat -> nth j ideal 0 <= nth j nadir 0 <= nth j worst 0 /\
      (nth j nadir 0 - nth j ideal 0 <= 1 # 1000000 -> forall r, In r (fst u) -> nth j r 0 - nth j ideal 0 <= 1 # 1000000).
Proof.
  intros solve m us u HG Hu HS.
  assert (HG' : Forall (good_update m) (us ++ [u])) by (apply Forall_app; auto).
  destruct (hyp_history solve m (us ++ [u]) HS HG') as [[X _]|(i & w & n & e & E1 & E2 & E3 & E4 & L1 & L2 & L3 & L4 & B & EX)]; [destruct us; discriminate|].
  exists i, w, n. cbv zeta. do 4 (split; [assumption|]). intros j Hj. destruct (B j Hj) as [[(ri & Hri & Eri) B1] [(rw & Hrw & Erw) B2]].
  rewrite fold_left_app in E1, E2, E3, E4. cbn [fold_left] in E1, E2, E3, E4. set (s := fold_left (hyp_update solve m) us hyp0) in *.
  destruct (front_ne m u Hu) as (Hf1 & Hf2 & Hf3). destruct u as [F nds]. unfold hyp_update in *. cbn [fst snd h_ideal h_worst h_nadir h_extreme] in *.
  injection E1 as E1. injection E2 as E2. injection E3 as E3. injection E4 as E4. rewrite E1, E2, Hf2, <- ?E1 in E3. rewrite E1 in E3.
  assert (E4' : get_extreme_points m (front_of (F, nds)) i (h_extreme s) = e) by (rewrite <- Hf2, <- E1; exact E4). rewrite E4' in E3.
  rewrite <- E3. unfold get_nadir_point.
  assert (HFr : front_of (F, nds) <> []) by (rewrite <- Hf2; auto).
  destruct (col_max_greatest m (front_of (F, nds)) j HFr Hj) as [(rf & Hrf & Erf) Gf].
  pose proof Hu as [[HF1 HF2] _]. cbn [fst] in HF1, HF2.
  destruct (col_max_greatest m F j HF1 Hj) as [(rp & Hrp & Erp) Gp].
  set (na := match hyperplane_nadir solve e i w with Some n => n | None => col_max m (front_of (F, nds)) end).
  assert (Lna : length na = m).
  { unfold na, hyperplane_nadir. destruct (solve _) as [p|] eqn:Ep; [|apply col_max_length]. destruct (_ || _); [apply col_max_length|].
    rewrite !length_map2, map_length, (HS _ _ Ep). lia. }
  assert (Hsee : forall r, In r F -> In r (seen (us ++ [(F, nds)]))) by (intros r Hr; rewrite seen_snoc; apply in_app_iff; auto).
  assert (Hna : nth j i 0 <= nth j na 0 <= nth j w 0).
  { unfold na. pose proof (hyperplane_spec solve e i w) as HH. destruct (hyperplane_nadir solve e i w) as [n'|].
    - destruct HH as (pl & P1 & (P2 & P3) & P4). assert (Lp : length pl = m) by (eapply HS; eauto). rewrite (P4 j) by lia.
      assert (Hiw : nth j i 0 <= nth j w 0). { eapply Qle_trans; [apply (B1 ri); auto|]. auto. }
      destruct (Qeq_bool (nth j pl 0) 0) eqn:Ez; [lra|]. apply Qeq_bool_neq in Ez.
      destruct (P3 (nth j pl 0)) as [Hz|Hz]; [apply nth_In; lia|contradiction|]. unfold small in Hz.
      destruct (Qle_bool _ _) eqn:El; [apply Qle_bool_iff in El; lra|lra].
    - rewrite Erf. split; [apply B1|apply B2]; auto. }
  rewrite (map2_nth _ _ _ j 0 (0, 0) 0) by (rewrite ?combine_length, ?col_max_length; lia).
  rewrite nth_combine2 by (rewrite ?col_max_length; lia). cbn [fst snd]. unfold small.
  destruct (Qle_bool (nth j na 0 - nth j i 0) (1 # 1000000)) eqn:Es.
  - split; [rewrite Erp; split; [apply B1|apply B2]; auto|]. intros Hsm r Hr. specialize (Gp r Hr). lra.
  - apply Qle_bool_false in Es. split; [exact Hna|]. intros Hsm. lra.
Qed.
Print Assumptions C61_nadir.

(** C61: when the extreme points span a hyperplane with positive intercepts, the nadir point is where it meets the axes, cut off at the worst
    values ever seen; otherwise it is the worst of the front.  (In both cases a range of at most 1e-6 is replaced by the worst of the population.) *)
Theorem C61_intercepts : forall solve m s u, good_update m u -> (forall M p, solve M = Some p -> length p = m) ->
  exists ideal worst nadir extreme, let s' := hyp_update solve m s u in
    h_ideal s' = Some ideal /\ h_worst s' = Some worst /\ h_nadir s' = Some nadir /\ h_extreme s' = Some extreme /\
    let M := map (fun e => map2 Qminus e ideal) extreme in
    forall j, (j < m)%nat -> exists cand,
      ((exists plane, solve M = Some plane /\ plane_ok M plane /\
          let x := nth j ideal 0 + / nth j plane 0 in
          (~ nth j plane 0 == 0 -> x <= nth j worst 0 -> cand = x) /\ (nth j plane 0 == 0 \/ nth j worst 0 < x -> cand = nth j worst 0)) \/
       ((solve M = None \/ exists plane, solve M = Some plane /\ ~ plane_ok M plane) /\ greatest j (front_of u) cand)) /\
      (1 # 1000000 < cand - nth j ideal 0 -> nth j nadir 0 = cand) /\
      (cand - nth j ideal 0 <= 1 # 1000000 -> greatest j (fst u) (nth j nadir 0)).
Proof.
  intros solve m s u Hu HS. destruct (front_ne m u Hu) as (Hf1 & Hf2 & Hf3). destruct u as [F nds]. cbn [fst snd] in *.
  unfold hyp_update. rewrite Hf2. pose proof Hu as [[HF1 HF2] _]. cbn [fst] in HF1, HF2.
  set (ideal := match h_ideal s with None => col_min m F | Some c => col_min m (c :: F) end).
  set (worst := match h_worst s with None => col_max m F | Some c => col_max m (c :: F) end).
  set (ex := get_extreme_points m (front_of (F, nds)) ideal (h_extreme s)).
  exists ideal, worst, (get_nadir_point solve ex ideal worst (col_max m (front_of (F, nds))) (col_max m F)), ex.
  cbv zeta. do 4 (split; [reflexivity|]). intros j Hj.
  assert (L1 : length ideal = m) by (unfold ideal; destruct (h_ideal s); apply col_min_length).
  assert (L2 : length worst = m) by (unfold worst; destruct (h_worst s); apply col_max_length).
  assert (HFr : front_of (F, nds) <> []) by (rewrite <- Hf2; auto).
  unfold get_nadir_point. set (na := match hyperplane_nadir solve ex ideal worst with Some n => n | None => col_max m (front_of (F, nds)) end).
  assert (Lna : length na = m).
  { unfold na, hyperplane_nadir. destruct (solve _) as [p|] eqn:Ep; [|apply col_max_length]. destruct (_ || _); [apply col_max_length|].
    rewrite !length_map2, map_length, (HS _ _ Ep). lia. }
  exists (nth j na 0). split.
  - unfold na. pose proof (hyperplane_spec solve ex ideal worst) as HH. destruct (hyperplane_nadir solve ex ideal worst) as [n'|].
    + left. destruct HH as (pl & P1 & P2 & P4). exists pl. assert (Lp : length pl = m) by (eapply HS; eauto). split; auto. split; auto.
      rewrite (P4 j) by lia. split.
      * intros Hz Hx. destruct (Qeq_bool (nth j pl 0) 0) eqn:Ez; [apply Qeq_bool_iff in Ez; contradiction|]. apply Qle_bool_iff in Hx. now rewrite Hx.
      * intros [Hz|Hz].
        -- apply Qeq_bool_iff in Hz. now rewrite Hz.
        -- destruct (Qeq_bool (nth j pl 0) 0); auto. destruct (Qle_bool _ _) eqn:El; auto. apply Qle_bool_iff in El. lra.
    + right. split; [exact HH|]. apply col_max_greatest; auto.
  - rewrite (map2_nth _ _ _ j 0 (0, 0) 0) by (rewrite ?combine_length, ?col_max_length; lia).
    rewrite nth_combine2 by (rewrite ?col_max_length; lia). cbn [fst snd]. unfold small.
    destruct (Qle_bool (nth j na 0 - nth j ideal 0) (1 # 1000000)) eqn:Es.
    + apply Qle_bool_iff in Es. split; [intros; lra|]. intros _. apply col_max_greatest; auto.
    + apply Qle_bool_false in Es. split; auto. intros; lra.
Qed.
Print Assumptions C61_intercepts.

(** C61: an extreme point minimises the achievement scalarisation of its axis among the previous extreme points and the current front: with
    the (small values zeroed) distance to the ideal point multiplied by 10^6 on the other axes, its largest entry is minimal *)
Definition axis_value (ideal f : list Q) (i j : nat) : Q :=
  (if Qle_bool (1 # 1000) (nth j f 0 - nth j ideal 0) then nth j f 0 - nth j ideal 0 else 0) * (if (i =? j)%nat then 1 else 1000000).
Lemma extreme_asf_max m ideal i f : (0 < m)%nat -> length ideal = m -> length f = m -> is_max m (axis_value ideal f i) (extreme_asf ideal i f).
Proof.
  intros Hm Hi Hf. unfold extreme_asf. apply q_max_is_max; [rewrite length_map2, seq_length, map_length, length_map2; lia|lia|].
  intros j Hj. rewrite (map2_nth _ _ _ j 0 0%nat 0) by (rewrite ?seq_length, ?map_length, ?length_map2; lia).
  rewrite seq_nth by (rewrite map_length, length_map2; lia). cbn [Nat.add].
  rewrite (nth_indep _ 0 ((fun x => if Qle_bool (1 # 1000) x then x else 0) 0)) by (rewrite map_length, length_map2; lia).
  rewrite (map_nth (fun x => if Qle_bool (1 # 1000) x then x else 0)). rewrite (map2_nth _ _ _ j 0 0 0) by lia. unfold axis_value. reflexivity.
Qed.
Theorem C61_extreme : forall solve m s u, good_update m u -> (0 < m)%nat ->
  (forall E e, h_extreme s = Some E -> In e E -> length e = m) ->
  exists ideal extreme, let s' := hyp_update solve m s u in
    h_ideal s' = Some ideal /\ h_extreme s' = Some extreme /\
    let candidates := (match h_extreme s with None => [] | Some E => E end) ++ front_of u in
    forall i, (i < m)%nat -> In (nth i extreme []) candidates /\
      forall c, In c candidates -> forall x y, is_max m (axis_value ideal (nth i extreme []) i) x -> is_max m (axis_value ideal c i) y -> x <= y.
Proof.
  intros solve m s u Hu Hm HE. destruct (front_ne m u Hu) as (Hf1 & Hf2 & Hf3). destruct u as [F nds]. cbn [fst snd] in *.
  unfold hyp_update. rewrite Hf2. pose proof Hu as [[HF1 HF2] _]. cbn [fst] in HF1, HF2.
  set (ideal := match h_ideal s with None => col_min m F | Some c => col_min m (c :: F) end).
  assert (L1 : length ideal = m) by (unfold ideal; destruct (h_ideal s); apply col_min_length).
  eexists. eexists. cbv zeta. split; [reflexivity|]. split; [reflexivity|]. intros i Hi.
  set (X := (match h_extreme s with None => [] | Some E => E end) ++ front_of (F, nds)).
  assert (EX : match h_extreme s with None => front_of (F, nds) | Some E => E ++ front_of (F, nds) end = X) by (unfold X; destruct (h_extreme s); auto).
  fold ideal. unfold get_extreme_points. rewrite EX. rewrite nth_seq_map by auto.
  assert (HX : X <> []). { intros E. unfold X in E. apply app_eq_nil in E as [_ E]. rewrite <- Hf2 in E. auto. }
  assert (HXl : forall c, In c X -> length c = m).
  { intros c Hc. unfold X in Hc. apply in_app_iff in Hc as [Hc|Hc]; [destruct (h_extreme s) as [E|] eqn:EE; [eapply HE; eauto|destruct Hc]|]. apply HF2, Hf3; auto. }
  destruct (argminQ_spec (map (extreme_asf ideal i) X)) as [A B]; [destruct X; [congruence|discriminate]|]. rewrite map_length in A.
  split; [apply nth_In; auto|]. intros c Hc x y Hx Hy. set (k := argminQ (map (extreme_asf ideal i) X)) in *.
  assert (Uniq : forall f a b, is_max m f a -> is_max m f b -> a == b).
  { intros f a b [(p & P1 & P2) P3] [(q & Q1 & Q2) Q3]. specialize (P3 q Q1). specialize (Q3 p P1). lra. }
  rewrite (Uniq _ _ _ Hx (extreme_asf_max m ideal i (nth k X []) Hm L1 (HXl _ (nth_In _ _ A)))).
  rewrite (Uniq _ _ _ Hy (extreme_asf_max m ideal i c Hm L1 (HXl _ Hc))).
  rewrite Forall_forall in B. specialize (B (extreme_asf ideal i c) (in_map _ _ _ Hc)).
  rewrite (nth_indep _ 0 (extreme_asf ideal i [])) in B by (rewrite map_length; auto). rewrite map_nth in B. exact B.
Qed.
Print Assumptions C61_extreme.

Definition ex_solve (M : list (list Q)) : option (list Q) :=
  match M with
  | [[a; b]; [c; d]] => let dt := a * d - b * c in if Qeq_bool dt 0 then None else Some [(d - b) / dt; (a - c) / dt]
  | _ => None
  end.
Definition ex_hyp : hyp := Eval vm_compute in fold_left (hyp_update ex_solve 2) [([[1; 5]; [3; 2]; [6; 1]; [7; 7]], Some [0; 1; 2]%nat); ([[2; 3]; [0; 8]], None)] hyp0.
Lemma C61_case : Forall (good_update 2) [([[1; 5]; [3; 2]; [6; 1]; [7; 7]], Some [0; 1; 2]%nat); ([[2; 3]; [0; 8]], None)] /\
  (forall M p, ex_solve M = Some p -> length p = 2%nat) /\ h_ideal ex_hyp = Some [0; 1] /\ h_worst ex_hyp = Some [7; 8] /\ h_extreme ex_hyp = Some [[6; 1]; [0; 8]] /\
  match h_nadir ex_hyp with Some [a; b] => a == 6 /\ b == 8 | _ => False end.
Proof.
  split; [|split; [|vm_compute; auto]].
  - assert (T : forall (P : list Q -> Prop) l, Forall P l -> forall r, In r l -> P r) by (intros P l Hl; now apply Forall_forall).
    constructor; [|constructor; [|constructor]]; unfold good_update, table; cbn [fst snd]; (split; [split; [discriminate|apply T; repeat constructor]|]); auto.
    split; [discriminate|]. intros k Hk. repeat (destruct Hk as [<-|Hk]; [simpl; lia|]). destruct Hk.
  - intros M p H. unfold ex_solve in H. destruct M as [|[|a [|b [|? ?]]] [|[|c [|d [|? ?]]] [|? ?]]]; try discriminate. destruct (Qeq_bool _ 0); [discriminate|]. now injection H as <-.
Qed.
