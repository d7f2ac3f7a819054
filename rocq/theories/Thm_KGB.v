(** * C112: KGB-DMOEA - the archive, its condensation, the labelling *)
From Coq Require Import List Arith Bool ZArith QArith Lia Lqa Permutation.
From Verif Require Import ListAux M_RMetric M_DNSGA M_KGB.
Import ListNotations.
Local Open Scope nat_scope.

Definition keys (ps : archive) : list key := map fst ps.
(** all archived solutions *)
Definition all_sols (ps : archive) : list sol := flat_map (fun e => c_sol (snd e)) ps.

Lemma key_eqb_eq a b : key_eqb a b = true <-> a = b.
Proof. unfold key_eqb. rewrite andb_true_iff, !Nat.eqb_eq. destruct a, b; cbn. split; [intros [-> ->]; auto|intros [= -> ->]; auto]. Qed.
Lemma key_eqb_neq a b : key_eqb a b = false <-> a <> b.
Proof. rewrite <- not_true_iff_false, key_eqb_eq. reflexivity. Qed.
Lemma key_dec (a b : key) : {a = b} + {a <> b}.
Proof. destruct (key_eqb a b) eqn:E; [left; now apply key_eqb_eq|right; now apply key_eqb_neq]. Qed.
Lemma lookup_In k ps c : NoDup (keys ps) -> (lookup k ps = Some c <-> In (k, c) ps).
Proof.
  unfold lookup. induction ps as [|[k' c'] ps IH]; cbn [keys map find]; intros HN; [split; [discriminate|intros []]|]. inversion HN as [|? ? H1 H2]; subst. cbn [fst]. destruct (key_eqb k k') eqn:E.
  - apply key_eqb_eq in E as ->. cbn. split; [intros [= ->]; auto|intros [[= ->]|H]; auto]. exfalso. apply H1. change k' with (fst (k', c)). now apply in_map.
  - apply key_eqb_neq in E. rewrite IH by auto. split; [now right|intros [[= -> ->]|H]; [congruence|auto]].
Qed.
Lemma put_split k c ps : (exists l1 c' l2, ps = l1 ++ (k, c') :: l2 /\ put k c ps = l1 ++ (k, c) :: l2 /\ ~ In k (keys l1)) \/ (~ In k (keys ps) /\ put k c ps = ps ++ [(k, c)]).
Proof.
  induction ps as [|[k' c'] ps IH]; cbn [put keys map]; [right; split; auto|]. destruct (key_eqb k k') eqn:E.
  - apply key_eqb_eq in E as ->. left. exists [], c', ps. auto.
  - apply key_eqb_neq in E. destruct IH as [(l1 & c1 & l2 & -> & -> & H)|[H ->]]; [left; exists ((k', c') :: l1), c1, l2|right; split; auto]; cbn; [split; auto; split; auto|]; intros [?|?]; subst; auto.
Qed.
Lemma put_keys k c ps : keys (put k c ps) = keys ps \/ keys (put k c ps) = keys ps ++ [k].
Proof. destruct (put_split k c ps) as [(l1 & c' & l2 & E1 & E2 & _)|[_ E]]; [left; rewrite E2; rewrite E1|right; rewrite E]; unfold keys; rewrite !map_app; reflexivity. Qed.
Lemma put_NoDup k c ps : NoDup (keys ps) -> NoDup (keys (put k c ps)).
Proof.
  intros H. destruct (put_split k c ps) as [(l1 & c' & l2 & E1 & -> & _)|[Hn ->]].
  - rewrite E1 in H. unfold keys in *. rewrite map_app in *. exact H.
  - unfold keys in *. rewrite map_app. apply NoDup_app_iff. split; auto. split; [cbn; constructor; [intros []|constructor]|]. intros x Hx [<-|[]]. auto.
Qed.
Lemma put_In k c ps : NoDup (keys ps) -> forall k' c', In (k', c') (put k c ps) <-> (k' = k /\ c' = c) \/ (k' <> k /\ In (k', c') ps).
Proof.
  intros HN k' c'. destruct (put_split k c ps) as [(l1 & c1 & l2 & E1 & -> & Hn)|[Hn ->]].
  - rewrite E1 in HN |- *. unfold keys in HN. rewrite map_app in HN. cbn [map fst] in HN. apply NoDup_remove_2 in HN. rewrite !in_app_iff in *. cbn [In].
    assert (HK : forall c2, ~ In (k, c2) l1 /\ ~ In (k, c2) l2). { intros c2. split; intros HI; apply HN; [left|right]; change k with (fst (k, c2)); now apply in_map. }
    split.
    + intros [H|[[= -> ->]|H]]; auto; right; (split; [intros ->|auto]); [now apply (HK c') in H|now apply (HK c') in H].
    + intros [[-> ->]|[Hk [H|[[= -> ->]|H]]]]; auto. congruence.
  - rewrite in_app_iff. cbn [In]. split.
    + intros [H|[[= -> ->]|[]]]; auto. right. split; auto. intros ->. apply Hn. change k with (fst (k, c')). now apply in_map.
    + intros [[-> ->]|[_ H]]; auto.
Qed.
Lemma del_In k ps e : In e (del k ps) <-> In e ps /\ fst e <> k.
Proof. unfold del. rewrite filter_In, negb_true_iff, key_eqb_neq. intuition congruence. Qed.
Lemma del_NoDup k ps : NoDup (keys ps) -> NoDup (keys (del k ps)).
Proof.
  unfold keys, del. induction ps as [|[k' c'] ps IH]; intros HN; cbn [filter map]; [constructor|]. inversion HN as [|? ? H1 H2]; subst. cbn [fst]. destruct (negb _); [|auto]. cbn [map fst]. constructor; auto. intros HI. apply H1. apply in_map_iff in HI as (x & <- & Hx). apply filter_In in Hx as [Hx _]. now apply in_map.
Qed.
Lemma del_absent k ps : ~ In k (keys ps) -> del k ps = ps.
Proof.
  unfold del, keys. induction ps as [|[k' c'] ps IH]; intros H; cbn [filter]; auto. cbn [fst map In] in *. destruct (key_eqb k k') eqn:E; [apply key_eqb_eq in E; subst; tauto|]. cbn. f_equal. apply IH. tauto.
Qed.
(** taking out one entry *)
Lemma del_split k c ps : NoDup (keys ps) -> In (k, c) ps -> exists l1 l2, ps = l1 ++ (k, c) :: l2 /\ del k ps = l1 ++ l2.
Proof.
  intros HN HI. apply in_split in HI as (l1 & l2 & E). exists l1, l2. split; auto. rewrite E in *. unfold keys in HN. rewrite map_app in HN. cbn [map fst] in HN. pose proof (NoDup_remove_2 _ _ _ HN) as H. rewrite in_app_iff in H. unfold del. rewrite filter_app. cbn [filter fst]. replace (key_eqb k k) with true by (symmetry; now apply key_eqb_eq). cbn [negb].
  fold (del k l1) (del k l2). rewrite !del_absent; auto.
Qed.

(** ** the archive *)
Lemma combine_seq_In {A} (l : list A) : forall a i x, In (i, x) (combine (seq a (length l)) l) <-> (a <= i)%nat /\ nth_error l (i - a) = Some x.
Proof.
  induction l as [|y l IH]; intros a i x; cbn [length seq combine]; [split; [intros []|intros [_ H]; destruct (i - a); discriminate]|]. cbn [In]. rewrite IH. split.
  - intros [[= -> ->]|[H1 H2]]; [rewrite Nat.sub_diag; auto|]. split; [lia|]. replace (i - a) with (S (i - S a)) by lia. auto.
  - intros [H1 H2]. destruct (Nat.eq_dec i a) as [->|Hn]; [rewrite Nat.sub_diag in H2; cbn in H2; left; congruence|]. right. split; [lia|]. replace (i - a) with (S (i - S a)) in H2 by lia. auto.
Qed.
Lemma add_fold t (ixs : list (nat * sol)) : NoDup (map fst ixs) -> forall ps, NoDup (keys ps) ->
  let ps' := fold_left (fun ps ix => put (fst ix, t) {| c_sol := [snd ix]; c_cen := snd ix |} ps) ixs ps in
  NoDup (keys ps') /\ forall k c, In (k, c) ps' <-> (exists i x, In (i, x) ixs /\ k = (i, t) /\ c = {| c_sol := [x]; c_cen := x |}) \/ (In (k, c) ps /\ ~ exists i, In i (map fst ixs) /\ k = (i, t)).
Proof.
  induction ixs as [|[i x] ixs IH]; intros HND ps HN; cbn [fold_left].
  - split; auto. intros k c. split; [intros H; right; split; auto; intros (i & [] & _)|intros [(i & x & [] & _)|[H _]]; auto].
  - inversion HND as [|? ? HD1 HD2]; subst. cbn [fst snd]. specialize (IH HD2 (put (i, t) {| c_sol := [x]; c_cen := x |} ps) (put_NoDup _ _ _ HN)). cbv zeta in IH. destruct IH as [I1 I2]. split; auto. intros k c. rewrite I2, put_In by auto. cbn [map fst In]. split.
    + intros [(j & y & J1 & J2 & J3)|[[[-> ->]|[Hk Hp]] Hno]]; [left; exists j, y; auto|left; exists i, x; auto|]. right. split; auto. intros (j & [<-|Hj] & ->); [congruence|]. apply Hno. eauto.
    + intros [(j & y & [[= <- <-]|J1] & -> & ->)|[Hp Hno]].
      * right. split; [auto|]. intros (j & Hj & [= <-]). auto.
      * left. exists j, y. auto.
      * right. split; [right; split; auto; intros ->; apply Hno; exists i; auto|]. intros (j & Hj & ->). apply Hno. exists j. auto.
Qed.
(** C112: archiving the optimum at time [t] stores the i-th solution as a cluster of its own under the key (i, t), replaces nothing
    archived at another time, keeps what was archived at this time under a key beyond the new optimum, and keeps the keys different *)
Theorem C112_archive : forall t opt ps, NoDup (map fst ps) ->
  NoDup (map fst (add_to_ps t opt ps)) /\
  (forall i x, nth_error opt i = Some x -> In ((i, t), {| c_sol := [x]; c_cen := x |}) (add_to_ps t opt ps)) /\
  (forall k c, In (k, c) ps -> snd k <> t \/ length opt <= fst k -> In (k, c) (add_to_ps t opt ps)) /\
  (forall k c, In (k, c) (add_to_ps t opt ps) -> (snd k = t /\ exists x, nth_error opt (fst k) = Some x /\ c = {| c_sol := [x]; c_cen := x |}) \/ (In (k, c) ps /\ (snd k <> t \/ length opt <= fst k))).
Proof.
  intros t opt ps HN. unfold add_to_ps. set (ixs := combine (seq 0 (length opt)) opt). assert (EF : map fst ixs = seq 0 (length opt)). { unfold ixs. clear. generalize 0. induction opt as [|x opt IH]; intros a; cbn; f_equal; auto. }
  destruct (add_fold t ixs ltac:(rewrite EF; apply seq_NoDup) ps HN) as [H1 H2]. split; auto.
  assert (HI : forall i x, In (i, x) ixs <-> nth_error opt i = Some x). { intros i x. unfold ixs. rewrite combine_seq_In, Nat.sub_0_r. split; [tauto|split; [lia|auto]]. }
  split; [|split].
  - intros i x Hx. apply H2. left. exists i, x. split; auto. now apply HI.
  - intros k c Hk Hc. apply H2. right. split; auto. intros (i & Hi & ->). rewrite EF in Hi. apply in_seq in Hi. cbn in Hc. destruct Hc; lia.
  - intros k c Hk. apply H2 in Hk as [(i & x & Hi & -> & ->)|[Hp Hno]].
    + left. split; auto. exists x. split; auto. now apply HI.
    + right. split; auto. destruct k as [i t']. cbn. destruct (Nat.eq_dec t' t) as [->|]; [|now left]. right. destruct (Nat.le_gt_cases (length opt) i); auto. exfalso. apply Hno. exists i. split; auto. rewrite EF. apply in_seq. lia.
Qed.

(** ** merging the closest clusters *)
Lemma pairs_In ps a b : In (a, b) (pairs ps) <-> In a (keys ps) /\ In b (keys ps) /\ a <> b.
Proof.
  unfold pairs, keys. rewrite in_flat_map. split.
  - intros (x & Hx & H). apply in_flat_map in H as (y & Hy & H). destruct (key_eqb (fst x) (fst y)) eqn:E; [destruct H|]. destruct H as [[= <- <-]|[]]. apply key_eqb_neq in E. split; [now apply in_map|]. split; [now apply in_map|auto].
  - intros (Ha & Hb & Hn). apply in_map_iff in Ha as (x & <- & Hx). apply in_map_iff in Hb as (y & <- & Hy). exists x. split; auto. apply in_flat_map. exists y. split; auto. apply key_eqb_neq in Hn. rewrite Hn. now left.
Qed.
Lemma closest_fold ps l : forall b, exists r, fold_left (fun best p => match best with None => Some p | Some b => match (pdist ps p ?= pdist ps b)%Q with Lt => Some p | _ => Some b end end) l (Some b) = Some r /\ (r = b \/ In r l) /\ (pdist ps r <= pdist ps b)%Q /\ forall p, In p l -> (pdist ps r <= pdist ps p)%Q.
Proof.
  induction l as [|p l IH]; intros b; cbn [fold_left]; [exists b; repeat split; auto; [lra|intros p []]|]. destruct (pdist ps p ?= pdist ps b)%Q eqn:E.
  - destruct (IH b) as (r & -> & H1 & H2 & H3). apply Qeq_alt in E. exists r. split; auto. split; [destruct H1; auto; right; now right|]. split; auto. intros q [<-|Hq]; [rewrite E; auto|auto].
  - destruct (IH p) as (r & -> & H1 & H2 & H3). apply Qlt_alt in E. exists r. split; auto. split; [destruct H1 as [->|]; right; [now left|now right]|]. split; [lra|]. intros q [<-|Hq]; auto.
  - destruct (IH b) as (r & -> & H1 & H2 & H3). apply Qgt_alt in E. exists r. split; auto. split; [destruct H1; auto; right; now right|]. split; auto. intros q [<-|Hq]; [lra|auto].
Qed.
Lemma closest_spec ps : match closest ps with
  | None => pairs ps = []
  | Some p => In p (pairs ps) /\ forall q, In q (pairs ps) -> (pdist ps p <= pdist ps q)%Q end.
Proof.
  unfold closest. destruct (pairs ps) as [|p l] eqn:E; [reflexivity|]. cbn [fold_left]. destruct (closest_fold ps l p) as (r & -> & H1 & H2 & H3). split; [destruct H1 as [->|]; [now left|now right]|]. intros q [<-|Hq]; auto.
Qed.
Lemma no_pairs ps : NoDup (keys ps) -> (pairs ps = [] <-> length ps <= 1).
Proof.
  intros HN. split.
  - intros E. destruct ps as [|a [|b ps]]; cbn; try lia. exfalso. assert (HI : In (fst a, fst b) (pairs (a :: b :: ps))). { apply pairs_In. cbn. split; auto. split; auto. inversion HN as [|? ? H _]; subst. intros Ea. apply H. left. congruence. } rewrite E in HI. destruct HI.
  - intros H. destruct (pairs ps) as [|[a b] l] eqn:E; auto. exfalso. assert (HI : In (a, b) (pairs ps)) by (rewrite E; now left). apply pairs_In in HI as (Ha & Hb & Hn). unfold keys in *. destruct ps as [|x [|y ps]]; cbn in *; [destruct Ha|destruct Ha as [|[]], Hb as [|[]]; congruence|lia].
Qed.
Lemma key_entry ps k : NoDup (keys ps) -> In k (keys ps) -> exists c, In (k, c) ps /\ lookup k ps = Some c.
Proof. intros HN H. apply in_map_iff in H as ([k' c] & <- & Hc). exists c. split; auto. now apply lookup_In. Qed.
(** one merge *)
Lemma merge_step_spec ps : NoDup (keys ps) -> 2 <= length ps ->
  exists i j ci cj ps', In (i, ci) ps /\ In (j, cj) ps /\ i <> j /\ merge_step ps = Some ps' /\
    (forall k l ck cl, In (k, ck) ps -> In (l, cl) ps -> k <> l -> (dist2 (c_cen ci) (c_cen cj) <= dist2 (c_cen ck) (c_cen cl))%Q) /\
    NoDup (keys ps') /\ S (length ps') = length ps /\ Permutation (all_sols ps') (all_sols ps) /\
    forall k c, In (k, c) ps' <-> (k = i /\ c = {| c_sol := c_sol ci ++ c_sol cj; c_cen := centroid (c_sol ci ++ c_sol cj) |}) \/ (k <> i /\ k <> j /\ In (k, c) ps).
Proof.
  intros HN HL. unfold merge_step. pose proof (closest_spec ps) as HC. destruct (closest ps) as [[i j]|]; [|apply no_pairs in HC; auto; lia]. destruct HC as [HI HM]. apply pairs_In in HI as (Hi & Hj & Hij).
  destruct (key_entry ps i HN Hi) as (ci & Ci1 & Ci2). destruct (key_entry ps j HN Hj) as (cj & Cj1 & Cj2). set (m := {| c_sol := sol_of ps i ++ sol_of ps j; c_cen := centroid (sol_of ps i ++ sol_of ps j) |}).
  assert (Em : m = {| c_sol := c_sol ci ++ c_sol cj; c_cen := centroid (c_sol ci ++ c_sol cj) |}) by (unfold m, sol_of; now rewrite Ci2, Cj2).
  exists i, j, ci, cj, (del j (put i m ps)). split; auto. split; auto. split; auto. split; auto. split.
  { intros k l ck cl Hk Hl Hkl. assert (HP : In (k, l) (pairs ps)) by (apply pairs_In; repeat split; auto; unfold keys; [change k with (fst (k, ck))|change l with (fst (l, cl))]; now apply in_map). specialize (HM _ HP). unfold pdist, cen_of in HM. cbn [fst snd] in HM. rewrite Ci2, Cj2 in HM. apply lookup_In in Hk; auto. apply lookup_In in Hl; auto. now rewrite Hk, Hl in HM. }
  clearbody m. assert (HNp : NoDup (keys (put i m ps))) by now apply put_NoDup. split; [now apply del_NoDup|].
  assert (HJ : In (j, cj) (put i m ps)) by (apply put_In; auto; right; split; auto).
  destruct (del_split j cj _ HNp HJ) as (d1 & d2 & Ed1 & Ed2).
  destruct (put_split i m ps) as [(l1 & c' & l2 & E1 & E2 & Hn)|[Hn _]]; [|contradiction].
  assert (c' = ci). { assert (In (i, c') ps) by (rewrite E1; apply in_or_app; right; now left). apply lookup_In in H; auto. congruence. } subst c'.
  assert (HLp : length (put i m ps) = length ps) by (rewrite E2, E1; now rewrite !app_length). split.
  { rewrite Ed2, <- HLp, Ed1. rewrite !app_length. cbn. lia. } split.
  { assert (P1 : Permutation (c_sol cj ++ all_sols (del j (put i m ps))) (all_sols (put i m ps))). { rewrite Ed2, Ed1. unfold all_sols. rewrite !flat_map_app. cbn [flat_map snd]. rewrite !app_assoc. apply Permutation_app_tail. apply Permutation_app_comm. }
    assert (P2 : Permutation (all_sols (put i m ps)) (c_sol cj ++ all_sols ps)). { rewrite E2, E1, Em. unfold all_sols. rewrite !flat_map_app. cbn [flat_map snd c_sol]. rewrite (app_assoc (c_sol cj)). rewrite <- !app_assoc. set (A := flat_map _ l1). set (B := flat_map _ l2). apply Permutation_sym. etransitivity; [apply Permutation_app_comm|]. rewrite <- !app_assoc. apply Permutation_app_head, Permutation_app_head, Permutation_app_comm. }
    apply (Permutation_app_inv_l (c_sol cj)). now rewrite P1. }
  intros k c. rewrite del_In, put_In by auto. rewrite <- Em. cbn [fst]. split.
  - intros [[[-> ->]|[H1 H2]] H3]; auto.
  - intros [[-> ->]|(H1 & H2 & H3)]; auto.
Qed.
(** a cluster is centred if its centroid is the mean of its solutions, all of the same number of variables *)
Definition centred (n : nat) (c : cluster) : Prop :=
  c_sol c <> [] /\ (forall s, In s (c_sol c) -> length s = n) /\ length (c_cen c) = n /\
  forall i, i < n -> (nth i (c_cen c) 0 * inject_Z (Z.of_nat (length (c_sol c))) == fold_right Qplus 0 (map (fun s => nth i s 0) (c_sol c)))%Q.
Lemma centred_single n x : length x = n -> centred n {| c_sol := [x]; c_cen := x |}.
Proof. intros H. split; [discriminate|]. split; [intros s [<-|[]]; auto|]. split; auto. intros i _. cbn [c_cen c_sol length map fold_right]. change (inject_Z (Z.of_nat 1)) with 1%Q. ring. Qed.
Lemma centred_merge n sols : sols <> [] -> (forall s, In s sols -> length s = n) -> centred n {| c_sol := sols; c_cen := centroid sols |}.
Proof.
  intros Hne HL. assert (HH : length (hd [] sols) = n) by (destruct sols; [congruence|apply HL; now left]). split; auto. split; auto. split; [unfold centroid; cbn; now rewrite map_length, seq_length|]. intros i Hi. cbn [c_cen c_sol]. unfold centroid. rewrite HH.
  set (g := fun i => (fold_right Qplus 0 (map (fun s => nth i s 0) sols) / inject_Z (Z.of_nat (length sols)))%Q). rewrite (nth_indep _ 0%Q (g 0)) by (now rewrite map_length, seq_length). rewrite (map_nth g), seq_nth by auto. unfold g. cbn [Nat.add]. assert (HZ : ~ inject_Z (Z.of_nat (length sols)) == 0%Q).
  2: { unfold Qdiv. rewrite <- Qmult_assoc, (Qmult_comm (/ _)), Qmult_inv_r by exact HZ. now rewrite Qmult_1_r. }
  destruct sols; [congruence|]. cbn [length]. intros E. unfold Qeq, inject_Z in E. cbn in E. lia.
Qed.
(** C112: while there are more than [Nc] clusters, the two closest are merged: it ends with exactly min(Nc, number of clusters), no
    archived solution is lost, added or duplicated, and every centroid is the mean of the solutions of its cluster *)
Theorem C112_condense : forall Nc ps, 1 <= Nc -> NoDup (map fst ps) ->
  exists ps', condense Nc ps = Some ps' /\ length ps' = Nat.min Nc (length ps) /\ NoDup (map fst ps') /\
    Permutation (flat_map (fun e => c_sol (snd e)) ps') (flat_map (fun e => c_sol (snd e)) ps) /\ incl (map fst ps') (map fst ps) /\
    forall n, (forall k c, In (k, c) ps -> centred n c) -> forall k c, In (k, c) ps' -> centred n c.
Proof.
  intros Nc ps HNc HN. unfold condense. remember (length ps - Nc) as d eqn:Ed. revert ps HN Ed. induction d as [|d IH]; intros ps HN Ed; cbn [merge_loop].
  - exists ps. split; auto. split; [lia|]. split; auto. split; [apply Permutation_refl|]. split; [apply incl_refl|]. auto.
  - destruct (merge_step_spec ps HN ltac:(lia)) as (i & j & ci & cj & ps1 & Hi & Hj & Hij & -> & _ & HN1 & HL1 & HP1 & HE1). destruct (IH ps1 HN1 ltac:(lia)) as (ps' & E & L & N & P & HK & C). exists ps'. split; auto. split; [lia|]. split; auto. split; [etransitivity; [exact P|exact HP1]|]. split.
    { intros k Hk. apply HK in Hk. apply in_map_iff in Hk as ([k' c] & <- & Hc). apply HE1 in Hc as [[-> _]|(_ & _ & H)]; [change (fst (i, c)) with (fst (i, ci))|]; now apply in_map. }
    intros n HC. apply C. intros k c Hc. apply HE1 in Hc as [[-> ->]|(_ & _ & H)]; [|eapply HC; eauto]. destruct (HC _ _ Hi) as (A1 & A2 & _). destruct (HC _ _ Hj) as (B1 & B2 & _). apply centred_merge; [intros E0; apply app_eq_nil in E0; tauto|]. intros s Hs. apply in_app_iff in Hs as [Hs|Hs]; auto.
Qed.
(** C112: the merge is greedy, and with c_size = 0 it fails on any archive *)
Theorem C112_greedy : forall ps, NoDup (map fst ps) -> 2 <= length ps ->
  exists i j ci cj ps', In (i, ci) ps /\ In (j, cj) ps /\ i <> j /\ merge_step ps = Some ps' /\
    (forall k l ck cl, In (k, ck) ps -> In (l, cl) ps -> k <> l -> (dist2 (c_cen ci) (c_cen cj) <= dist2 (c_cen ck) (c_cen cl))%Q) /\
    forall k c, In (k, c) ps' <-> (k = i /\ c = {| c_sol := c_sol ci ++ c_sol cj; c_cen := centroid (c_sol ci ++ c_sol cj) |}) \/ (k <> i /\ k <> j /\ In (k, c) ps).
Proof. intros ps HN HL. destruct (merge_step_spec ps HN HL) as (i & j & ci & cj & ps' & H1 & H2 & H3 & H4 & H5 & _ & _ & _ & H6). exists i, j, ci, cj, ps'. auto 10. Qed.
Theorem C112_no_clusters : forall ps, NoDup (map fst ps) -> ps <> [] -> condense 0 ps = None.
Proof.
  intros ps HN Hne. unfold condense. rewrite Nat.sub_0_r. remember (length ps) as n eqn:En. revert ps HN Hne En. induction n as [|n IH]; intros ps HN Hne En; [destruct ps; [congruence|discriminate]|]. cbn [merge_loop]. destruct (merge_step ps) as [ps1|] eqn:E; auto. destruct n as [|n].
  - exfalso. unfold merge_step in E. pose proof (closest_spec ps) as HC. destruct (closest ps) as [[i j]|]; [|discriminate]. destruct HC as [HC _]. assert (pairs ps = []) by (apply no_pairs; auto; lia). rewrite H in HC. destruct HC.
  - destruct (merge_step_spec ps HN ltac:(lia)) as (i & j & ci & cj & ps' & _ & _ & _ & E' & _ & HN' & HL' & _). assert (ps' = ps1) by congruence. subst. apply IH; auto; [intros ->; cbn in HL'; lia|lia].
Qed.

(** ** useful and useless solutions *)
Lemma sol_eqb_refl a : sol_eqb a a = true.
Proof. unfold sol_eqb. rewrite Nat.eqb_refl. cbn. apply forallb_forall. intros [x y] H. assert (x = y) as ->. { revert H. induction a as [|v a IH]; cbn; [intros []|intros [[= <- <-]|H]; auto]. } apply Qeq_bool_iff. reflexivity. Qed.
Lemma labelled_In keep ranks ps s : length ranks = length ps ->
  (In s (labelled keep ranks ps) <-> exists q e r, nth_error ps q = Some e /\ nth_error ranks q = Some r /\ keep r = true /\ exists e', In e' ps /\ sol_eqb (c_cen (snd e)) (c_cen (snd e')) = true /\ In s (c_sol (snd e'))).
Proof.
  intros HL. unfold labelled. rewrite in_flat_map.
  assert (HQ : forall c r, In (c, r) (combine (centroids ps) ranks) <-> exists q e, nth_error ps q = Some e /\ nth_error ranks q = Some r /\ c = c_cen (snd e)).
  { clear s. unfold centroids. revert ranks HL. induction ps as [|e ps IH]; intros [|r0 ranks] HL c r; try discriminate; cbn [map combine]; [split; [intros []|intros ([|q] & e & H & _); discriminate]|]. cbn [In]. rewrite IH by (now injection HL). split.
    - intros [[= <- <-]|(q & e' & H)]; [exists 0, e; auto|exists (S q), e'; auto].
    - intros ([|q] & e' & H1 & H2 & H3); cbn in *; [left; congruence|right; eauto]. }
  split.
  - intros ([c r] & Hc & Hs). cbn [fst snd] in Hs. apply HQ in Hc as (q & e & H1 & H2 & ->). destruct (keep r) eqn:Ek; [|destruct Hs]. exists q, e, r. split; auto. split; auto. split; auto. unfold members in Hs. apply in_flat_map in Hs as (e' & He' & Hs). destruct (sol_eqb _ _) eqn:Es; [|destruct Hs]. exists e'. auto.
  - intros (q & e & r & H1 & H2 & H3 & e' & He' & Es & Hs). exists (c_cen (snd e), r). split; [apply HQ; eauto|]. cbn [fst snd]. rewrite H3. apply in_flat_map. exists e'. split; auto. now rewrite Es.
Qed.
(** [p] dominates [q] *)
Definition kdom (p q : list Q) : Prop := Forall2 Qle p q /\ exists i, (nth i p 0 < nth i q 0)%Q.
(** the ranking gives one rank per row, 0 exactly to the rows that no row dominates *)
Definition ranks_front (ranking : list (list Q) -> list nat) : Prop := forall F, length (ranking F) = length F /\
  forall i p, nth_error F i = Some p -> exists r, nth_error (ranking F) i = Some r /\ (r = 0 <-> forall q, In q F -> ~ kdom q p).
(** C112: a solution is useful exactly if it belongs to a cluster whose centroid is dominated by no centroid, and useless exactly if it belongs to one whose centroid is dominated *)
Theorem C112_labels : forall f ranking ps s, ranks_front ranking -> (forall a b, sol_eqb a b = true -> f a = f b) ->
  let ranks := ranking (map f (centroids ps)) in
  let beaten c := exists e', In e' ps /\ kdom (f (c_cen (snd e'))) (f (c_cen c)) in
  (In s (useful ranks ps) <-> exists e, In e ps /\ In s (c_sol (snd e)) /\ ~ beaten (snd e)) /\
  (In s (useless ranks ps) <-> exists e, In e ps /\ In s (c_sol (snd e)) /\ ~ ~ beaten (snd e)).
Proof.
  intros f ranking ps s HR Hf ranks beaten. set (F := map f (centroids ps)) in *. destruct (HR F) as [HL HS]. assert (LF : length F = length ps) by (unfold F, centroids; now rewrite !map_length).
  assert (HF : forall q e, nth_error ps q = Some e -> nth_error F q = Some (f (c_cen (snd e)))) by (intros q e He; unfold F, centroids; rewrite map_map; erewrite map_nth_error; eauto).
  assert (HB : forall e : key * cluster, (forall q, In q F -> ~ kdom q (f (c_cen (snd e)))) <-> ~ beaten (snd e)).
  { intros e. unfold beaten. split; [intros H (e' & He' & Hd); apply (H (f (c_cen (snd e')))); auto; unfold F, centroids; rewrite map_map; apply in_map_iff; eauto|].
    intros H q Hq Hd. unfold F, centroids in Hq. rewrite map_map in Hq. apply in_map_iff in Hq as (e' & <- & He'). apply H. eauto. }
  assert (HE : forall e e' : key * cluster, sol_eqb (c_cen (snd e)) (c_cen (snd e')) = true -> (beaten (snd e) <-> beaten (snd e'))) by (intros e e' He; unfold beaten; rewrite (Hf _ _ He); reflexivity).
  split; unfold useful, useless; rewrite labelled_In by (unfold ranks; congruence); split.
  - intros (q & e & r & H1 & H2 & H3 & e' & He' & Es & Hs). apply Nat.eqb_eq in H3. subst r. exists e'. split; auto. split; auto. rewrite <- (HE e e' Es). apply HB. destruct (HS q _ (HF q e H1)) as (r & Hr & Hr0). apply Hr0. unfold ranks in H2. congruence.
  - intros (e & He & Hs & Hb). apply In_nth_error in He as (q & Hq). destruct (HS q _ (HF q e Hq)) as (r & Hr & Hr0). exists q, e, r. split; auto. split; auto. split; [apply Nat.eqb_eq; apply Hr0; now apply HB|]. exists e. split; [eapply nth_error_In; eauto|]. split; auto. apply sol_eqb_refl.
  - intros (q & e & r & H1 & H2 & H3 & e' & He' & Es & Hs). exists e'. split; auto. split; auto. intros Hb. rewrite <- (HE e e' Es) in Hb. destruct (HS q _ (HF q e H1)) as (r' & Hr & Hr0). assert (r' = r) by (unfold ranks in H2; congruence). subst r'. apply negb_true_iff, Nat.eqb_neq in H3. apply H3, Hr0. now apply HB.
  - intros (e & He & Hs & Hb). apply In_nth_error in He as (q & Hq). destruct (HS q _ (HF q e Hq)) as (r & Hr & Hr0). exists q, e, r. split; auto. split; auto. split; [apply negb_true_iff, Nat.eqb_neq; intros E; apply Hb; apply HB; now apply Hr0|]. exists e. split; [eapply nth_error_In; eauto|]. split; auto. apply sol_eqb_refl.
Qed.
(** C112: with pairwise different centroids every archived solution is labelled once *)
Theorem C112_labelled_once : forall ranks ps, length ranks = length ps -> ForallOrdPairs (fun a b => sol_eqb (c_cen (snd a)) (c_cen (snd b)) = false /\ sol_eqb (c_cen (snd b)) (c_cen (snd a)) = false) ps ->
  Permutation (useful ranks ps ++ useless ranks ps) (flat_map (fun e => c_sol (snd e)) ps).
Proof.
  intros ranks ps HL HD.
  assert (HM : forall e, In e ps -> members ps (c_cen (snd e)) = c_sol (snd e)).
  { clear ranks HL. induction HD as [|a ps Ha HD IH]; [intros e []|]. rewrite Forall_forall in Ha. intros e [<-|He]; unfold members in *; cbn [flat_map].
    - rewrite sol_eqb_refl. rewrite <- (app_nil_r (c_sol (snd a))) at 2. f_equal. assert (G : forall l : archive, (forall e, In e l -> sol_eqb (c_cen (snd a)) (c_cen (snd e)) = false) -> flat_map (fun e => if sol_eqb (c_cen (snd a)) (c_cen (snd e)) then c_sol (snd e) else []) l = []).
      { induction l as [|x l IHl]; intros H; auto. cbn [flat_map]. rewrite (H x) by now left. cbn. apply IHl. intros e He. apply H. now right. } apply G. intros e He. now apply Ha.
    - rewrite (proj2 (Ha e He)). cbn. now apply IH. }
  unfold useful, useless, labelled, centroids.
  assert (G : forall (l : archive) rs, length rs = length l -> incl l ps -> Permutation (flat_map (fun cr => if (snd cr =? 0) then members ps (fst cr) else []) (combine (map (fun e => c_cen (snd e)) l) rs) ++ flat_map (fun cr => if negb (snd cr =? 0) then members ps (fst cr) else []) (combine (map (fun e => c_cen (snd e)) l) rs)) (flat_map (fun e => c_sol (snd e)) l)).
  { induction l as [|e l IH]; intros [|r rs] E HI; try discriminate; [apply Permutation_refl|]. cbn [map combine flat_map fst snd]. specialize (IH rs ltac:(now injection E) ltac:(intros x Hx; apply HI; now right)). rewrite HM by (apply HI; now left). destruct (r =? 0); cbn [negb app].
    - rewrite <- app_assoc. now apply Permutation_app_head.
    - rewrite Permutation_app_swap_app. now apply Permutation_app_head. }
  apply G; auto. apply incl_refl.
Qed.
