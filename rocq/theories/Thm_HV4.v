(** * C110: the epsilon indicators and ApproximateHypervolume *)
From Coq Require Import List Bool ZArith QArith Qminmax Lqa Lia Permutation Sorted Setoid.
From Verif Require Import ListAux M_Survival M_RefDirs2 S_Crowding S_HV M_Norm M_SMS M_HV Thm_Crowding Thm_HV Thm_HV2 Thm_HV3.
Import ListNotations.
Local Open Scope Q_scope.

Lemma max_lub l e : l <> [] -> (q_max_list l <= e <-> forall x, In x l -> x <= e).
Proof. intros H. destruct (qmax_list_max l H) as [H1 H2]. split; [intros K x Hx; specialize (H2 x Hx); lra|auto]. Qed.
Lemma min_glb l e : l <> [] -> (qmin_list l <= e <-> exists x, In x l /\ x <= e).
Proof. intros H. destruct (qmin_list_min l H) as [H1 H2]. split; [eauto|intros (x & Hx & K); specialize (H2 x Hx); lra]. Qed.
Lemma map_ne {A B} (f : A -> B) l : l <> [] -> map f l <> [].
Proof. destruct l; [congruence|discriminate]. Qed.
(** the indicator is at most [e] iff every reference point [z] has a point [p] all of whose differences are at most [e] *)
Lemma eps_le diff m F pf e : (1 <= m)%nat -> F <> [] -> pf <> [] -> dim m F -> dim m pf ->
  (eps_of diff F pf <= e <-> forall z, In z pf -> exists p, In p F /\ forall j, (j < m)%nat -> diff (nth j p 0) (nth j z 0) <= e).
Proof.
  intros Hm HF HP DF DP. unfold eps_of. unfold dim in *. rewrite Forall_forall in DF, DP. rewrite max_lub by now apply map_ne.
  assert (G : forall z, In z pf -> forall p, In p F -> (q_max_list (map2 diff p z) <= e <-> forall j, (j < m)%nat -> diff (nth j p 0) (nth j z 0) <= e)).
  { intros z Hz p Hp. assert (L : length (map2 diff p z) = m) by (rewrite length_map2, (DF p Hp), (DP z Hz); lia).
    rewrite max_lub by (intros E; rewrite E in L; cbn in L; lia). split.
    - intros K j Hj. apply K. rewrite <- (nth_map2 diff p z j 0 0 0) by (rewrite ?(DF p Hp), ?(DP z Hz); lia). apply nth_In. lia.
    - intros K x Hx. destruct (In_nth _ _ 0 Hx) as (j & Hj & <-). rewrite L in Hj. rewrite (nth_map2 diff p z j 0 0 0) by (rewrite ?(DF p Hp), ?(DP z Hz); lia). auto. }
  split.
  - intros K z Hz. assert (K' := K _ (in_map (fun z => qmin_list (map (fun p => q_max_list (map2 diff p z)) F)) pf z Hz)). cbn beta in K'. rewrite min_glb in K' by now apply map_ne.
    destruct K' as (x & Hx & Hxe). apply in_map_iff in Hx as (p & <- & Hp). exists p. split; auto. now apply G.
  - intros K x Hx. apply in_map_iff in Hx as (z & <- & Hz). apply min_glb; [now apply map_ne|]. destruct (K z Hz) as (p & Hp & Hpe). exists (q_max_list (map2 diff p z)). split; [apply in_map_iff; eauto|]. now apply G.
Qed.

(** the range of each objective of the front, if normalising *)
Definition span (zto : bool) (m : nat) (pf : list (list Q)) (j : nat) : Q :=
  if zto then width (nth j (col_min m pf) 0) (nth j (col_max m pf) 0) else 1.
Lemma eps_init_spec m zto pf : pf <> [] -> exists st, eps_init m zto pf = Some st /\
  (zto = false -> st = (None, pf)) /\ (zto = true -> let bs := map2 bnd_of (col_min m pf) (col_max m pf) in st = (Some bs, map (map2 zto_forward1 bs) pf)) /\
  forall j, (j < m)%nat -> nth j (col_min m pf) 0 <= nth j (col_max m pf) 0.
Proof.
  intros HP. assert (L1 : length (col_min m pf) = m) by (unfold col_min; now rewrite map_length, seq_length). assert (L2 : length (col_max m pf) = m) by (unfold col_max; now rewrite map_length, seq_length).
  assert (HO : forall j, (j < m)%nat -> nth j (col_min m pf) 0 <= nth j (col_max m pf) 0).
  { intros j Hj. unfold col_min, col_max.
    assert (HC : column j pf <> []) by now apply map_ne. destruct (qmin_list_min _ HC) as [H1 H2]. destruct (qmax_list_max _ HC) as [H3 H4].
    rewrite (nth_indep _ 0 (qmin_list (column 0 pf))) by (rewrite map_length, seq_length; lia). rewrite (nth_indep (map _ _) 0 (q_max_list (column 0 pf))) by (rewrite map_length, seq_length; lia).
    rewrite (map_nth (fun j => qmin_list (column j pf)) (seq 0 m) 0%nat j), (map_nth (fun j => q_max_list (column j pf)) (seq 0 m) 0%nat j), seq_nth by lia. cbn. auto. }
  assert (HO' : Forall2 Qle (col_min m pf) (col_max m pf)).
  { clear - L1 L2 HO. revert L1 L2 HO. generalize (col_min m pf) (col_max m pf). induction m as [|m IH]; intros [|a l] [|b l'] L1 L2 HO; try discriminate; constructor; [exact (HO 0%nat ltac:(lia))|].
    apply IH; [now injection L1|now injection L2|]. intros j Hj. exact (HO (S j) ltac:(lia)). }
  unfold eps_init, derive, pre_norm. destruct zto.
  - destruct (zto_init_spec (col_min m pf) (col_max m pf) ltac:(congruence)) as [[E _]|[_ K]]; [|contradiction]. rewrite E. eexists. split; [reflexivity|]. split; [discriminate|]. split; [|auto]. intros _. cbv zeta. cbn [norm_forward]. now rewrite forward_false.
  - eexists. split; [reflexivity|]. split; auto. split; [discriminate|auto].
Qed.
Lemma eps_forward (zto : bool) m pf (z p : list Q) : pf <> [] -> length z = m -> length p = m -> forall e j, (j < m)%nat ->
  let fw := fun r : list Q => if zto then map2 zto_forward1 (map2 bnd_of (col_min m pf) (col_max m pf)) r else r in
  nth j (col_min m pf) 0 <= nth j (col_max m pf) 0 ->
  (nth j (fw p) 0 - nth j (fw z) 0 <= e <-> nth j p 0 <= nth j z 0 + e * span zto m pf j).
Proof.
  intros HP Hz Hpl e j Hj fw HO. unfold fw, span. destruct zto; [|split; lra].
  assert (L1 : length (col_min m pf) = m) by (unfold col_min; now rewrite map_length, seq_length). assert (L2 : length (col_max m pf) = m) by (unfold col_max; now rewrite map_length, seq_length).
  set (bs := map2 bnd_of (col_min m pf) (col_max m pf)). assert (Lb : length bs = m) by (unfold bs; rewrite length_map2; lia).
  rewrite !(nth_map2 zto_forward1 bs _ j 0 (None, None) 0) by lia. unfold bs. rewrite !(nth_map2 bnd_of _ _ j (None, None) 0 0) by lia.
  set (l := nth j (col_min m pf) 0) in *. set (u := nth j (col_max m pf) 0) in *. set (x := nth j p 0). set (y := nth j z 0).
  assert (Hg : good (bnd_of l u)) by (unfold bnd_of; destruct (Qeq_bool l u) eqn:E; cbn; auto; apply Qeq_bool_neq in E; lra).
  rewrite (fwd_diff (bnd_of l u) x y Hg). assert (W : scale (bnd_of l u) * width l u == 1 /\ 0 < width l u).
  { unfold bnd_of, width. destruct (Qeq_bool l u) eqn:E; cbn [scale]; [split; [ring|lra]|]. apply Qeq_bool_neq in E. assert (l < u) by lra. split; [field; lra|lra]. }
  destruct W as [W1 W2]. set (s := scale (bnd_of l u)) in *. set (w := width l u) in *. split; intros H.
  - assert (w * (s * (x - y)) <= w * e) by (apply qmul_le; lra). assert (w * (s * (x - y)) == x - y) by (transitivity (s * w * (x - y)); [ring|rewrite W1; ring]). lra.
  - assert (Hs : 0 < s) by (apply scale_pos; exact Hg). assert (s * (x - y) <= s * (e * w)) by (apply qmul_le; lra). assert (s * (e * w) == e) by (transitivity (s * w * e); [ring|rewrite W1; ring]). lra.
Qed.
(** C110: the additive epsilon is the least amount, in units of the range of the front if normalising, by which the points have to be improved so that
    they cover the whole reference front *)
Theorem C110_epsilon m zto pf F : (1 <= m)%nat -> F <> [] -> pf <> [] -> dim m F -> dim m pf ->
  exists st e, eps_init m zto pf = Some st /\ eps_do epsilon_additive st F = Some e /\
    (forall e', (forall z, In z pf -> exists p, In p F /\ forall j, (j < m)%nat -> nth j p 0 <= nth j z 0 + e' * span zto m pf j) <-> e <= e').
Proof.
  intros Hm HF HP DF DP. destruct (eps_init_spec m zto pf HP) as (st & Es & H1 & H2 & HO).
  set (fw := fun r : list Q => if zto then map2 zto_forward1 (map2 bnd_of (col_min m pf) (col_max m pf)) r else r).
  assert (ED : eps_do epsilon_additive st F = Some (eps_of Qminus (map fw F) (map fw pf))).
  { unfold eps_do, ind_do, fw. destruct zto.
    - rewrite (H2 eq_refl). cbn [fst snd norm_forward]. rewrite forward_false. destruct F; [congruence|reflexivity].
    - rewrite (H1 eq_refl). cbn [fst snd norm_forward]. rewrite !map_id. destruct F; [congruence|reflexivity]. }
  exists st. eexists. split; [exact Es|]. split; [exact ED|]. intros e'.
  assert (FL : forall r, length r = m -> length (fw r) = m).
  { intros r Hr. unfold fw. destruct zto; auto. rewrite !length_map2, Hr. unfold col_min, col_max. rewrite !map_length, !seq_length. lia. }
  rewrite (eps_le Qminus m (map fw F) (map fw pf) e' Hm).
  - unfold dim in DF, DP. rewrite Forall_forall in DF, DP. split.
    + intros K z' Hz'. apply in_map_iff in Hz' as (z & <- & Hz). destruct (K z Hz) as (p & Hp & Hpe). exists (fw p). split; [apply in_map_iff; eauto|]. intros j Hj. apply (eps_forward zto m pf z p HP (DP z Hz) (DF p Hp) e' j Hj (HO j Hj)). auto.
    + intros K z Hz. destruct (K (fw z)) as (p' & Hp' & Hpe); [apply in_map_iff; eauto|]. apply in_map_iff in Hp' as (p & <- & Hp). exists p. split; auto. intros j Hj. apply (eps_forward zto m pf z p HP (DP z Hz) (DF p Hp) e' j Hj (HO j Hj)). exact (Hpe j Hj).
  - now apply map_ne.
  - now apply map_ne.
  - unfold dim in *. rewrite Forall_forall in *. intros p Hp. apply in_map_iff in Hp as (q & <- & Hq). apply FL; auto.
  - unfold dim in *. rewrite Forall_forall in *. intros p Hp. apply in_map_iff in Hp as (q & <- & Hq). apply FL; auto.
Qed.
(** in particular: not positive iff the points cover the front *)
Lemma weakly_nth m p q : length p = m -> length q = m -> (weakly p q <-> forall j, (j < m)%nat -> nth j p 0 <= nth j q 0).
Proof.
  intros Hp Hq. unfold weakly. revert p q Hp Hq. induction m as [|m IH]; intros [|x p] [|y q] Hp Hq; try discriminate; [split; [intros _ j Hj; lia|constructor]|]. injection Hp as Hp. injection Hq as Hq. split.
  - intros H. inversion H; subst. intros [|j] Hj; cbn; auto. apply (IH p q); auto; lia.
  - intros H. constructor; [exact (H 0%nat ltac:(lia))|]. apply IH; auto. intros j Hj. exact (H (S j) ltac:(lia)).
Qed.
Theorem C110_epsilon_covers m zto pf F : (1 <= m)%nat -> F <> [] -> pf <> [] -> dim m F -> dim m pf ->
  exists st e, eps_init m zto pf = Some st /\ eps_do epsilon_additive st F = Some e /\ (e <= 0 <-> covered_by pf F).
Proof.
  intros Hm HF HP DF DP. destruct (C110_epsilon m zto pf F Hm HF HP DF DP) as (st & e & E1 & E2 & H). exists st, e. split; auto. split; auto. rewrite <- (H 0). unfold dim in DF, DP. rewrite Forall_forall in DF, DP. unfold covered_by. split.
  - intros K z Hz. destruct (K z Hz) as (p & Hp & Hpe). exists p. split; auto. apply (weakly_nth m); auto. intros j Hj. specialize (Hpe j Hj). lra.
  - intros K z Hz. destruct (K z Hz) as (p & Hp & Hw). exists p. split; auto. intros j Hj. apply (proj1 (weakly_nth m p z (DF p Hp) (DP z Hz))) with (j := j) in Hw; auto. lra.
Qed.
(** the multiplicative epsilon of positive values, not normalised: the least factor *)
Theorem C110_epsilon_mult m pf F : (1 <= m)%nat -> F <> [] -> pf <> [] -> dim m F -> dim m pf ->
  (forall p j, In p F \/ In p pf -> (j < m)%nat -> 0 < nth j p 0) ->
  exists st e, eps_init m false pf = Some st /\ eps_do epsilon_mult st F = Some e /\
    (forall e', (forall z, In z pf -> exists p, In p F /\ forall j, (j < m)%nat -> nth j p 0 <= e' * nth j z 0) <-> e <= e').
Proof.
  intros Hm HF HP DF DP Hpos. destruct (eps_init_spec m false pf HP) as (st & Es & H1 & _ & _). rewrite (H1 eq_refl) in Es. exists (None, pf), (eps_of Qdiv F pf). split; [exact Es|]. split.
  - unfold eps_do, ind_do, epsilon_mult. cbn [fst snd norm_forward]. replace (positive F && positive pf) with true; [destruct F; [congruence|reflexivity]|]. symmetry. apply andb_true_iff.
    assert (G : forall D, dim m D -> (forall p j, In p D -> (j < m)%nat -> 0 < nth j p 0) -> positive D = true).
    { intros D HD HPD. unfold positive. apply forallb_forall. intros p Hp. apply forallb_forall. intros x Hx. destruct (In_nth _ _ 0 Hx) as (j & Hj & <-). apply negb_true_iff, qlb_false. apply HPD; auto. unfold dim in HD. rewrite Forall_forall in HD. now rewrite <- (HD p Hp). }
    split; apply G; auto.
  - intros e'. rewrite (eps_le Qdiv m F pf e') by auto. split; intros K z Hz; destruct (K z Hz) as (p & Hp & Hpe); exists p; split; auto; intros j Hj; specialize (Hpe j Hj); assert (Z0 : 0 < nth j z 0) by (apply Hpos; auto).
    + apply Qle_shift_div_r; auto.
    + assert (nth j z 0 * (nth j p 0 / nth j z 0) <= nth j z 0 * e') by (apply qmul_le; lra). assert (nth j z 0 * (nth j p 0 / nth j z 0) == nth j p 0) by (field; lra). lra.
Qed.
(** with normalisation the best value of the front becomes 0, and the library never accepts it *)
Theorem C110_epsilon_mult_refuted m pf F : (1 <= m)%nat -> F <> [] -> pf <> [] -> dim m pf ->
  exists st, eps_init m true pf = Some st /\ eps_do epsilon_mult st F = None.
Proof.
  intros Hm HF HP DP. destruct (eps_init_spec m true pf HP) as (st & Es & _ & H2 & HO). exists st. split; auto. rewrite (H2 eq_refl). unfold eps_do, ind_do, epsilon_mult. cbn [fst snd].
  assert (N : positive (map (map2 zto_forward1 (map2 bnd_of (col_min m pf) (col_max m pf))) pf) = false).
  { assert (HC : column 0 pf <> []) by now apply map_ne. destruct (qmin_list_min _ HC) as [Hin _]. unfold column in Hin at 2. apply in_map_iff in Hin as (p & Ep & Hp).
    unfold dim in DP. rewrite Forall_forall in DP. specialize (DP p Hp). destruct m as [|m]; [lia|]. destruct p as [|x p]; [discriminate|]. cbn in Ep.
    apply not_true_iff_false. intros K. unfold positive in K. rewrite forallb_forall in K. specialize (K _ (in_map (map2 zto_forward1 (map2 bnd_of (col_min (S m) pf) (col_max (S m) pf))) pf _ Hp)).
    unfold col_min, col_max in K. cbn [seq map map2 forallb] in K. apply andb_true_iff in K as [K _]. apply negb_true_iff, qlb_false in K. rewrite <- Ep in K. unfold bnd_of in K. destruct (Qeq_bool x (q_max_list (column 0 pf))) eqn:E; cbn in K; [lra|].
    assert (D0 : x - x == 0) by ring. unfold Qdiv in K. rewrite D0, Qmult_0_l in K. lra. }
  rewrite N, andb_false_r. destruct F; [congruence|reflexivity].
Qed.
Print Assumptions C110_epsilon_mult_refuted.

(** ** ApproximateHypervolume: the state is a function of the points that are in *)
Section A.
  Variables (approx : list (list Q) -> Q) (contrib : list (list Q) -> list Q).
  Definition consistent (s : ahv) : Prop :=
    (a_F s = [] -> a_hv s = 0 /\ a_hvc s = []) /\ (a_F s <> [] -> a_hv s = approx (a_F s) /\ a_hvc s = contrib (a_F s)).
  (** what the points are after a sequence of calls *)
  Inductive points : list aop -> list (list Q) -> Prop :=
  | points_new : points [] []
  | points_add os F G : points os F -> points (os ++ [Add G]) (F ++ G)
  | points_del os F a p b k : points os F -> F = a ++ p :: b -> (k = Z.of_nat (length a) \/ k = (- Z.of_nat (S (length b)))%Z) -> points (os ++ [Delete k]) (a ++ b).
  Lemma upd_consistent F : consistent (ahv_update approx contrib F) /\ a_F (ahv_update approx contrib F) = F.
  Proof. destruct F; split; try reflexivity; split; cbn; auto; try congruence. Qed.
  Lemma run_app s os os' : ahv_run approx contrib s (os ++ os') = match ahv_run approx contrib s os with Some s => ahv_run approx contrib s os' | None => None end.
  Proof. revert s. induction os as [|o os IH]; intros s; cbn; auto. destruct (ahv_step approx contrib s o); auto. Qed.
  Lemma np_index_ok n k : match np_index n k with Some i => (i < n)%nat /\ (k = Z.of_nat i \/ k = (Z.of_nat i - Z.of_nat n)%Z) | None => (k >= Z.of_nat n \/ k < - Z.of_nat n)%Z end.
  Proof. unfold np_index. destruct (Z.leb_spec 0 k), (Z.ltb_spec k (Z.of_nat n)); cbn [andb]; try lia. - destruct (Z.leb_spec (- Z.of_nat n) k), (Z.ltb_spec k 0); cbn [andb]; lia. - destruct (Z.leb_spec (- Z.of_nat n) k), (Z.ltb_spec k 0); cbn [andb]; lia. Qed.
  Theorem C110_approximate os :
    (forall s, ahv_run approx contrib ahv_new os = Some s -> consistent s /\ points os (a_F s)) /\
    (forall F, points os F -> exists s, ahv_run approx contrib ahv_new os = Some s /\ a_F s = F).
  Proof.
    split.
    - induction os as [|o os IH] using rev_ind; intros s H.
      + cbn in H. assert (s = ahv_new) as -> by congruence. split; [split; cbn; auto; congruence|constructor].
      + rewrite run_app in H. destruct (ahv_run approx contrib ahv_new os) as [s0|] eqn:E; [|discriminate]. destruct (IH s0 eq_refl) as [_ IP]. cbn in H. destruct (ahv_step approx contrib s0 o) as [s1|] eqn:E1; [|discriminate]. assert (s = s1) as -> by congruence.
        destruct o as [G|k]; cbn [ahv_step] in E1.
        * assert (s1 = ahv_update approx contrib (a_F s0 ++ G)) as -> by congruence. destruct (upd_consistent (a_F s0 ++ G)) as [C ->]. split; auto. now constructor.
        * pose proof (np_index_ok (length (a_F s0)) k) as HK. destruct (np_index (length (a_F s0)) k) as [i|]; [|discriminate]. assert (s1 = ahv_update approx contrib (delete_at (a_F s0) i)) as -> by congruence.
          destruct (upd_consistent (delete_at (a_F s0) i)) as [C ->]. split; auto. destruct HK as [Hi Hk]. destruct (nth_split (a_F s0) [] Hi) as (a & b & Eab & La). unfold delete_at.
          assert (E2 : firstn i (a_F s0) = a) by (rewrite Eab, <- La, firstn_app, Nat.sub_diag, firstn_all; cbn; apply app_nil_r).
          assert (E3 : skipn (S i) (a_F s0) = b) by (rewrite Eab, <- La, skipn_app, skipn_all2 by lia; replace (S (length a) - length a)%nat with 1%nat by lia; reflexivity).
          rewrite E2, E3. eapply points_del; [exact IP|exact Eab|]. rewrite Eab in Hk. rewrite app_length in Hk. cbn [length] in Hk. lia.
    - intros F HF. induction HF as [|os F G HF (s & Es & Ea)|os F a p b k HF (s & Es & Ea) E Hk].
      + exists ahv_new. split; reflexivity.
      + rewrite run_app, Es. cbn. eexists. split; [reflexivity|]. rewrite Ea. apply upd_consistent.
      + rewrite run_app, Es. cbn [ahv_run ahv_step]. rewrite Ea. pose proof (np_index_ok (length F) k) as HK. subst F. rewrite app_length in HK. cbn [length] in HK. rewrite app_length. cbn [length]. destruct (np_index _ k) as [i|] eqn:Ei; [|lia].
        assert (i = length a) as -> by lia. eexists. split; [reflexivity|]. rewrite (proj2 (upd_consistent _)). unfold delete_at.
        rewrite firstn_app, Nat.sub_diag, firstn_all, app_nil_r. rewrite skipn_app, skipn_all2 by lia. replace (S (length a) - length a)%nat with 1%nat by lia. reflexivity.
  Qed.
  (** batches do not matter, and deleting what was added last restores the previous state *)
  Theorem C110_approximate_laws os s F G p : ahv_run approx contrib ahv_new os = Some s ->
    ahv_run approx contrib s [Add F; Add G] = ahv_run approx contrib s [Add (F ++ G)] /\ ahv_run approx contrib s [Add [p]; Delete (-1)%Z] = Some s.
  Proof.
    intros H. destruct (C110_approximate os) as [HA _]. destruct (HA s H) as [C _]. cbn [ahv_run ahv_step]. rewrite !(proj2 (upd_consistent _)). split; [now rewrite app_assoc|].
    pose proof (np_index_ok (length (a_F s ++ [p])) (-1)) as HK. rewrite app_length in *. cbn [length] in *. destruct (np_index _ (-1)) as [i|]; [|lia]. assert (i = length (a_F s)) as -> by lia.
    unfold delete_at. rewrite firstn_app, Nat.sub_diag, firstn_all, app_nil_r. rewrite skipn_all2 by (rewrite app_length; cbn; lia). rewrite app_nil_r. f_equal. destruct C as [C1 C2]. destruct s as [Fs hvs hvcs]. cbn in *. destruct Fs as [|f Fs].
    - destruct (C1 eq_refl) as [-> ->]. reflexivity.
    - destruct C2 as [-> ->]; [discriminate|]. reflexivity.
  Qed.
End A.
Example C110_epsilon_example : exists st e, eps_init 2 true [[0; 10]; [5; 0]] = Some st /\ eps_do epsilon_additive st [[1; 8]; [4; 4]] = Some e /\ e == 2 # 5.
Proof. do 2 eexists. split; [vm_compute; reflexivity|]. split; [vm_compute; reflexivity|]. vm_compute; reflexivity. Qed.
