(** * Theorems C90: pseudo weights *)
From Coq Require Import String List Arith Bool Reals Lra Lia.
From Verif Require Import ListAux M_NSGA3R M_Indicator M_MCDM S_Bench P_Perm Thm_Bench Thm_DTLZ Thm_Indicator.
Import ListNotations.
Local Open Scope R_scope.

(** ** specification *)
Definition matrix (m : nat) (F : list (list R)) : Prop := F <> [] /\ Forall (fun f => length f = m) F.
(** no row dominates another *)
Definition mutually_nondominated (F : list (list R)) : Prop := forall f g, In f F -> In g F -> ~ pareto_dom f g.
(** every objective takes at least two values *)
Definition varied (m : nat) (F : list (list R)) : Prop := forall j, (j < m)%nat -> exists f g, In f F /\ In g F /\ nth j f 0 <> nth j g 0.
Definition is_best (F : list (list R)) (j : nat) (v : R) : Prop := (exists f, In f F /\ nth j f 0 = v) /\ forall f, In f F -> v <= nth j f 0.
Definition is_worst (F : list (list R)) (j : nat) (v : R) : Prop := (exists f, In f F /\ nth j f 0 = v) /\ forall f, In f F -> nth j f 0 <= v.
(** the pseudo weight of objective j: its share in the normalised distances to the worst values *)
Definition advantage (lo hi : nat -> R) (f : list R) (j : nat) : R := (hi j - nth j f 0) / (hi j - lo j).
Definition pseudo_weight (m : nat) (lo hi : nat -> R) (f : list R) (j : nat) : R := advantage lo hi f j / rsum (map (advantage lo hi f) (seq 0 m)).
(** the distance of the pseudo weights of a row to the weights asked for *)
Definition distance_to (m : nat) (w : list R) (lo hi : nat -> R) (f : list R) : R := rsum (map (fun j => Rabs (pseudo_weight m lo hi f j - nth j w 0)) (seq 0 m)).

(** ** argmin *)
Lemma first_nan_spec l k : first_nan l = Some k -> (k < length l)%nat /\ nth k l XInf = XNaN /\ forall i, (i < k)%nat -> nth i l XInf <> XNaN.
Proof.
  revert k. induction l as [|x l IH]; intros k; cbn [first_nan]; [discriminate|]. destruct x; cbn [is_nan].
  - intros E. injection E as <-. cbn. repeat split; try lia.
  - destruct (first_nan l) as [k'|]; cbn [option_map]; [|discriminate]. intros E. injection E as <-. destruct (IH k' eq_refl) as (A & B & C). cbn. split; [lia|]. split; auto. intros [|i] Hi; [discriminate|]. apply C. lia.
  - destruct (first_nan l) as [k'|]; cbn [option_map]; [|discriminate]. intros E. injection E as <-. destruct (IH k' eq_refl) as (A & B & C). cbn. split; [lia|]. split; auto. intros [|i] Hi; [discriminate|]. apply C. lia.
Qed.
Lemma first_nan_none l : first_nan l = None -> forall x, In x l -> x <> XNaN.
Proof.
  induction l as [|x l IH]; cbn [first_nan]; intros H y Hy; [destruct Hy|]. destruct x; cbn [is_nan] in H; try discriminate; (destruct Hy as [E|Hy]; [subst y; discriminate|]); apply IH; auto; destruct (first_nan l); auto; discriminate.
Qed.
Lemma first_nan_fin l : first_nan (map XFin l) = None.
Proof. induction l as [|x l IH]; cbn; [auto|now rewrite IH]. Qed.
Lemma least_fin l : l <> [] -> let k := least_pos (map XFin l) in (k < length l)%nat /\ (forall i, (i < length l)%nat -> nth k l 0 <= nth i l 0) /\ forall i, (i < k)%nat -> nth k l 0 < nth i l 0.
Proof.
  intros HN. unfold least_pos. rewrite map_length. destruct l as [|a l]; [congruence|]. cbn [hd map].
  assert (G : forall rest pre b, (b < length pre)%nat -> (forall i, (i < length pre)%nat -> nth b pre 0 <= nth i pre 0) -> (forall i, (i < b)%nat -> nth b pre 0 < nth i pre 0) ->
    let r := fold_left (fun (b : nat * xr) (kv : nat * xr) => if xltb (snd kv) (snd b) then kv else b) (combine (seq (length pre) (length rest)) (map XFin rest)) (b, XFin (nth b pre 0)) in
    let k := fst r in (k < length (pre ++ rest))%nat /\ (forall i, (i < length (pre ++ rest))%nat -> nth k (pre ++ rest) 0 <= nth i (pre ++ rest) 0) /\ forall i, (i < k)%nat -> nth k (pre ++ rest) 0 < nth i (pre ++ rest) 0).
  { induction rest as [|c rest IH]; intros pre b Hb H1 H2; [cbn; rewrite app_nil_r; auto|]. cbn [length seq map combine fold_left snd fst xltb].
    replace (pre ++ c :: rest) with ((pre ++ [c]) ++ rest) by now rewrite <- app_assoc. assert (EL : length (pre ++ [c]) = S (length pre)) by (rewrite app_length; cbn; lia). rewrite <- EL.
    assert (EN : forall i, (i < length pre)%nat -> nth i (pre ++ [c]) 0 = nth i pre 0) by (intros; now apply app_nth1). assert (EC : nth (length pre) (pre ++ [c]) 0 = c) by (rewrite app_nth2, Nat.sub_diag by lia; reflexivity).
    destruct (Rlt_dec c (nth b pre 0)) as [HL|HL].
    - specialize (IH (pre ++ [c]) (length pre)). rewrite EC in IH. apply IH; [rewrite EL; lia| |].
      + intros i Hi. rewrite EL in Hi. destruct (Nat.eq_dec i (length pre)) as [->|]; [rewrite EC; lra|]. rewrite EN by lia. specialize (H1 i ltac:(lia)). lra.
      + intros i Hi. rewrite EN by lia. specialize (H1 i ltac:(lia)). lra.
    - specialize (IH (pre ++ [c]) b). rewrite EN in IH by auto. apply IH; [rewrite EL; lia| |].
      + intros i Hi. rewrite EL in Hi. destruct (Nat.eq_dec i (length pre)) as [->|]; [rewrite EC; lra|]. rewrite EN by lia. apply H1. lia.
      + intros i Hi. rewrite EN by lia. apply H2. lia. }
  specialize (G l [a] 0%nat). cbn [length nth app] in G. cbn [length seq map combine fold_left snd fst]. replace (xltb (XFin a) (XFin a)) with false by (cbn; destruct (Rlt_dec a a); [lra|reflexivity]). apply G; [lia| |intros i Hi; lia]. intros i Hi. replace i with 0%nat by lia. lra.
Qed.

(** ** ideal and nadir *)
Lemma rmax_spec l : l <> [] -> In (rmax_list l) l /\ forall x, In x l -> x <= rmax_list l.
Proof.
  destruct l as [|x l]; [congruence|]. intros _. cbn [rmax_list]. revert x; induction l as [|y l IH]; intros x; cbn [fold_left].
  - split; [simpl; auto|]. intros z [<-|[]]. lra.
  - destruct (IH (Rmax x y)) as [H1 H2]. split.
    + destruct H1 as [H1|H1]; [|right; right; auto]. rewrite <- H1. unfold Rmax. destruct (Rle_dec x y); [right; left|left]; auto.
    + intros z Hz. pose proof (H2 (Rmax x y) (or_introl eq_refl)). pose proof (Rmax_l x y). pose proof (Rmax_r x y). destruct Hz as [<-|[<-|Hz]]; try lra. apply H2. now right.
Qed.
Lemma col_best m F j : matrix m F -> is_best F j (rmin_list (rcol j F)).
Proof.
  intros [HN _]. destruct (rmin_spec (rcol j F)) as [H1 H2]; [destruct F; [congruence|discriminate]|]. split.
  - apply in_map_iff in H1 as (f & E & Hf). eauto.
  - intros f Hf. apply H2. apply in_map_iff. eauto.
Qed.
Lemma col_worst m F j : matrix m F -> is_worst F j (rmax_list (rcol j F)).
Proof.
  intros [HN _]. destruct (rmax_spec (rcol j F)) as [H1 H2]; [destruct F; [congruence|discriminate]|]. split.
  - apply in_map_iff in H1 as (f & E & Hf). eauto.
  - intros f Hf. apply H2. apply in_map_iff. eauto.
Qed.
Lemma best_unique F j v w : is_best F j v -> is_best F j w -> v = w.
Proof. intros [(f & Hf & <-) H1] [(g & Hg & <-) H2]. pose proof (H1 g Hg). pose proof (H2 f Hf). lra. Qed.
Lemma worst_unique F j v w : is_worst F j v -> is_worst F j w -> v = w.
Proof. intros [(f & Hf & <-) H1] [(g & Hg & <-) H2]. pose proof (H1 g Hg). pose proof (H2 f Hf). lra. Qed.

Section PW.
  Variables (m : nat) (F : list (list R)) (lo hi : nat -> R).
  Hypothesis HM : matrix m F.
  Hypothesis Hlo : forall j, (j < m)%nat -> is_best F j (lo j).
  Hypothesis Hhi : forall j, (j < m)%nat -> is_worst F j (hi j).
  Lemma ideal_at j : (j < m)%nat -> nth j (pw_ideal m None F) 0 = lo j.
  Proof. intros Hj. unfold pw_ideal. rewrite nth_map_seq0 by auto. eapply best_unique; [eapply col_best; eauto|auto]. Qed.
  Lemma nadir_at j : (j < m)%nat -> nth j (pw_nadir m None F) 0 = hi j.
  Proof. intros Hj. unfold pw_nadir. rewrite nth_map_seq0 by auto. eapply worst_unique; [eapply col_worst; eauto|auto]. Qed.
  Lemma dist_adv f : pw_dist m (pw_ideal m None F) (pw_nadir m None F) f = map (advantage lo hi f) (seq 0 m).
  Proof. unfold pw_dist. apply map_ext_in. intros j Hj. apply in_seq in Hj. rewrite ideal_at, nadir_at by lia. reflexivity. Qed.
  Lemma row_pw f : pw_row m (pw_ideal m None F) (pw_nadir m None F) f = map (pseudo_weight m lo hi f) (seq 0 m).
  Proof. unfold pw_row. cbv zeta. rewrite dist_adv, map_map. reflexivity. Qed.
  Lemma score_fin w f : (forall j, (j < m)%nat -> lo j <> hi j) -> rsum (map (advantage lo hi f) (seq 0 m)) <> 0 -> pw_score m w (pw_ideal m None F) (pw_nadir m None F) f = XFin (distance_to m w lo hi f).
  Proof.
    intros HV HS. unfold pw_score. replace (existsb _ (seq 0 m)) with false.
    - rewrite dist_adv. destruct (Req_EM_T _ 0); [contradiction|]. f_equal. unfold distance_to. f_equal. apply map_ext_in. intros j Hj. apply in_seq in Hj. rewrite row_pw, nth_map_seq0 by lia. reflexivity.
    - symmetry. apply not_true_is_false. intros E. apply existsb_exists in E as (j & Hj & E). apply in_seq in Hj. rewrite ideal_at, nadir_at in E by lia. destruct (Req_EM_T (hi j) (lo j)); [|discriminate]. apply (HV j); [lia|auto].
  Qed.
  Lemma lo_hi : varied m F -> forall j, (j < m)%nat -> lo j < hi j.
  Proof.
    intros HV j Hj. destruct (HV j Hj) as (f & g & Hf & Hg & HE). destruct (Hlo j Hj) as [_ L], (Hhi j Hj) as [_ U]. pose proof (L f Hf). pose proof (L g Hg). pose proof (U f Hf). pose proof (U g Hg). lra.
  Qed.
  Lemma adv_ge0 f j : varied m F -> In f F -> (j < m)%nat -> 0 <= advantage lo hi f j.
  Proof.
    intros HV Hf Hj. pose proof (lo_hi HV j Hj). destruct (Hhi j Hj) as [_ U]. specialize (U f Hf). unfold advantage. apply Rmult_le_pos; [lra|]. left. apply Rinv_0_lt_compat. lra.
  Qed.
  Lemma sum_pos f : (1 <= m)%nat -> varied m F -> mutually_nondominated F -> In f F -> 0 < rsum (map (advantage lo hi f) (seq 0 m)).
  Proof.
    intros Hm HV HD Hf. assert (HP : forall v, In v (map (advantage lo hi f) (seq 0 m)) -> 0 <= v). { intros v Hv. apply in_map_iff in Hv as (j & <- & Hj). apply in_seq in Hj. apply adv_ge0; auto. lia. }
    destruct (Rle_lt_or_eq_dec _ _ (rsum_ge0 _ HP)) as [H|H]; auto. exfalso. symmetry in H. pose proof (rsum_0 _ HP H) as HZ.
    assert (HE : forall j, (j < m)%nat -> nth j f 0 = hi j). { intros j Hj. pose proof (lo_hi HV j Hj). assert (E : advantage lo hi f j = 0) by (apply HZ, in_map_iff; exists j; split; auto; apply in_seq; lia). unfold advantage in E. assert (hi j - nth j f 0 = (hi j - nth j f 0) / (hi j - lo j) * (hi j - lo j)) by (field; lra). rewrite E in *. lra. }
    destruct (Hlo 0%nat Hm) as [(g & Hg & EG) _]. apply (HD g f Hg Hf). destruct HM as [_ HL]. rewrite Forall_forall in HL. split; [rewrite !HL; auto|]. rewrite (HL f Hf). split.
    - intros i Hi. rewrite HE by auto. now apply (Hhi i Hi).
    - exists 0%nat. split; auto. rewrite HE by auto. rewrite EG. now apply lo_hi.
  Qed.
End PW.

(** C90: for a set of mutually non-dominated solutions in which no objective is constant, the pseudo weights are non-negative and add up to one, and the solution returned is the first of
    those whose pseudo weights are closest (L1) to the weights asked for *)
Theorem C90_pseudo_weights : forall m F lo hi, (1 <= m)%nat -> matrix m F -> varied m F -> mutually_nondominated F ->
  (forall j, (j < m)%nat -> is_best F j (lo j)) -> (forall j, (j < m)%nat -> is_worst F j (hi j)) ->
  (forall f, In f F -> let w := pw_row m (pw_ideal m None F) (pw_nadir m None F) f in
     length w = m /\ rsum w = 1 /\ forall j, (j < m)%nat -> nth j w 0 = pseudo_weight m lo hi f j /\ 0 <= nth j w 0) /\
  forall w, exists i, pseudo_weights m None None w F = Some i /\ (i < length F)%nat /\
    (forall k, (k < length F)%nat -> distance_to m w lo hi (nth i F []) <= distance_to m w lo hi (nth k F [])) /\
    forall k, (k < i)%nat -> distance_to m w lo hi (nth i F []) < distance_to m w lo hi (nth k F []).
Proof.
  intros m F lo hi Hm HM HV HD Hlo Hhi. split.
  - intros f Hf w. unfold w. rewrite (row_pw m F lo hi) by auto. pose proof (sum_pos m F lo hi HM Hlo Hhi f Hm HV HD Hf) as HS. split; [now rewrite map_length, seq_length|]. split.
    + assert (E : map (pseudo_weight m lo hi f) (seq 0 m) = map (fun v => / rsum (map (advantage lo hi f) (seq 0 m)) * v) (map (advantage lo hi f) (seq 0 m))) by (rewrite map_map; apply map_ext; intros j; unfold pseudo_weight, Rdiv; ring). rewrite E, rsum_scale. field. lra.
    + intros j Hj. rewrite nth_map_seq0 by auto. split; auto. unfold pseudo_weight. apply Rmult_le_pos; [eapply adv_ge0; eauto|]. left. now apply Rinv_0_lt_compat.
  - intros w. destruct HM as [HN HL]. assert (HM : matrix m F) by now split. assert (EM : map (pw_score m w (pw_ideal m None F) (pw_nadir m None F)) F = map XFin (map (distance_to m w lo hi) F)).
    { rewrite map_map. apply map_ext_in. intros f Hf. apply score_fin; auto; [intros j Hj E; pose proof (lo_hi m F lo hi Hlo Hhi HV j Hj); lra|]. pose proof (sum_pos m F lo hi HM Hlo Hhi f Hm HV HD Hf). lra. }
    unfold pseudo_weights. destruct F as [|f0 F0] eqn:EF; [congruence|]. rewrite <- EF in *. rewrite EM. unfold x_argmin. rewrite first_nan_fin. destruct (least_fin (map (distance_to m w lo hi) F)) as (L1 & L2 & L3); [rewrite EF; discriminate|]. rewrite map_length in *. set (k := least_pos _) in *.
    assert (EN : forall i, (i < length F)%nat -> nth i (map (distance_to m w lo hi) F) 0 = distance_to m w lo hi (nth i F [])) by (intros i Hi; rewrite (nth_indep _ 0 (distance_to m w lo hi [])) by (now rewrite map_length); apply map_nth).
    exists k. split; auto. split; auto. split; intros i Hi; [specialize (L2 i Hi)|specialize (L3 i Hi)]; rewrite !EN in * by lia; auto.
Qed.
Lemma pw_some m w F : F <> [] -> pseudo_weights m None None w F = Some (x_argmin (map (pw_score m w (pw_ideal m None F) (pw_nadir m None F)) F)).
Proof. unfold pseudo_weights. destruct F; [congruence|reflexivity]. Qed.
Lemma first_nan_at l k : nth_error l k = Some XNaN -> (forall i, (i < k)%nat -> nth_error l i <> Some XNaN) -> first_nan l = Some k.
Proof.
  revert k. induction l as [|x l IH]; intros [|k] E HB; cbn in *; try discriminate.
  - injection E as ->. reflexivity.
  - assert (HX : is_nan x = false) by (specialize (HB 0%nat ltac:(lia)); cbn in HB; destruct x; auto; congruence). rewrite HX, (IH k E); auto. intros i Hi. apply (HB (S i)). lia.
Qed.
(** otherwise the weights have no effect: a constant objective makes every result the first solution ... *)
Theorem C90_pseudo_weights_constant_refuted : forall m F w j v, matrix m F -> (j < m)%nat -> (forall f, In f F -> nth j f 0 = v) -> pseudo_weights m None None w F = Some 0%nat.
Proof.
  intros m F w j v HM Hj HC. assert (E1 : nth j (pw_ideal m None F) 0 = v) by (unfold pw_ideal; rewrite nth_map_seq0 by auto; destruct (col_best m F j HM) as [(f & Hf & <-) _]; auto). assert (E2 : nth j (pw_nadir m None F) 0 = v) by (unfold pw_nadir; rewrite nth_map_seq0 by auto; destruct (col_worst m F j HM) as [(f & Hf & <-) _]; auto).
  destruct F as [|f0 F0] eqn:EF; [destruct HM; congruence|]. unfold pseudo_weights. f_equal. unfold x_argmin. cbn [map]. rewrite <- EF in *. unfold pw_score at 1. replace (existsb _ (seq 0 m)) with true; [reflexivity|]. symmetry. apply existsb_exists. exists j. split; [apply in_seq; lia|]. rewrite E1, E2. destruct (Req_EM_T v v); auto.
Qed.
(** ... and so is the first solution that is worst in every objective, if there is one *)
Theorem C90_pseudo_weights_worst_refuted : forall m F w k, (1 <= m)%nat -> matrix m F -> varied m F -> (k < length F)%nat -> (forall j, (j < m)%nat -> is_worst F j (nth j (nth k F []) 0)) ->
  (forall i, (i < k)%nat -> exists j, (j < m)%nat /\ ~ is_worst F j (nth j (nth i F []) 0)) -> pseudo_weights m None None w F = Some k.
Proof.
  intros m F w k Hm HM HV Hk HW HB. set (lo := fun j => rmin_list (rcol j F)). set (hi := fun j => nth j (nth k F []) 0). assert (Hlo : forall j, (j < m)%nat -> is_best F j (lo j)) by (intros; eapply col_best; eauto). assert (Hhi : forall j, (j < m)%nat -> is_worst F j (hi j)) by auto.
  assert (HLH := lo_hi m F lo hi Hlo Hhi HV). assert (HC : existsb (fun j => if Req_EM_T (nth j (pw_nadir m None F) 0) (nth j (pw_ideal m None F) 0) then true else false) (seq 0 m) = false).
  { apply not_true_is_false. intros E. apply existsb_exists in E as (j & Hj & E). apply in_seq in Hj. rewrite (ideal_at m F lo HM Hlo), (nadir_at m F hi HM Hhi) in E by lia. destruct (Req_EM_T (hi j) (lo j)); [|discriminate]. specialize (HLH j ltac:(lia)). lra. }
  assert (EN : forall i, (i < length F)%nat -> nth_error (map (pw_score m w (pw_ideal m None F) (pw_nadir m None F)) F) i = Some (pw_score m w (pw_ideal m None F) (pw_nadir m None F) (nth i F []))) by (intros i Hi; apply map_nth_error; now apply nth_error_nth').
  rewrite pw_some by apply HM. f_equal. unfold x_argmin. erewrite first_nan_at; [reflexivity| |].
  - rewrite EN by auto. f_equal. unfold pw_score. rewrite HC. rewrite (dist_adv m F lo hi HM Hlo Hhi). assert (HZ : forall j, advantage lo hi (nth k F []) j = 0) by (intros j; unfold advantage; replace (hi j - nth j (nth k F []) 0) with 0 by (unfold hi; ring); unfold Rdiv; ring).
    rewrite (map_ext _ (fun _ => 0) HZ). assert (ES : rsum (map (fun _ : nat => 0) (seq 0 m)) = 0) by (clear; generalize (seq 0 m); induction l as [|a l IH]; unfold rsum in *; cbn; [auto|rewrite IH; ring]). rewrite ES. destruct (Req_EM_T 0 0); [|lra]. destruct m; [lia|]. cbn. destruct (Req_EM_T 0 0); [auto|lra].
  - intros i Hi. rewrite EN by lia. intros E. assert (E' : pw_score m w (pw_ideal m None F) (pw_nadir m None F) (nth i F []) = XNaN) by congruence. clear E. rename E' into E. destruct (HB i Hi) as (j & Hj & HNW). unfold pw_score in E. rewrite HC in E. rewrite (dist_adv m F lo hi HM Hlo Hhi) in E.
    assert (Hf : In (nth i F []) F) by (apply nth_In; lia). assert (HP : forall v, In v (map (advantage lo hi (nth i F [])) (seq 0 m)) -> 0 <= v). { intros v Hv. apply in_map_iff in Hv as (j' & <- & Hj'). apply in_seq in Hj'. apply (adv_ge0 m F lo hi Hlo Hhi); auto. lia. }
    destruct (Req_EM_T _ 0) as [Z|Z]; [|discriminate]. assert (E0 : advantage lo hi (nth i F []) j = 0) by (apply (rsum_0 _ HP Z), in_map_iff; exists j; split; auto; apply in_seq; lia). apply HNW. specialize (HLH j Hj). unfold advantage in E0. assert (EQ : hi j - nth j (nth i F []) 0 = (hi j - nth j (nth i F []) 0) / (hi j - lo j) * (hi j - lo j)) by (field; lra). rewrite E0 in EQ. replace (nth j (nth i F []) 0) with (hi j) by lra. auto.
Qed.
(** C90: the choice does not depend on the units of the objectives *)
Theorem C90_pseudo_weights_units : forall m F w a b, matrix m F -> length a = m -> length b = m -> (forall j, (j < m)%nat -> 0 < nth j a 0) ->
  let unit f := map (fun j => nth j a 0 * nth j f 0 + nth j b 0) (seq 0 m) in pseudo_weights m None None w (map unit F) = pseudo_weights m None None w F.
Proof.
  intros m F w a b HM La Lb HA unit. set (lo := fun j => rmin_list (rcol j F)). set (hi := fun j => rmax_list (rcol j F)). assert (Hlo : forall j, (j < m)%nat -> is_best F j (lo j)) by (intros; eapply col_best; eauto). assert (Hhi : forall j, (j < m)%nat -> is_worst F j (hi j)) by (intros; eapply col_worst; eauto).
  assert (EU : forall f j, (j < m)%nat -> nth j (unit f) 0 = nth j a 0 * nth j f 0 + nth j b 0) by (intros f j Hj; unfold unit; now rewrite nth_map_seq0).
  set (lo' := fun j => nth j a 0 * lo j + nth j b 0). set (hi' := fun j => nth j a 0 * hi j + nth j b 0). assert (HM' : matrix m (map unit F)). { destruct HM as [HN HL]. split; [destruct F; [congruence|discriminate]|]. apply Forall_forall. intros g Hg. apply in_map_iff in Hg as (f & <- & _). unfold unit. now rewrite map_length, seq_length. }
  assert (Hlo' : forall j, (j < m)%nat -> is_best (map unit F) j (lo' j)). { intros j Hj. destruct (Hlo j Hj) as [(f & Hf & E) H]. split; [exists (unit f); split; [now apply in_map|rewrite EU, E by auto; reflexivity]|]. intros g Hg. apply in_map_iff in Hg as (h & <- & Hh). rewrite EU by auto. specialize (H h Hh). specialize (HA j Hj). unfold lo'. nra. }
  assert (Hhi' : forall j, (j < m)%nat -> is_worst (map unit F) j (hi' j)). { intros j Hj. destruct (Hhi j Hj) as [(f & Hf & E) H]. split; [exists (unit f); split; [now apply in_map|rewrite EU, E by auto; reflexivity]|]. intros g Hg. apply in_map_iff in Hg as (h & <- & Hh). rewrite EU by auto. specialize (H h Hh). specialize (HA j Hj). unfold hi'. nra. }
  assert (EX : existsb (fun j => if Req_EM_T (nth j (pw_nadir m None (map unit F)) 0) (nth j (pw_ideal m None (map unit F)) 0) then true else false) (seq 0 m) = existsb (fun j => if Req_EM_T (nth j (pw_nadir m None F) 0) (nth j (pw_ideal m None F) 0) then true else false) (seq 0 m)).
  { apply eq_true_iff_eq. rewrite !existsb_exists. split; intros (j & Hj & E); exists j; (split; auto); apply in_seq in Hj; rewrite (ideal_at m F lo HM Hlo), (nadir_at m F hi HM Hhi), (ideal_at m _ lo' HM' Hlo'), (nadir_at m _ hi' HM' Hhi') in * by lia; unfold lo', hi' in *; specialize (HA j ltac:(lia)); destruct (Req_EM_T (hi j) (lo j)) as [H1|H1], (Req_EM_T (nth j a 0 * hi j + nth j b 0) (nth j a 0 * lo j + nth j b 0)) as [H2|H2]; auto; exfalso; [apply H1; nra|apply H2; now rewrite H1]. }
  assert (ES : map (pw_score m w (pw_ideal m None (map unit F)) (pw_nadir m None (map unit F))) (map unit F) = map (pw_score m w (pw_ideal m None F) (pw_nadir m None F)) F).
  { rewrite map_map. apply map_ext. intros f. unfold pw_score. rewrite EX. clear EX. destruct (existsb (fun j => if Req_EM_T (nth j (pw_nadir m None F) 0) (nth j (pw_ideal m None F) 0) then true else false) (seq 0 m)) eqn:EB; auto.
    assert (HNE : forall j, (j < m)%nat -> hi j <> lo j). { intros j Hj E. apply not_true_iff_false in EB. apply EB. apply existsb_exists. exists j. split; [apply in_seq; lia|]. rewrite (ideal_at m F lo HM Hlo), (nadir_at m F hi HM Hhi) by lia. destruct (Req_EM_T (hi j) (lo j)); auto. }
    assert (ED : pw_dist m (pw_ideal m None (map unit F)) (pw_nadir m None (map unit F)) (unit f) = pw_dist m (pw_ideal m None F) (pw_nadir m None F) f).
    { rewrite (dist_adv m F lo hi HM Hlo Hhi), (dist_adv m _ lo' hi' HM' Hlo' Hhi'). apply map_ext_in. intros j Hj. apply in_seq in Hj. unfold advantage. rewrite EU by lia. unfold lo', hi'. specialize (HA j ltac:(lia)). specialize (HNE j ltac:(lia)). replace (nth j a 0 * hi j + nth j b 0 - (nth j a 0 * nth j f 0 + nth j b 0)) with (nth j a 0 * (hi j - nth j f 0)) by ring. replace (nth j a 0 * hi j + nth j b 0 - (nth j a 0 * lo j + nth j b 0)) with (nth j a 0 * (hi j - lo j)) by ring. field. lra. }
    unfold pw_row. cbv zeta. rewrite ED. reflexivity. }
  rewrite !pw_some; [now rewrite ES|apply HM|apply HM'].
Qed.
