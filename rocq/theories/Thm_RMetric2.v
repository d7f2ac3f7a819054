(** * C102: the R-metric, theorems *)
From Coq Require Import List Arith Bool ZArith QArith Qabs Lia Lqa.
From Verif Require Import ListAux M_Termination P_Termination M_Norm Thm_Norm M_RefDirs2 Thm_RefDirs2 M_RMetric Thm_RMetric.
Import ListNotations.
Local Open Scope nat_scope.

Section C102.
  Variables (m : nat) (refs : list (list Q)) (w : option Q) (delta : Q) (pf F : list (list Q)) (others : option (list (list Q))).
  Hypotheses (Hm : 0 < m) (Hrefs : refs <> []) (HR : forall r, In r refs -> length r = m) (HF : forall x, In x F -> length x = m) (HP : forall x, In x pf -> length x = m) (HPne : pf <> []).
  (** the region of a reference point: undominated points of F that are nearest to it *)
  Definition region (i : nat) (x : list Q) : Prop := In x F /\ undominated m others x /\ nearest m refs x i.

  Lemma cluster_In i x : In x (cluster m refs F others i) <-> region i x.
  Proof.
    unfold cluster, region. rewrite filter_In, rm_filter_In, Nat.eqb_eq. split.
    - intros [[H1 H2] H3]. repeat split; auto; now apply (label_nearest m) in H3; [| | |auto]; apply H3 || auto.
    - intros (H1 & H2 & H3). split; [auto|]. apply (label_nearest m); auto.
  Qed.
  Lemma ref_len i : i < length refs -> length (ref_at refs i) = m. Proof. intros H. apply HR, nth_In, H. Qed.
  Definition rep (i : nat) : list Q := preprocess (cluster m refs F others i) (ref_at refs i) (w_point w (ref_at refs i)).
  Lemma cl_len i x : In x (cluster m refs F others i) -> length x = m.
  Proof. intros H. apply cluster_In in H. apply HF, H. Qed.
  Lemma rep_spec i : i < length refs -> cluster m refs F others i <> [] -> represents m (w_of w) (ref_at refs i) (region i) (rep i).
  Proof.
    intros Hi Hne. destruct (preprocess_spec m w (ref_at refs i) (cluster m refs F others i) Hm (ref_len i Hi) (cl_len i) Hne) as [A B]. split; [now apply cluster_In|].
    intros x vx vz Hx. apply B. now apply cluster_In.
  Qed.
  Lemma translated_In y : In y (translated m refs w delta F others) <->
    exists i x, i < length refs /\ region i x /\ close_to m delta x (rep i) /\ y = map2 Qplus x (shift_of (rep i) (ref_at refs i) (w_point w (ref_at refs i))).
  Proof.
    unfold translated. rewrite in_concat. split.
    - intros (l & L1 & L2). apply in_map_iff in L1. destruct L1 as (i & <- & I1). apply in_seq in I1. unfold translated_of in L2.
      destruct (cluster m refs F others i) as [|c0 cl] eqn:E; [destruct L2|]. rewrite <- E in L2. unfold translate in L2. apply in_map_iff in L2. destruct L2 as (x & <- & X).
      apply (trim_spec m) in X; [|apply cl_len|]. 
      + exists i, x. split; [lia|]. split; [apply cluster_In, X|]. split; [apply X|reflexivity].
      + apply (cl_len i). apply cluster_In. apply rep_spec; [lia|congruence].
    - intros (i & x & Hi & Hx & Hc & ->). exists (translated_of m refs w delta F others i). split; [apply in_map_iff; exists i; split; auto; apply in_seq; lia|].
      assert (Hx' := Hx). apply cluster_In in Hx'. unfold translated_of.
      destruct (cluster m refs F others i) as [|c0 cl] eqn:E; [destruct Hx'|]. rewrite <- E in *. unfold translate. apply in_map_iff. exists x. split; [reflexivity|].
      apply (trim_spec m); [apply cl_len| |split; auto].
      apply (cl_len i). apply cluster_In. apply rep_spec; [lia|congruence].
  Qed.
  Lemma target_In y : In y (final_pf refs w pf) <-> exists i, i < length refs /\ In y pf /\ close_to m (1 # 5) y (preprocess pf (ref_at refs i) (w_point w (ref_at refs i))).
  Proof.
    unfold final_pf, target_of. rewrite in_concat.
    assert (PL : forall i, i < length refs -> length (preprocess pf (ref_at refs i) (w_point w (ref_at refs i))) = m).
    { intros i Hi. apply HP. apply (preprocess_spec m w (ref_at refs i) pf Hm (ref_len i Hi) HP HPne). }
    split.
    - intros (l & L1 & L2). apply in_map_iff in L1. destruct L1 as (i & <- & I1). apply in_seq in I1. apply (trim_spec m) in L2; auto; [|apply PL; lia]. exists i. split; [lia|auto].
    - intros (i & Hi & H). eexists. split; [apply in_map_iff; exists i; split; [reflexivity|apply in_seq; lia]|]. apply (trim_spec m); auto.
  Qed.
  Lemma fold_max_nth rs : forall r j, j < m -> length r = m -> (forall x, In x rs -> length x = m) ->
    let u := fold_left (map2 (fun a b => py_max a [b])) rs r in length u = m /\ (forall x, In x (r :: rs) -> (at_ x j <= at_ u j)%Q) /\ exists x, In x (r :: rs) /\ at_ u j = at_ x j.
  Proof.
    induction rs as [|s rs IH]; intros r j Hj Hr HA; cbn [fold_left].
    - split; [auto|]. split; [intros x [->|[]]; lra|exists r; simpl; auto].
    - assert (Hs : length s = m) by (apply HA; now left). assert (E : at_ (map2 (fun a b => py_max a [b]) r s) j = py_max (at_ r j) [at_ s j]) by (apply (nth_map2 (fun a b => py_max a [b])); lia).
      destruct (IH (map2 (fun a b => py_max a [b]) r s) j Hj) as (L & U & (x & X1 & X2)); [rewrite length_map2; lia|intros; apply HA; now right|].
      split; [exact L|]. set (u := at_ (map2 (fun a b => py_max a [b]) r s) j) in *. cbn [py_max] in E.
      assert (M : (at_ r j <= u)%Q /\ (at_ s j <= u)%Q /\ (u = at_ r j \/ u = at_ s j)).
      { rewrite E. destruct (Qle_bool (at_ s j) (at_ r j)) eqn:K; [apply Qle_bool_iff in K|apply Qltb_false in K]; repeat split; try lra; auto. }
      destruct M as (M1 & M2 & M3). split.
      + intros y [<-|[<-|Hy]]; [eapply Qle_trans; [exact M1|apply U; now left]|eapply Qle_trans; [exact M2|apply U; now left]|apply U; now right].
      + destruct X1 as [<-|X1]; [|exists x; simpl; auto]. fold u in X2. rewrite X2. destruct M3 as [M3|M3]; rewrite M3; [exists r|exists s]; simpl; auto.
  Qed.
  Lemma nadir_spec j : j < m -> (forall r, In r refs -> (at_ r j + 2 * w_of w <= at_ (nadir_w refs w) j)%Q) /\ exists r, In r refs /\ (at_ (nadir_w refs w) j == at_ r j + 2 * w_of w)%Q.
  Proof.
    intros Hj. unfold nadir_w. destruct (map (w_point w) refs) as [|p ps] eqn:E; [destruct refs; [congruence|discriminate]|].
    assert (HA : forall x, In x (p :: ps) -> exists r, In r refs /\ x = w_point w r) by (intros x; rewrite <- E; intros H; apply in_map_iff in H; destruct H as (r & <- & R); eauto).
    assert (HL : forall x, In x (p :: ps) -> length x = m) by (intros x Hx; destruct (HA x Hx) as (r & R & ->); rewrite w_point_len; auto).
    destruct (fold_max_nth ps p j Hj) as (_ & U & (x & X1 & X2)); [apply HL; now left|intros; apply HL; now right|]. split.
    - intros r Hr. rewrite <- w_point_nth by (rewrite HR; auto). apply U. rewrite <- E. apply in_map_iff. eauto.
    - destruct (HA x X1) as (r & R & ->). exists r. split; [auto|]. rewrite X2, w_point_nth by (rewrite HR; auto). reflexivity.
  Qed.

  (** ** C102: what R-IGD and R-HV are computed from *)
  Theorem C102_rmetric : forall igd hv calc_hv, exists T P nadir rp,
    rmetric m refs w delta pf igd hv F others calc_hv = match T with [] => (None, None) | _ => (Some (igd P T), if calc_hv && (m <=? 3) then hv nadir T else None) end /\
    (forall i, (exists x, region i x) -> represents m (w_of w) (nth i refs []) (region i) (rp i)) /\
    (forall y, In y T -> exists i x, region i x /\ close_to m delta x (rp i) /\ moved m (w_of w) (nth i refs []) (rp i) x y) /\
    (forall i x, region i x -> close_to m delta x (rp i) -> exists y, In y T /\ moved m (w_of w) (nth i refs []) (rp i) x y) /\
    (exists tp, (forall i, i < length refs -> represents m (w_of w) (nth i refs []) (fun x => In x pf) (tp i)) /\
       forall y, In y P <-> exists i, i < length refs /\ In y pf /\ close_to m (1 # 5) y (tp i)) /\
    (forall j, j < m -> (forall r, In r refs -> (at_ r j + 2 * w_of w <= at_ nadir j)%Q) /\ exists r, In r refs /\ (at_ nadir j == at_ r j + 2 * w_of w)%Q).
  Proof.
    intros igd hv ch. exists (translated m refs w delta F others), (final_pf refs w pf), (nadir_w refs w), rep. split; [unfold rmetric; destruct (translated m refs w delta F others); reflexivity|].
    assert (RP : forall i x, region i x -> represents m (w_of w) (nth i refs []) (region i) (rep i)).
    { intros i x Hx. apply rep_spec; [apply Hx|]. intros C. apply cluster_In in Hx. rewrite C in Hx. destruct Hx. }
    assert (MV : forall i x, region i x -> moved m (w_of w) (nth i refs []) (rep i) x (map2 Qplus x (shift_of (rep i) (ref_at refs i) (w_point w (ref_at refs i))))).
    { intros i x Hx. apply shift_spec; auto; [apply ref_len, Hx| |apply HF, Hx]. apply HF. apply (RP i x Hx). }
    split; [intros i (x & Hx); eauto|]. split; [|split; [|split]].
    - intros y Hy. apply translated_In in Hy. destruct Hy as (i & x & Hi & Hx & Hc & ->). exists i, x. auto.
    - intros i x Hx Hc. eexists. split; [|apply MV, Hx]. apply translated_In. exists i, x. split; [apply Hx|auto].
    - exists (fun i => preprocess pf (ref_at refs i) (w_point w (ref_at refs i))). split; [|apply target_In]. intros i Hi. apply preprocess_spec; auto. apply ref_len, Hi.
    - apply nadir_spec.
  Qed.
  (** a result is reported unless every point of F is dominated by a point of the other algorithms *)
  Theorem C102_none : forall igd hv calc_hv, (0 < delta)%Q ->
    fst (rmetric m refs w delta pf igd hv F others calc_hv) = None <-> (forall x, In x F -> ~ undominated m others x).
  Proof.
    intros igd hv ch Hd. unfold rmetric.
    assert (T : translated m refs w delta F others = [] <-> forall x, In x F -> ~ undominated m others x).
    { split.
      - intros H x Hx Hu. set (i := label refs x). assert (Rx : region i x) by (split; [auto|]; split; [auto|]; apply (label_nearest m); auto).
        assert (RP : region i (rep i)). { apply rep_spec; [apply Rx|]. intros C. apply cluster_In in Rx. rewrite C in Rx. destruct Rx. }
        assert (IN : In (map2 Qplus (rep i) (shift_of (rep i) (ref_at refs i) (w_point w (ref_at refs i)))) (translated m refs w delta F others)).
        { apply translated_In. exists i, (rep i). split; [apply Rx|]. split; [exact RP|]. split; [|reflexivity]. intros j Hj.
          assert (E : (at_ (rep i) j - at_ (rep i) j == 0)%Q) by ring. rewrite E. cbn. apply Qlt_shift_div_l; lra. }
        rewrite H in IN. destruct IN.
      - intros H. destruct (translated m refs w delta F others) as [|y l] eqn:E; auto. assert (Hy : In y (translated m refs w delta F others)) by (rewrite E; now left).
        apply translated_In in Hy. destruct Hy as (i & x & _ & Hx & _). exfalso. apply (H x); apply Hx. }
    destruct (translated m refs w delta F others) as [|y l]; cbn [fst]; [split; [intros _; apply T; auto|auto]|]. split; [discriminate|]. intros H. apply T in H. discriminate.
  Qed.
End C102.

(** ** C102: the R-metric of the Pareto front itself.  With one reference point, delta = 0.2 and the front as F: if the representative of the front lies on the line through the
    reference point, nothing moves and the two sets coincide *)
Definition same_rows : list (list Q) -> list (list Q) -> Prop := Forall2 (Forall2 Qeq).
Lemma F2_nth_intro a b m : length a = m -> length b = m -> (forall j, j < m -> (at_ a j == at_ b j)%Q) -> Forall2 Qeq a b.
Proof.
  intros <-. revert b. induction a as [|x a IH]; intros [|y b] HL H; cbn in HL; try discriminate; constructor; [apply (H 0); cbn; lia|]. apply IH; [lia|]. intros j Hj. apply (H (S j)). cbn. lia.
Qed.
Theorem C102_front : forall m r w pf igd hv calc_hv, 0 < m -> length r = m -> (forall x, In x pf -> length x = m) -> pf <> [] ->
  (forall z v, represents m (w_of w) r (fun x => In x pf) z -> asf m (w_of w) r z v -> forall j, j < m -> (at_ z j == at_ r j + v * (2 * w_of w))%Q) ->
  (forall A B, same_rows A B -> (igd A B == 0)%Q) ->
  exists v, fst (rmetric m [r] w (1 # 5) pf igd hv pf None calc_hv) = Some v /\ (v == 0)%Q.
Proof.
  intros m r w pf igd hv ch Hm Hr HP Hne HL HI. unfold rmetric.
  assert (EC : cluster m [r] pf None 0 = pf).
  { unfold cluster, rm_filter. clear - Hr. induction pf as [|x l IH]; cbn [filter]; [reflexivity|]. unfold label at 1. cbn [map argminQ argminQ_from Nat.eqb]. now rewrite IH. }
  set (z := preprocess pf r (w_point w r)). pose proof (preprocess_spec m w r pf Hm Hr HP Hne) as RZ. fold z in RZ.
  assert (LZ : length z = m) by (apply HP, RZ).
  assert (ET : translated m [r] w (1 # 5) pf None = translate z (trim pf z (1 # 5)) r (w_point w r)).
  { unfold translated, translated_of. cbn [length seq map concat]. rewrite EC. unfold ref_at. cbn [nth]. destruct pf; [congruence|]. fold z. now rewrite app_nil_r. }
  assert (EP : final_pf [r] w pf = trim pf z (1 # 5)) by (unfold final_pf, target_of, ref_at; cbn [length seq map concat nth]; now rewrite app_nil_r).
  rewrite ET, EP. assert (ZIN : In z (trim pf z (1 # 5))).
  { apply (trim_spec m); auto. split; [apply RZ|]. intros j Hj. assert (E : (at_ z j - at_ z j == 0)%Q) by ring. rewrite E. reflexivity. }
  assert (SR : same_rows (trim pf z (1 # 5)) (translate z (trim pf z (1 # 5)) r (w_point w r))).
  { unfold translate. assert (G : forall x, In x (trim pf z (1 # 5)) -> length x = m) by (intros x Hx; apply (trim_spec m) in Hx; auto; apply HP, Hx).
    clear ZIN ET EP. revert G. generalize (trim pf z (1 # 5)). intros l. induction l as [|x l IH]; intros G; cbn [map]; [constructor|]. apply Forall2_cons; [|apply IH; intros u Hu; apply G; now right].
    specialize (G x (or_introl eq_refl)). destruct (shift_spec m w r z x Hm Hr LZ G) as [S1 S2]. apply (F2_nth_intro _ _ m); [exact G|exact S1|]. intros j Hj.
      pose proof (asf_amax m w r z Hm Hr LZ) as A. specialize (S2 _ A j Hj). specialize (HL z _ RZ A j Hj). rewrite S2, HL. ring. }
  destruct (translate z (trim pf z (1 # 5)) r (w_point w r)) as [|y l] eqn:E; [inversion SR as [K|]; rewrite <- K in ZIN; destruct ZIN|].
  cbn [fst]. eexists. split; [reflexivity|]. now apply HI.
Qed.
(** off that line the front scores worse than zero: reference point (0, 0), front (0, 1), (1/4, 1/2): the representative (1/4, 1/2) is moved to (1/2, 1/2) *)
Example C102_front_off_line :
  translated 2 [[0; 0]]%Q None (1 # 5) [[0; 1]; [1 # 4; 1 # 2]]%Q None = [[32 # 64; 8 # 16]]%Q /\ final_pf [[0; 0]]%Q None [[0; 1]; [1 # 4; 1 # 2]]%Q = [[1 # 4; 1 # 2]]%Q.
Proof. vm_compute. auto. Qed.
(** ** the hypotheses are met: two reference points, one point dominated by the other algorithm, one outside the range of its representative *)
Example C102_case :
  translated 2 [[0; 0]; [4; 0]]%Q (Some 2)%Q 1%Q [[1; 1]; [9 # 10; 12 # 10]; [2; 0]; [5; 5]; [4; 1]]%Q (Some [[3; 4]]%Q) <> [] /\
  rm_filter 2 [[1; 1]; [9 # 10; 12 # 10]; [2; 0]; [5; 5]; [4; 1]]%Q (Some [[3; 4]]%Q) = [[1; 1]; [9 # 10; 12 # 10]; [2; 0]; [4; 1]]%Q /\
  map (label [[0; 0]; [4; 0]]%Q) [[1; 1]; [9 # 10; 12 # 10]; [2; 0]; [4; 1]]%Q = [0; 0; 0; 1] /\
  length (translated 2 [[0; 0]; [4; 0]]%Q (Some 2)%Q 1%Q [[1; 1]; [9 # 10; 12 # 10]; [2; 0]; [5; 5]; [4; 1]]%Q (Some [[3; 4]]%Q)) = 3.
Proof. split; [vm_compute; discriminate|]. vm_compute. auto. Qed.
