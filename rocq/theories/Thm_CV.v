(** * Theorems C16-C17: constraint violation *)
From Coq Require Import List QArith Lqa Bool Arith Lia.
From Verif Require Import ListAux M_Individual P_Individual.
Import ListNotations.
Local Open Scope Q_scope.

(** configurations for which the claims are made: aggregation by sum or mean (any function with the same basic laws), positive
    scale, positive exponent *)
Theorem C16_violation : forall cfg G H, cfg_ok (k_ieq cfg) -> cfg_ok (k_eq cfg) ->
  0 <= calc_cv G H cfg /\
  (calc_cv G H cfg == 0 <->
     Forall (fun g => g <= c_eps (k_ieq cfg)) G /\ Forall (fun h => - c_eps (k_eq cfg) <= h /\ h <= c_eps (k_eq cfg)) H) /\
  (forall G' H', Forall2 Qle G G' -> Forall2 (fun h h' => qabs h <= qabs h') H H' -> calc_cv G H cfg <= calc_cv G' H' cfg).
Proof.
  intros cfg G H Hi He. unfold calc_cv.
  destruct (constr_to_cv_spec (k_ieq cfg) G Hi) as (A1 & A2 & A3).
  destruct (constr_to_cv_spec (k_eq cfg) (map qabs H) He) as (B1 & B2 & B3).
  split; [lra|]. split.
  - assert (HB : Forall (fun x => x <= c_eps (k_eq cfg)) (map qabs H) <-> Forall (fun h => - c_eps (k_eq cfg) <= h /\ h <= c_eps (k_eq cfg)) H).
    { rewrite Forall_map. rewrite !Forall_forall. split; intros HH x Hx; apply qabs_le; auto. }
    rewrite <- HB, <- A2, <- B2. split; [intros E; split; lra|intros [E1 E2]; lra].
  - intros G' H' HG HH. specialize (A3 G' HG). assert (B4 : Forall2 Qle (map qabs H) (map qabs H')) by (clear -HH; induction HH; simpl; constructor; auto).
    specialize (B3 _ B4). lra.
Qed.
Print Assumptions C16_violation.

(** the standard settings (sum; any tolerances) and the mean qualify *)
Theorem C16_default_config : cfg_ok (k_ieq default_config) /\ cfg_ok (k_eq default_config) /\
  forall eps f, f = qsum \/ f = qmean -> cfg_ok {| c_eps := eps; c_scale := None; c_pow := None; c_func := f |}.
Proof.
  assert (H : forall eps f, f = qsum \/ f = qmean -> cfg_ok {| c_eps := eps; c_scale := None; c_pow := None; c_func := f |}).
  { intros eps f Hf. split; [destruct Hf as [-> | ->]; [apply qsum_agg|apply qmean_agg]|]. split; discriminate. }
  split; [apply H; auto|]. split; [apply H; auto|exact H].
Qed.
Print Assumptions C16_default_config.

(** a fresh individual is reported feasible exactly when its violation is at most cv_eps; by default: when all constraints hold *)
Theorem C16_feasible : forall cfg G H,
  (fst (feas_read cfg {| g_ := G; h_ := H; cv_ := None |}) = true <-> calc_cv G H cfg <= k_cv_eps cfg) /\
  (cfg_ok (k_ieq cfg) -> cfg_ok (k_eq cfg) -> k_cv_eps cfg == 0 ->
   (fst (feas_read cfg {| g_ := G; h_ := H; cv_ := None |}) = true <->
     Forall (fun g => g <= c_eps (k_ieq cfg)) G /\ Forall (fun h => - c_eps (k_eq cfg) <= h /\ h <= c_eps (k_eq cfg)) H)).
Proof.
  intros cfg G H.
  assert (E : fst (feas_read cfg {| g_ := G; h_ := H; cv_ := None |}) = true <-> calc_cv G H cfg <= k_cv_eps cfg).
  { unfold feas_read, cv_read. simpl. destruct (k_cache cfg); simpl; apply Qle_bool_iff. }
  split; auto. intros Hi He H0. rewrite E, H0. destruct (C16_violation cfg G H Hi He) as (A1 & A2 & _). rewrite <- A2. lra.
Qed.
Print Assumptions C16_feasible.

(** the population version is the individual version, row by row *)
Theorem C16_population : forall cfg GH i, (i < length GH)%nat ->
  length (calc_cv_pop GH cfg) = length GH /\
  nth i (calc_cv_pop GH cfg) 0 = calc_cv (fst (nth i GH ([], []))) (snd (nth i GH ([], []))) cfg.
Proof.
  intros cfg GH i Hi. unfold calc_cv_pop. split; [apply map_length|].
  set (f := fun gh => calc_cv (fst gh) (snd gh) cfg). transitivity (nth i (map f GH) (f ([], []))).
  - apply nth_indep. now rewrite map_length.
  - apply (map_nth f).
Qed.
Print Assumptions C16_population.

(** ** C17 *)
(** with the cache switched off the violation read is always the one of the current constraint values *)
Theorem C17_cache_off : forall cfg o ops, k_cache cfg = false ->
  let o' := cv_run cfg o ops in fst (cv_read cfg o') = calc_cv (g_ o') (h_ o') cfg.
Proof. intros cfg o ops H. cbv zeta. unfold cv_read. now rewrite H. Qed.
Print Assumptions C17_cache_off.

Definition is_write (op : cvop) : bool := match op with OSetG _ | OSetH _ => true | _ => false end.
Definition is_read (op : cvop) : bool := match op with OReadCV | OReadFeas => true | _ => false end.

Lemma read_gh cfg o : g_ (snd (cv_read cfg o)) = g_ o /\ h_ (snd (cv_read cfg o)) = h_ o.
Proof. unfold cv_read. destruct (k_cache cfg), (cv_ o); auto. Qed.
Lemma step_read cfg o op : is_read op = true -> cv_step cfg o op = snd (cv_read cfg o).
Proof. destruct op; try discriminate; intros _; [reflexivity|]. unfold cv_step, feas_read. now destruct (cv_read cfg o). Qed.

(** default settings: what a read returns, exactly.  After a reset, values are set ([pre], no read in it), the violation is read
    for the first time, then anything happens except another reset or an explicit assignment of the violation: every later read
    returns the violation of the values at the FIRST read. *)
Theorem C17_cached_value : forall cfg o pre rd post, k_cache cfg = true ->
  forallb is_write pre = true -> is_read rd = true -> forallb (fun op => is_write op || is_read op) post = true ->
  let o1 := cv_run cfg o (OReset :: pre) in
  fst (cv_read cfg (cv_run cfg o (OReset :: pre ++ rd :: post))) = calc_cv (g_ o1) (h_ o1) cfg.
Proof.
  intros cfg o pre rd post Hc Hpre Hrd Hpost. cbv zeta. unfold cv_run. cbn [fold_left]. rewrite fold_left_app. cbn [fold_left].
  change (cv_step cfg o OReset) with cv_reset.
  set (o1 := fold_left (cv_step cfg) pre cv_reset).
  assert (H1 : cv_ o1 = None).
  { unfold o1. assert (G : forall o, cv_ o = None -> cv_ (fold_left (cv_step cfg) pre o) = None).
    { clear o o1. induction pre as [|op pre IH]; intros o Ho; auto. cbn [forallb fold_left] in *. apply andb_true_iff in Hpre as [Hp1 Hp2].
      apply IH; auto. destruct op; try discriminate; simpl; auto. }
    apply G. reflexivity. }
  rewrite (step_read cfg o1 rd Hrd). set (v := calc_cv (g_ o1) (h_ o1) cfg).
  assert (H2 : cv_ (snd (cv_read cfg o1)) = Some v) by (unfold cv_read; rewrite Hc, H1; reflexivity).
  revert H2. generalize (snd (cv_read cfg o1)). induction post as [|op post IH]; intros o2 H2; cbn [fold_left].
  - unfold cv_read. now rewrite Hc, H2.
  - cbn [forallb] in Hpost. apply andb_true_iff in Hpost as [Hp1 Hp2]. apply IH; auto.
    destruct (is_read op) eqn:Er.
    + rewrite step_read by auto. unfold cv_read. now rewrite Hc, H2.
    + destruct op; try discriminate; simpl; auto.
Qed.
Print Assumptions C17_cached_value.

(** partial C17, default settings: true as long as the values are not set again after the first read *)
Theorem C17_current_until_rewritten_partial : forall cfg o pre reads, k_cache cfg = true ->
  forallb is_write pre = true -> forallb is_read reads = true ->
  let o' := cv_run cfg o (OReset :: pre ++ reads) in fst (cv_read cfg o') = calc_cv (g_ o') (h_ o') cfg.
Proof.
  intros cfg o pre reads Hc Hpre Hr. cbv zeta. destruct reads as [|rd reads].
  - rewrite app_nil_r. unfold cv_run. cbn [fold_left]. change (cv_step cfg o OReset) with cv_reset.
    assert (G : forall o, cv_ o = None -> cv_ (fold_left (cv_step cfg) pre o) = None).
    { clear o. induction pre as [|op pre IH]; intros o Ho; auto. cbn [forallb fold_left] in *. apply andb_true_iff in Hpre as [Hp1 Hp2].
      apply IH; auto. destruct op; try discriminate; simpl; auto. }
    unfold cv_read. now rewrite Hc, (G cv_reset eq_refl).
  - cbn [forallb] in Hr. apply andb_true_iff in Hr as [Hr1 Hr2].
    rewrite (C17_cached_value cfg o pre rd reads); auto.
    2: { clear -Hr2. induction reads as [|x l IH]; auto. cbn [forallb] in *. apply andb_true_iff in Hr2 as [H1 H2]. now rewrite H1, orb_true_r, IH. }
    assert (G : forall rs o2, forallb is_read rs = true -> g_ (fold_left (cv_step cfg) rs o2) = g_ o2 /\ h_ (fold_left (cv_step cfg) rs o2) = h_ o2).
    { clear. induction rs as [|x l IH]; intros o2 H; auto. cbn [forallb fold_left] in *. apply andb_true_iff in H as [H1 H2].
      destruct (IH (cv_step cfg o2 x) H2) as [-> ->]. rewrite step_read by auto. apply read_gh. }
    unfold cv_run. cbn [fold_left]. rewrite fold_left_app. cbn [fold_left].
    destruct (G (rd :: reads) (fold_left (cv_step cfg) pre (cv_step cfg o OReset))) as [E1 E2].
    { cbn [forallb]. now rewrite Hr1, Hr2. }
    cbn [fold_left] in E1, E2. now rewrite E1, E2.
Qed.
Print Assumptions C17_current_until_rewritten_partial.

(** C17 is false with the default settings: set an infeasible value, read, set a feasible value: the individual still reports the old
    violation and is still reported infeasible; and the other way round *)
Theorem C17_stale_refuted :
  (exists ops, let o := cv_run default_config cv_reset ops in
     ~ fst (cv_read default_config o) == calc_cv (g_ o) (h_ o) default_config /\
     fst (feas_read default_config o) = false /\ calc_cv (g_ o) (h_ o) default_config == 0) /\
  (exists ops, let o := cv_run default_config cv_reset ops in
     fst (feas_read default_config o) = true /\ calc_cv (g_ o) (h_ o) default_config == 1).
Proof.
  split.
  - exists [OSetG [1]; OReadCV; OSetG [- (1)]]. vm_compute. split; [discriminate|]. split; reflexivity.
  - exists [OSetG [- (1)]; OReadCV; OSetG [1]]. vm_compute. split; reflexivity.
Qed.
Print Assumptions C17_stale_refuted.

(** ** examples *)
Example ex_cv : calc_cv [- (1); 2; 0] [1 # 20000; - (1)] default_config == 2 + (1 - (1 # 10000)).
Proof. vm_compute. reflexivity. Qed.
Example ex_cfg : cfg_ok {| c_eps := 1; c_scale := Some 2; c_pow := Some 2%nat; c_func := qmean |}.
Proof. split; [apply qmean_agg|]. split; intros ? E; injection E as <-; [lra|lia]. Qed.
Example ex_cv2 : calc_cv [3; 0] [] {| k_cache := true; k_cv_eps := 0;
   k_ieq := {| c_eps := 1; c_scale := Some 2; c_pow := Some 2%nat; c_func := qmean |}; k_eq := k_eq default_config |} == 1 # 2.
Proof. vm_compute. reflexivity. Qed.
