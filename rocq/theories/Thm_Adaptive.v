(** * C74: adaptive epsilon constraint handling *)
From Coq Require Import List ZArith Arith QArith Qminmax Lqa Lia.
From Verif Require Import ListAux M_Individual M_Wrappers.
Import ListNotations.
Local Open Scope nat_scope.

(** the relaxation at progress [t]: from the average violation [m] linearly down to 0 at progress [u] *)
Definition relaxed (u t m : Q) : Q := (Qmax 0 (1 - t / u) * m)%Q.
Lemma adapt_relaxed u t m : ~ (u == 0)%Q -> (adapt u t m == relaxed u t m)%Q.
Proof.
  intros Hu. unfold adapt, relaxed. assert (E : (1 - 1 / u * t == 1 - t / u)%Q) by (field; exact Hu). set (a := (1 - 1 / u * t)%Q) in *. set (b := (1 - t / u)%Q) in *. clearbody a b.
  destruct (Qle_bool 0 a) eqn:H.
  - apply Qle_bool_iff in H. rewrite Q.max_r by lra. now rewrite E.
  - assert (a < 0)%Q by (apply Qnot_le_lt; intros X; apply Qle_bool_iff in X; congruence). rewrite Q.max_l by lra. reflexivity.
Qed.
(** C74: the relaxation stays between 0 and the average initial violation, does not grow with the progress, is zero from [u] on and positive before (for a positive average) *)
Theorem C74_relaxed u m : (0 < u)%Q -> (0 <= m)%Q ->
  (relaxed u 0 m == m)%Q /\ (forall t, 0 <= t -> 0 <= relaxed u t m /\ relaxed u t m <= m)%Q /\
  (forall t t', t <= t' -> relaxed u t' m <= relaxed u t m)%Q /\ (forall t, u <= t -> relaxed u t m == 0)%Q /\ (forall t, t < u -> 0 < m -> 0 < relaxed u t m)%Q.
Proof.
  intros Hu Hm. assert (Hi : (0 < / u)%Q) by (now apply Qinv_lt_0_compat).
  assert (D : forall t t', (t <= t' -> t / u <= t' / u)%Q) by (intros t t' H; unfold Qdiv; apply Qmult_le_compat_r; lra).
  assert (U : (u / u == 1)%Q) by (field; lra). unfold relaxed.
  split; [assert (E : (1 - 0 / u == 1)%Q) by (field; lra); rewrite E, Q.max_r by lra; ring|]. split; [|split; [|split]].
  - intros t Ht. pose proof (D 0%Q t Ht) as H. assert (E : (0 / u == 0)%Q) by (field; lra). rewrite E in H. pose proof (Q.le_max_l 0 (1 - t / u)).
    assert (Qmax 0 (1 - t / u) <= 1)%Q by (apply Q.max_lub; lra). split; [apply Qmult_le_0_compat; auto|].
    pose proof (Qmult_le_compat_r _ _ m H1 Hm). lra.
  - intros t t' Ht. apply Qmult_le_compat_r; auto. apply Q.max_le_compat_l. specialize (D t t' Ht). lra.
  - intros t Ht. specialize (D u t Ht). rewrite U in D. rewrite Q.max_l by lra. ring.
  - intros t Ht Hm'. assert (t / u < 1)%Q. { rewrite <- U. unfold Qdiv. apply Qmult_lt_compat_r; auto. }
    apply Qmult_lt_0_compat; auto. eapply Qlt_le_trans; [|apply Q.le_max_r]. lra.
Qed.

Lemma a_run_spec u its : forall s, a_cfg s = 0%Q -> ~ (u == 0)%Q ->
  let '(es, s') := a_run u its s in
  length es = length its /\ a_cfg s' = 0%Q /\ a_evals s' = a_evals s /\ a_wrapped_evals s' = a_wrapped_evals s + list_sum (map fst its) /\ a_max_cv s' = a_max_cv s /\
  (its <> [] -> nth 0 es 0%Q = a_adapted s) /\
  forall k, S k < length its -> (nth (S k) es 0 == relaxed u (nth k (a_perc s :: map snd its) 0) (a_max_cv s))%Q.
Proof.
  induction its as [|[n perc] its IH]; intros s Hc Hu; cbn [a_run].
  - cbn. repeat split; auto; try lia. congruence.
  - cbn [a_infill snd a_eval a_advance a_cfg a_adapted a_max_cv a_perc a_wrapped_evals a_evals a_update].
    match goal with |- context [a_run u its ?s1] => specialize (IH s1 eq_refl Hu); destruct (a_run u its s1) as [es s'] eqn:E end.
    cbn [a_cfg a_adapted a_max_cv a_perc a_wrapped_evals a_evals] in IH. unfold a_update in IH. cbn [a_cfg a_adapted a_max_cv a_perc a_wrapped_evals a_evals] in IH. destruct IH as (I1 & I2 & I3 & I4 & I5 & I6 & I7).
    cbn [length map fst snd]. split; [lia|]. split; [exact I2|]. split; [exact I3|]. split; [rewrite I4; change (list_sum (n :: map fst its)) with (n + list_sum (map fst its)); lia|]. split; [exact I5|]. split; [reflexivity|].
    intros [|k] Hk.
    + change (nth 1 (a_adapted s :: es) 0%Q) with (nth 0 es 0%Q). cbn [nth]. rewrite I6 by (destruct its; [cbn in Hk; lia|discriminate]). now apply adapt_relaxed.
    + change (nth (S (S k)) (a_adapted s :: es) 0%Q) with (nth (S k) es 0%Q). rewrite I7 by (cbn in Hk; lia). cbn [nth]. reflexivity.
Qed.
(** C74: in a run, the first survival (of the initial population) and the first iteration work with threshold 0; iteration k+2 works with the relaxation that belongs to the
    progress reached before iteration k+1; and between the calls (when the optimum and the result are computed) the threshold is 0 *)
Theorem C74_thresholds u n0 cvs perc0 its : ~ (u == 0)%Q ->
  let '(e0, s0) := a_start u n0 cvs perc0 in let '(es, s') := a_run u its s0 in
  e0 = 0%Q /\ length es = length its /\ (its <> [] -> nth 0 es 0%Q = 0%Q) /\
  (forall k, S k < length its -> (nth (S k) es 0 == relaxed u (nth k (perc0 :: map snd its) 0) (qmean cvs))%Q) /\
  a_cfg s0 = 0%Q /\ a_cfg s' = 0%Q.
Proof.
  intros Hu. cbn [a_start a_setup a_eval a_initialize a_update a_cfg a_adapted a_max_cv a_perc a_wrapped_evals a_evals Nat.add].
  match goal with |- context [a_run u its ?s1] => pose proof (a_run_spec u its s1 eq_refl Hu) as H; destruct (a_run u its s1) as [es s'] end.
  cbn [a_cfg a_adapted a_max_cv a_perc a_wrapped_evals a_evals] in H. destruct H as (I1 & I2 & _ & _ & _ & I6 & I7). repeat (split; [assumption || reflexivity|]). exact I2.
Qed.
(** C74: with a progress that never falls back, the thresholds never grow again once the relaxation has begun, and are zero two iterations after the progress [u] is reached *)
Theorem C74_decreasing u n0 cvs perc0 its : (0 < u)%Q -> (0 <= qmean cvs)%Q -> (0 <= perc0)%Q ->
  (forall i j, i <= j < length (perc0 :: map snd its) -> (nth i (perc0 :: map snd its) 0 <= nth j (perc0 :: map snd its) 0)%Q) ->
  let es := fst (a_run u its (snd (a_start u n0 cvs perc0))) in
  (forall k, k < length its -> (0 <= nth k es 0 /\ nth k es 0 <= qmean cvs)%Q) /\
  (forall i j, 1 <= i <= j -> j < length its -> (nth j es 0 <= nth i es 0)%Q) /\
  (forall k, S k < length its -> (u <= nth k (perc0 :: map snd its) 0)%Q -> (nth (S k) es 0 == 0)%Q).
Proof.
  intros Hu Hm Hp HM es. pose proof (C74_thresholds u n0 cvs perc0 its ltac:(lra)) as H. destruct (a_start u n0 cvs perc0) as [e0 s0] eqn:E0. subst es. cbn [snd]. destruct (a_run u its s0) as [es s'] eqn:E. cbn [fst].
  destruct H as (_ & HL & H1 & H2 & _). destruct (C74_relaxed u (qmean cvs) Hu Hm) as (_ & R1 & R2 & R3 & _).
  assert (P : forall k, k < length (perc0 :: map snd its) -> (0 <= nth k (perc0 :: map snd its) 0)%Q) by (intros k Hk; pose proof (HM 0 k ltac:(lia)) as X; change (nth 0 (perc0 :: map snd its) 0%Q) with perc0 in X; lra).
  assert (LL : length (perc0 :: map snd its) = S (length its)) by (cbn [length]; now rewrite map_length). split; [|split].
  - intros [|k] Hk; [rewrite H1 by (destruct its; [cbn in Hk; lia|discriminate]); lra|]. rewrite H2 by auto. apply R1, P. lia.
  - intros [|i] [|j] Hij Hj; try lia. rewrite !H2 by lia. apply R2, HM. lia.
  - intros k Hk Hge. rewrite H2 by auto. now apply R3.
Qed.
(** "a run with a budget of evaluations makes progress" is false: the evaluations are counted by the wrapped evaluator, the number the termination reads does not move *)
Theorem C74_n_eval_refuted u n0 cvs perc0 its n_max : ~ (u == 0)%Q -> let s' := snd (a_run u its (snd (a_start u n0 cvs perc0))) in
  (n_eval_progress n_max s' == 0)%Q /\ a_wrapped_evals s' = n0 + list_sum (map fst its).
Proof.
  intros Hu. cbn [a_start a_setup a_eval a_initialize a_update a_cfg a_adapted a_max_cv a_perc a_wrapped_evals a_evals Nat.add snd].
  match goal with |- context [a_run u its ?s1] => pose proof (a_run_spec u its s1 eq_refl Hu) as H; destruct (a_run u its s1) as [es s'] end.
  cbn [a_cfg a_adapted a_max_cv a_perc a_wrapped_evals a_evals] in H. destruct H as (_ & _ & I3 & I4 & _). cbn [snd]. unfold n_eval_progress. rewrite I3. split; [|exact I4].
  unfold Qdiv. cbn [Z.of_nat]. apply Qmult_0_l.
Qed.
Example C74_ex : Forall2 Qeq (fst (a_run (1 # 2) [(10, 1 # 4); (10, 1 # 2); (10, 3 # 4); (10, 1%Q)]%nat (snd (a_start (1 # 2) 10 [1; 3]%Q 0)))) [0; 2; 1; 0]%Q.
Proof. vm_compute. repeat constructor. Qed.
Print Assumptions C74_relaxed. Print Assumptions C74_thresholds. Print Assumptions C74_decreasing. Print Assumptions C74_n_eval_refuted.
