(** * C113: the clock of the dynamic problems and the freshness of the reported front *)
From Coq Require Import List ZArith QArith Bool Lia Lqa.
From Verif Require Import M_Dyn.
Import ListNotations.

(** the time that has passed; the time given explicitly, if any *)
Definition elapsed (os : list dyn_op) : Z := fold_right (fun o z => match o with Tic e => e + z | _ => z end)%Z 0%Z os.
Definition given (os : list dyn_op) (t0 : option Q) : option Q := fold_left (fun t o => match o with SetTime v => Some v | _ => t end) os t0.
Lemma dyn_step {V} (calc : nat -> Q -> V) p o : let p' := fst (dyn_do calc p o) in
  d_nt p' = d_nt p /\ d_taut p' = d_taut p /\ d_tau p' = (d_tau p + match o with Tic e => e | _ => 0 end)%Z /\ d_set p' = match o with SetTime v => Some v | _ => d_set p end.
Proof.
  destruct o as [e|v|n use set]; cbn; try (repeat split; lia). destruct (if use then d_cache p else None); [cbn; repeat split; lia|]. destruct (dyn_time p); [|cbn; repeat split; lia]. destruct set; cbn; repeat split; lia.
Qed.
(** C113: at any moment of any use, the time is the one last set, and if none was, the number of whole periods of taut units passed, divided by nt *)
Theorem C113_clock : forall V (calc : nat -> Q -> V) os nt taut tau t0, let p := dyn_run calc (dyn_new nt taut tau t0) os in
  dyn_time p = match given os t0 with Some v => Some v | None => if (nt =? 0)%Z || (taut =? 0)%Z then None else Some (1 / inject_Z nt * inject_Z ((tau + elapsed os) / taut))%Q end.
Proof.
  intros V calc os nt taut tau t0 p.
  assert (G : forall p0, d_nt (dyn_run calc p0 os) = d_nt p0 /\ d_taut (dyn_run calc p0 os) = d_taut p0 /\ d_tau (dyn_run calc p0 os) = (d_tau p0 + elapsed os)%Z /\ d_set (dyn_run calc p0 os) = given os (d_set p0)).
  { clear p. induction os as [|o os IH]; intros p0; [cbn; repeat split; lia|]. unfold dyn_run, given in *. cbn [fold_left]. destruct (IH (fst (dyn_do calc p0 o))) as (A1 & A2 & A3 & A4). destruct (dyn_step calc p0 o) as (B1 & B2 & B3 & B4). rewrite A1, A2, A3, A4, B1, B2, B3, B4. cbn [elapsed fold_right]. fold (elapsed os). repeat split. destruct o; lia. }
  destruct (G (dyn_new nt taut tau t0)) as (A1 & A2 & A3 & A4). unfold p, dyn_time. rewrite A1, A2, A3, A4. reflexivity.
Qed.
(** C113: under TimeSimulation the problem changes exactly every taut generations *)
Theorem C113_simulation : forall V (calc : nat -> Q -> V) nt taut tau g, (nt <> 0)%Z -> (0 < taut)%Z ->
  dyn_time (simulate calc (dyn_new nt taut tau None) g) = Some (1 / inject_Z nt * inject_Z ((tau + Z.of_nat g) / taut))%Q /\
  ((1 / inject_Z nt * inject_Z ((tau + Z.of_nat (S g)) / taut) == 1 / inject_Z nt * inject_Z ((tau + Z.of_nat g) / taut))%Q <-> ((tau + Z.of_nat (S g)) mod taut <> 0)%Z).
Proof.
  intros V calc nt taut tau g Hnt Ht. split.
  - unfold simulate. rewrite C113_clock. assert (E1 : given (repeat (Tic 1) g) None = None) by (clear; induction g; cbn; auto). assert (E2 : elapsed (repeat (Tic 1) g) = Z.of_nat g) by (clear; induction g as [|g IH]; [reflexivity|]; cbn [repeat elapsed fold_right]; fold (elapsed (repeat (Tic 1) g)); rewrite IH; lia). rewrite E1, E2. replace (nt =? 0)%Z with false by (symmetry; apply Z.eqb_neq; auto). replace (taut =? 0)%Z with false by (symmetry; apply Z.eqb_neq; lia). reflexivity.
  - rewrite Nat2Z.inj_succ. set (u := (tau + Z.of_nat g)%Z). replace (tau + Z.succ (Z.of_nat g))%Z with (u + 1)%Z by (unfold u; lia).
    assert (Hq : forall a b, (1 / inject_Z nt * inject_Z a == 1 / inject_Z nt * inject_Z b)%Q <-> a = b).
    { intros a b. assert (Hn : ~ inject_Z nt == 0) by (intros E; apply Hnt; unfold Qeq, inject_Z in E; cbn in E; lia). split; [|intros ->; reflexivity]. intros E. assert (E' : inject_Z a == inject_Z b). { rewrite <- (Qmult_1_l (inject_Z a)), <- (Qmult_1_l (inject_Z b)), <- (Qmult_inv_r (inject_Z nt)) by auto. rewrite <- !Qmult_assoc. unfold Qdiv in E. rewrite !Qmult_1_l in E. now rewrite E. } unfold Qeq, inject_Z in E'. cbn in E'. lia. }
    rewrite Hq. pose proof (Z.div_mod (u + 1) taut ltac:(lia)) as D1. pose proof (Z.mod_pos_bound (u + 1) taut Ht) as B1. pose proof (Z.div_mod u taut ltac:(lia)) as D2. pose proof (Z.mod_pos_bound u taut Ht) as B2. set (a := ((u + 1) / taut)%Z) in *. set (b := (u / taut)%Z) in *. set (r := ((u + 1) mod taut)%Z) in *. set (s := (u mod taut)%Z) in *.
    split; [intros E; rewrite E in D1; lia|]. intros Hr. assert (taut * (a - b) = 1 + s - r)%Z by lia. assert (a = b \/ a - b >= 1 \/ a - b <= -1)%Z as [?|[H'|H']] by lia; auto; nia.
Qed.
(** the first front calculated and kept since the last tic: number of points and time; [used] whether the cache was bypassed does not matter *)
Definition no_tic (os : list dyn_op) : Prop := forall e, ~ In (Tic e) os.
(** C113: the cached front: whatever is asked after the first pareto_front() since the last tic - another number of points, another time set - the answer
    is that first one *)
Theorem C113_front_cached : forall V (calc : nat -> Q -> V) p n t os m, d_cache p = None -> dyn_time p = Some t -> no_tic os -> (forall k u, ~ In (Front k false u) os) ->
  snd (dyn_do calc (dyn_run calc (fst (dyn_do calc p (Front n true true))) os) (Front m true true)) = Some (calc n t).
Proof.
  intros V calc p n t os m HC HT HN HF. assert (G : forall q, d_cache q = Some (calc n t) -> d_cache (dyn_run calc q os) = Some (calc n t)).
  { induction os as [|o os IH]; intros q Hq; auto. unfold dyn_run. cbn [fold_left]. apply IH; [intros e He; apply (HN e); now right|intros k u Hk; apply (HF k u); now right|]. destruct o as [e|v|k use set]; cbn; [exfalso; apply (HN e); now left|auto|]. destruct use; [now rewrite Hq|exfalso; apply (HF k set); now left]. }
  unfold dyn_do at 1. rewrite G; [reflexivity|]. cbn. rewrite HC, HT. reflexivity.
Qed.
(** C113: hence, as long as the time is only moved by tic and the number of points stays the same, every front reported is the one of the current time *)
Theorem C113_front_current : forall V (calc : nat -> Q -> V) os nt taut tau t0 n, (forall v, ~ In (SetTime v) os) -> (forall k a b, In (Front k a b) os -> k = n) ->
  let p := dyn_run calc (dyn_new nt taut tau t0) os in
  forall use set, snd (dyn_do calc p (Front n use set)) = match dyn_time p with Some t => Some (calc n t) | None => None end.
Proof.
  intros V calc os nt taut tau t0 n HS HF p.
  assert (G : forall q, (forall v, d_cache q = Some v -> exists t, dyn_time q = Some t /\ v = calc n t) -> forall v, d_cache (dyn_run calc q os) = Some v -> exists t, dyn_time (dyn_run calc q os) = Some t /\ v = calc n t).
  { clear p. induction os as [|o os IH]; intros q Hq; auto. unfold dyn_run. cbn [fold_left]. apply IH; [intros v Hv; apply (HS v); now right|intros k a b Hk; eapply HF; right; eauto|]. intros v. destruct o as [e|w|k use set]; cbn; [discriminate|exfalso; apply (HS w); now left|].
    assert (k = n) by (eapply HF; left; reflexivity). subst k. destruct (if use then d_cache q else None) as [v0|] eqn:E; [cbn; intros Hv; now apply Hq|]. destruct (dyn_time q) as [t|] eqn:ET; [|cbn; intros Hv; destruct (Hq v Hv) as (? & H & _); congruence]. destruct set; cbn.
    - intros [= <-]. exists t. split; auto.
    - intros Hv. destruct (Hq v Hv) as (t' & H1 & H2). exists t'. split; [congruence|auto]. }
  assert (HP := G (dyn_new nt taut tau t0) ltac:(discriminate)). fold p in HP. intros use set. cbn. destruct (if use then d_cache p else None) as [v|] eqn:E.
  - cbn. assert (E' : d_cache p = Some v) by (destruct use; [auto|discriminate]). destruct (HP v E') as (t & -> & ->). reflexivity.
  - destruct (dyn_time p); reflexivity.
Qed.
(** C113: but setting the time does not: the front of the old time is reported *)
Theorem C113_set_time_refuted : ~ (forall V (calc : nat -> Q -> V) os n, let p := dyn_run calc (dyn_new 10 20 1 None) os in
  snd (dyn_do calc p (Front n true true)) = match dyn_time p with Some t => Some (calc n t) | None => None end).
Proof. intros H. specialize (H (nat * Q)%type pair [Front 100 true true; SetTime (1 # 2)] 100%nat). cbv in H. discriminate. Qed.
Example C113_clock_ex : dyn_time (dyn_run pair (dyn_new 10 20 1 None) [Tic 1; Front 100 true true; Tic 38]) = Some (1 / 10 * 2)%Q.
Proof. reflexivity. Qed.
