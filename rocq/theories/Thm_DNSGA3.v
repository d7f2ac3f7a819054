(** * C99: dynamic NSGA-II - runs, missed changes, random numbers *)
From Coq Require Import List Arith Bool ZArith QArith Lia Permutation Floats.SpecFloat.
From Verif Require Import Flt ListAux NpSort M_NDS M_Survival M_Optimum M_GDE3 S_Pareto S_NDS S_Survival P_Peel P_NDS1 P_Survival P_Survival2 P_Survival3 P_Survival4 P_Optimum Thm_Survival M_AGE Thm_AGE M_RankOpt Thm_GDE3 Thm_GDE3b Thm_RankOpt M_Repro Thm_Repro M_DNSGA Thm_DNSGA Thm_DNSGA2.
Import ListNotations.
Local Open Scope nat_scope.

(** the parents of an undetected generation are the population itself *)
Lemma undetected_step {X} (dx : X) fsum asort dsort nds crowding c s pop : change_detected dx fsum (dc_eps c) (ds_f s) pop (ds_sample s) = false ->
  dadvance dx fsum asort dsort nds crowding c s pop =
  Some {| dr_pop := dsurvive dx asort dsort nds crowding (dc_size c) pop (devaluate (ds_f s) (ds_mating s pop));
          dr_opt := doptimum dx asort dsort nds crowding (dc_size c) pop (devaluate (ds_f s) (ds_mating s pop));
          dr_evals := length (ds_sample s) + 0 + length (devaluate (ds_f s) (ds_mating s pop)) |}.
Proof. intros E. unfold dadvance, dparents. now rewrite E. Qed.

(** C99: on a problem that does not change, D-NSGA-II is NSGA-II: over any number of generations, from a population with up-to-date values and with any threshold eps >= 0, it ends with the population
    NSGA-II (M_GDE3 [nsga2_run], about which C11 and C96 speak) ends with, the offspring of each generation being those the mating makes of the then current population; all values are up to date *)
Theorem C99_static : forall (X : Type) (dx : X) fsum asort dsort nds crowding m c f steps (pop : list (X * list flt)),
  asort_ok asort -> dsort_ok dsort -> (forall M r, length (crowding M r) = length M) -> nds_ok m nds -> (forall l, fsum_of l (fsum l)) -> fleb f_zero (dc_eps c) = true ->
  0 < dc_size c -> length pop = dc_size c -> (forall x, row_ok m (f x)) -> Forall (up_to_date f) pop ->
  (forall s, In s steps -> ds_f s = f /\ forall i, In i (ds_sample s) -> i < dc_size c) ->
  exists gens, let nsga2 := nsga2_run (dx, []) (fun _ => f_zero) (fun _ => true) snd asort dsort nds crowding false (dc_size c) pop in
    length gens = length steps /\ (forall t s, nth_error steps t = Some s -> nth t gens [] = map (fun x => (x, f x)) (ds_mating s (nsga2 (firstn t gens)))) /\
    drun dx fsum asort dsort nds crowding c steps pop = Some (nsga2 gens) /\ Forall (up_to_date f) (nsga2 gens).
Proof.
  intros X dx fsum asort dsort nds crowding m c f steps. induction steps as [|s steps IH]; intros pop Ha Hd Hc Hn HS He Hn0 LP Hf HU HT.
  - exists []. cbn. repeat split; auto. intros [|t] s E; discriminate.
  - destruct (HT s (or_introl eq_refl)) as [Es HI].
    assert (ND : change_detected dx fsum (dc_eps c) (ds_f s) pop (ds_sample s) = false).
    { apply C99_no_false_alarm; auto. intros i Hi. rewrite Es. rewrite Forall_forall in HU. apply HU, nth_In. rewrite LP. auto. }
    set (off := devaluate f (ds_mating s pop)). set (new := dsurvive dx asort dsort nds crowding (dc_size c) pop off).
    assert (HA : Forall (fun a => row_ok m (snd a)) (pop ++ off)).
    { apply Forall_app. split; apply Forall_forall; intros a Hin; [rewrite Forall_forall in HU; rewrite (HU a Hin); apply Hf|apply in_map_iff in Hin as (x & <- & _); apply Hf]. }
    destruct (dsurvive_spec dx asort dsort nds crowding m Ha Hd Hc Hn (dc_size c) pop off HA Hn0 LP) as (S1 & S2 & _). fold new in S1, S2.
    assert (HU' : Forall (up_to_date f) new). { apply Forall_forall. intros a Hin. apply S2, in_app_iff in Hin. destruct Hin as [Hin|Hin]; [rewrite Forall_forall in HU; auto|apply in_map_iff in Hin as (x & <- & _); reflexivity]. }
    destruct (IH new Ha Hd Hc Hn HS He Hn0 S1 Hf HU' (fun s' H => HT s' (or_intror H))) as (gens & G1 & G2 & G3 & G4).
    exists (off :: gens). cbn [length nsga2_run]. split; [now rewrite G1|]. split; [|split].
    + intros [|t] s' E; cbn [nth_error nth firstn nsga2_run] in *; [injection E as <-; reflexivity|]. apply (G2 t s' E).
    + cbn [drun]. rewrite undetected_step by exact ND. rewrite Es. cbn [dr_pop]. fold off new. exact G3.
    + exact G4.
Qed.
Print Assumptions C99_static.

(** sequential summation is one of the admitted orders *)
Definition fsum_seq (l : list flt) : flt := match l with [] => f_zero | x :: l => fold_left fadd64 l x end.
Lemma fsum_seq_ok : forall l, fsum_of l (fsum_seq l).
Proof.
  destruct l as [|x l]; [constructor|]. cbn [fsum_seq]. assert (K : forall l a pre, fsum_of pre a -> fsum_of (pre ++ l) (fold_left fadd64 l a)).
  { induction l0 as [|y l0 IH]; intros a pre H; [now rewrite app_nil_r|]. cbn [fold_left]. change (y :: l0) with ([y] ++ l0). rewrite app_assoc. apply IH. apply fs_add; [exact H|constructor]. }
  apply (K l x [x]). constructor.
Qed.

(** the claim "after a generation all values are those of the current problem" fails: a change is missed when the individuals that changed were not drawn - the population keeps, and the optimum
    reports, a solution with values it no longer has.  Two solutions, one drawn (the default perc_detect_change = 0.1 draws one) *)
Definition old_f (x : nat) : list flt := match x with 0 => [fz 1; fz 3] | 1 => [fz 3; fz 1] | _ => [fz 9; fz 9] end.
Definition new_f (x : nat) : list flt := match x with 0 => [fz 8; fz 8] | 1 => [fz 3; fz 1] | 4 => [fz 7; fz 9] | _ => [fz 9; fz 9] end.
Definition d_pop : list (nat * list flt) := [(0, old_f 0); (1, old_f 1)].
Definition d_conf (v : version) : dconf := {| dc_perc_div := 3 # 10; dc_eps := f_zero; dc_version := v; dc_size := 2 |}.
Definition d_step (J : list nat) (f : nat -> list flt) : dstep nat := {| ds_f := f; ds_sample := J; ds_u := [(1 # 2)%Q; (1 # 5)%Q]; ds_new := [4]; ds_mutate := map S; ds_mating := fun _ => [2] |}.
Notation d_adv := (dadvance 0 fsum_seq np_argsort dsort_ex (default_nds pr_ref) crowd_two).
Lemma f_rows : forall f, f = old_f \/ f = new_f -> forall x, row_ok 2 (f x).
Proof. intros f [-> | ->] [|[|[|[|[|x]]]]]; split; try reflexivity; repeat constructor. Qed.
Theorem C99_missed_refuted : ~ (forall (X : Type) (dx : X) fsum asort dsort nds crowding m c s (pop : list (X * list flt)) r,
  asort_ok asort -> dsort_ok dsort -> (forall M r, length (crowding M r) = length M) -> nds_ok m nds -> (forall l, fsum_of l (fsum l)) -> 0 < dc_size c -> length pop = dc_size c ->
  (forall x, row_ok m (ds_f s x)) -> Forall (fun a => row_ok m (snd a)) pop -> length (ds_u s) = length pop -> length (ds_sample s) = n_samples (length pop) (1 # 10) -> (forall i, In i (ds_sample s) -> i < length pop) ->
  (forall l, length (ds_mutate s l) = length l) -> dadvance dx fsum asort dsort nds crowding c s pop = Some r -> Forall (up_to_date (ds_f s)) (dr_opt r)).
Proof.
  intros H. assert (K := H nat 0 fsum_seq np_argsort dsort_ex (default_nds pr_ref) crowd_two 2 (d_conf VA) (d_step [1] new_f) d_pop
    {| dr_pop := d_pop; dr_opt := d_pop; dr_evals := 2 |} np_argsort_ok ex_dsort (fun M r => map_length _ M) ex_nds fsum_seq_ok).
  assert (U : Forall (up_to_date new_f) d_pop).
  { apply K; try reflexivity; try (cbn; lia).
    - apply f_rows. now right.
    - repeat apply Forall_cons; try apply Forall_nil; apply f_rows; now left.
    - intros l. apply map_length. }
  inversion U as [|? ? U1 _]; subst. discriminate U1.
Qed.
Print Assumptions C99_missed_refuted.
(** a drawn individual that changed: detected, everything re-evaluated; version "A" replaces the second individual by the sampled 4, version "B" by its mutation; an unknown version raises only now *)
Theorem C99_example :
  n_samples 2 (1 # 10) = 1 /\
  d_adv (d_conf VA) (d_step [1] old_f) d_pop = Some {| dr_pop := d_pop; dr_opt := d_pop; dr_evals := 2 |} /\
  d_adv (d_conf VOther) (d_step [1] old_f) d_pop = Some {| dr_pop := d_pop; dr_opt := d_pop; dr_evals := 2 |} /\
  d_adv (d_conf VA) (d_step [0] new_f) d_pop = Some {| dr_pop := [(0, [fz 8; fz 8]); (4, [fz 7; fz 9])]; dr_opt := [(0, [fz 8; fz 8]); (4, [fz 7; fz 9])]; dr_evals := 4 |} /\
  d_adv (d_conf VB) (d_step [0] new_f) d_pop = Some {| dr_pop := [(0, [fz 8; fz 8]); (2, [fz 9; fz 9])]; dr_opt := [(0, [fz 8; fz 8])]; dr_evals := 4 |} /\
  d_adv (d_conf VOther) (d_step [0] new_f) d_pop = None.
Proof. repeat split; vm_compute; reflexivity. Qed.
(** an infinite objective of a drawn individual hides the change of all others (here all individuals are drawn) *)
Theorem C99_masked_example : let pop := [(0, [fz 1; fz 3]); (1, [f_inf; fz 1])] in let f x := match x with 0 => [fz 8; fz 8] | _ => [f_inf; fz 1] end in
  change_detected 0 fsum_seq f_zero f pop [0; 1] = false /\ change_detected 0 fsum_seq f_zero f pop [0] = true.
Proof. split; vm_compute; reflexivity. Qed.

(** C99: with a fixed seed the replacement of version "A" depends on the algorithm's generator only *)
Theorem C99_version_A_reproducible : forall X n picks (sampling : nat -> prog (list X)) mutation, (forall k, reproducible (sampling k)) -> reproducible (p_diversify VA n picks sampling mutation).
Proof. intros X n picks sampling mutation H. unfold p_diversify. rep. cbn [call]. auto. Qed.
Print Assumptions C99_version_A_reproducible.
(** ... but that of version "B" does not: the mutation is called without a generator and takes an unseeded one *)
Theorem C99_version_B_reproducible_refuted : ~ (forall X n picks (sampling : nat -> prog (list X)) mutation, (forall k, reproducible (mutation k)) -> reproducible (p_diversify VB n picks sampling mutation)).
Proof.
  intros H. specialize (H Q 1 (fun _ => [0]) (fun _ => Ret []) (fun _ => draw (Random 1)) (fun _ => rep_draw _)). revert H. refute.
Qed.
Print Assumptions C99_version_B_reproducible_refuted.
