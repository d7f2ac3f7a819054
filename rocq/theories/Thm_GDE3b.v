(** * C11 (NSGA-II over many generations), C91 (the trial vectors of GDE3 and NSDE), and instances *)
From Coq Require Import List Arith Permutation Bool ZArith QArith Lia Lqa Floats.SpecFloat.
From Verif Require Import Flt ListAux NpSort M_Dominator M_NDS M_Survival M_Bounds M_Cross M_Selection M_GDE3 S_Pareto S_NDS S_Survival S_Bounds P_Perm P_Cross P_Bounds P_Survival P_Survival2 P_Survival3 P_Survival4 Thm_Survival Thm_Bounds S_Selection P_Selection P_Selection2 Thm_Selection Thm_GDE3.
Import ListNotations.
Local Open Scope nat_scope.

(** C11: one generation of NSGA-II / NSDE: the same guarantees for the merged population *)
Theorem C11_nsga2_generation : forall (A : Type) (d : A) cv feas obj m asort dsort nds crowding hc n (pop infills : list A),
  asort_ok asort -> dsort_ok dsort -> (forall M r, length (crowding M r) = length M) -> nds_ok m nds ->
  0 < n -> length pop = n -> let all := pop ++ infills in evaluated cv feas obj m hc all ->
  let S := nsga2_advance d cv feas obj asort dsort nds crowding hc n pop infills in
  let new := gather d all S in
  length new = n /\ incl new all /\
  (forall c, c < length all -> feas (nth c all d) = true -> unbeaten_in cv obj all (nth c all d) -> In c S \/ Forall (fun a => feas a = true /\ unbeaten_in cv obj all a) new) /\
  (fits d cv feas obj n all -> forall a, In a all -> feas a = true -> covered cv obj new a) /\
  (forall a, In a all -> exists s, In s new /\ fleb (cv s) (cv a) = true).
Proof.
  intros A d cv feas obj m asort dsort nds crowding hc n pop infills Ha Hd Hc Hn Hn0 LP all HE S new. assert (LA : n <= length all) by (unfold all; rewrite app_length; lia).
  set (pool := seq 0 (length all)). assert (H1 : NoDup pool) by apply seq_NoDup. assert (H3 : forall p, In p pool -> p < length all) by (intros p Hp; apply in_seq in Hp; lia).
  assert (H4 : forall p, p < length all -> ~ In p pool -> exists q, In q pool /\ beats cv obj (nth q all d) (nth p all d)) by (intros p Hp Hni; exfalso; apply Hni, in_seq; lia).
  assert (B := surv_basic d cv feas obj m asort dsort nds crowding Ha Hd Hc Hn hc n all HE). change (survival_do d cv feas asort (rac_inner obj dsort nds crowding) true hc (Some n) all) with S in B. destruct B as (B1 & B2 & B3).
  assert (ES : S = next d cv feas obj asort dsort nds crowding hc n all pool).
  { unfold next, pool. rewrite gather_seq. change (survival_do d cv feas asort (rac_inner obj dsort nds crowding) true hc (Some n) all) with S. unfold gather. rewrite <- (map_id S) at 1. apply map_ext_in. intros i Hi. rewrite seq_nth by auto. reflexivity. }
  split; [unfold new; rewrite length_gather; lia|]. split; [intros x Hx; apply in_map_iff in Hx as (i & <- & Hi); apply nth_In; auto|]. split; [|split].
  - intros c Hcl Fc Uc. destruct (in_dec Nat.eq_dec c S) as [|Nc]; [now left|right]. apply Forall_forall. intros x Hx. apply in_map_iff in Hx as (i & <- & Hi). rewrite ES in Nc, Hi. apply (next_elite d cv feas obj m asort dsort nds crowding Ha Hd Hc Hn hc n all pool HE H3 H4 c i); auto.
  - intros HF a Haa Fa. unfold new. rewrite ES. apply (next_covers d cv feas obj m asort dsort nds crowding Ha Hd Hc Hn hc n all pool HE H1 H3 H4); auto. unfold pool. now rewrite seq_length.
  - intros a Haa. apply (In_nth _ _ d) in Haa as (c & Hcl & <-). destruct (next_violation d cv feas obj m asort dsort nds crowding Ha Hd Hc Hn hc n all pool HE H3 H4 c Hn0 Hcl) as (s & Hs & HL). exists (nth s all d). split; auto. unfold new. rewrite ES. apply in_map_iff. eauto.
Qed.
Print Assumptions C11_nsga2_generation.

Inductive nsga2_fits {A} (d : A) cv feas obj asort dsort nds crowding hc n : list A -> list (list A) -> Prop :=
  | nf_nil pop : nsga2_fits d cv feas obj asort dsort nds crowding hc n pop []
  | nf_cons pop infills gens : fits d cv feas obj n (pop ++ infills) ->
      nsga2_fits d cv feas obj asort dsort nds crowding hc n (gather d (pop ++ infills) (nsga2_advance d cv feas obj asort dsort nds crowding hc n pop infills)) gens ->
      nsga2_fits d cv feas obj asort dsort nds crowding hc n pop (infills :: gens).
(** C11: over any number of generations, whatever the offspring *)
Theorem C11_nsga2_run : forall (A : Type) (d : A) cv feas obj m asort dsort nds crowding hc n gens (pop : list A),
  asort_ok asort -> dsort_ok dsort -> (forall M r, length (crowding M r) = length M) -> nds_ok m nds ->
  0 < n -> length pop = n -> evaluated cv feas obj m hc (pop ++ concat gens) ->
  let final := nsga2_run d cv feas obj asort dsort nds crowding hc n pop gens in
  length final = n /\ incl final (pop ++ concat gens) /\
  (forall a, In a (pop ++ concat gens) -> exists s, In s final /\ fleb (cv s) (cv a) = true) /\
  (nsga2_fits d cv feas obj asort dsort nds crowding hc n pop gens -> forall a, In a (pop ++ concat gens) -> feas a = true -> covered cv obj final a).
Proof.
  intros A d cv feas obj m asort dsort nds crowding hc n gens. induction gens as [|infills gens IH]; intros pop Ha Hd Hc Hn Hn0 LP HE.
  - cbn [concat nsga2_run] in *. rewrite app_nil_r in *. split; auto. split; [apply incl_refl|]. split.
    + intros a Hin. exists a. split; auto. apply fle_refl. eapply ev_ok; eauto.
    + intros _ a Hin _. exists a. auto.
  - cbn [nsga2_run concat] in *. assert (HE' : evaluated cv feas obj m hc (pop ++ infills)) by (eapply ev_incl; [|exact HE]; intros x Hx; apply in_app_iff in Hx; rewrite !in_app_iff; tauto).
    destruct (C11_nsga2_generation A d cv feas obj m asort dsort nds crowding hc n pop infills Ha Hd Hc Hn Hn0 LP HE') as (G1 & G2 & _ & G4 & G5). set (new := gather d (pop ++ infills) (nsga2_advance d cv feas obj asort dsort nds crowding hc n pop infills)) in *.
    assert (HS : incl (new ++ concat gens) (pop ++ infills ++ concat gens)) by (intros x Hx; rewrite app_assoc; apply in_app_iff in Hx as [Hx|Hx]; apply in_app_iff; auto).
    destruct (IH new Ha Hd Hc Hn Hn0 G1) as (F2 & F3 & F4 & F5); [eapply ev_incl; eauto|]. split; auto. split; [intros x Hx; apply HS, F3, Hx|]. split.
    + intros a Hin. rewrite app_assoc in Hin. apply in_app_iff in Hin as [Hin|Hin]; [|apply F4, in_app_iff; auto]. destruct (G5 a Hin) as (s & Hs & HL). destruct (F4 s) as (s' & Hs' & HL'); [apply in_app_iff; auto|]. exists s'. split; auto. eapply fle_trans; eauto.
    + intros HF a Hin Fa. inversion HF as [|? ? ? HF1 HF2]; subst. fold new in HF2. rewrite app_assoc in Hin. apply in_app_iff in Hin as [Hin|Hin]; [|apply F5; auto; apply in_app_iff; auto].
      eapply covered_trans; [|apply (G4 HF1 a Hin Fa)]. intros p Hp HB. apply F5; auto; [apply in_app_iff; auto|]. destruct HB as [->|HB]; auto. eapply (beater_feasible cv feas obj m hc (pop ++ infills) p a); eauto.
Qed.
Print Assumptions C11_nsga2_run.

(** ** trial vectors *)
Local Open Scope Q_scope.
(** the donor as the formula of differential evolution says: base + sum of scaled differences *)
Fixpoint scaled_differences (x : nat -> Q) (f : nat -> Q) (k : nat) : Q :=
  match k with O => 0 | S k => scaled_differences x f k + f k * (x (2 + 2 * k)%nat - x (3 + 2 * k)%nat) end.
Definition scale (F : Q * Q + Q) (gamma : option Q) (uF uG : nat -> Q) (k : nat) : Q :=
  match F with inl (lo, hi) => lo + uF k * (hi - lo) | inr f => f end * match gamma with Some g => 1 + g * (uG k - (1#2)) | None => 1 end.
Lemma donor_formula X row F gamma n_diffs uF uG j :
  variant_donor X row F gamma n_diffs uF uG j == nth j (nth (nth 1 row 0%nat) X []) 0 + scaled_differences (fun c => nth j (nth (nth c row 0%nat) X []) 0) (scale F gamma uF uG) n_diffs.
Proof.
  unfold variant_donor. induction n_diffs as [|k IH]; [cbn; ring|]. rewrite seq_S, fold_left_app. cbn [fold_left scaled_differences plus]. rewrite IH. unfold scale, sample_F. destruct F as [[lo hi]|f], gamma as [g|]; ring.
Qed.
(** C91: a trial vector has n_var values; each is the one of the target or the repaired donor value, as the mask says; inside the bounds if target and base vector are; in a bounded problem a
    donor value inside the bounds is not changed by the repair; without bounds it is the formula itself *)
Theorem C91_trial : forall X n_var row F gamma n_diffs uF uG rep xl xu r1 r2 M,
  (forall j, (j < n_var)%nat -> inQ (nth j xl 0) (nth j xu 0) (nth j (nth (nth 0 row 0%nat) X []) 0) /\ inQ (nth j xl 0) (nth j xu 0) (nth j (nth (nth 1 row 0%nat) X []) 0) /\ unit (r1 j) /\ unit (r2 j)) ->
  let donor j := nth j (nth (nth 1 row 0%nat) X []) 0 + scaled_differences (fun c => nth j (nth (nth c row 0%nat) X []) 0) (scale F gamma uF (uG j)) n_diffs in
  let trial := variant_trial X n_var row F gamma n_diffs uF uG rep (Some (xl, xu)) r1 r2 M in
  length trial = n_var /\
  forall j, (j < n_var)%nat -> inQ (nth j xl 0) (nth j xu 0) (nth j trial 0) /\
    (nth j M false = false -> nth j trial 0 = nth j (nth (nth 0 row 0%nat) X []) 0) /\
    (nth j M false = true -> inQ (nth j xl 0) (nth j xu 0) (donor j) -> nth j trial 0 == donor j).
Proof.
  intros X n_var row F gamma n_diffs uF uG rep xl xu r1 r2 M H donor trial. unfold trial, variant_trial. split; [now rewrite map_length, seq_length|]. intros j Hj. rewrite nth_map_seq0 by auto. cbv zeta. destruct (H j Hj) as (H1 & H2 & H3 & H4).
  set (v := variant_donor X row F gamma n_diffs uF (uG j) j). assert (EV : v == donor j) by apply donor_formula. destruct (C26_repairs v (nth j xl 0) (nth j xu 0)) as (R1 & _ & R3 & R4).
  assert (HLU : nth j xl 0 <= nth j xu 0) by (destruct H1; lra).
  destruct (nth j M false).
  - split; [|split; [discriminate|]].
    + destruct rep; cbn [repair_donor]; [apply R4; auto|apply R4; auto|now apply R3|now apply R3].
    + intros _ HD. assert (HV : inQ (nth j xl 0) (nth j xu 0) v) by (unfold inQ in *; rewrite EV; auto). destruct (R1 HV) as (_ & _ & E1 & E2). rewrite <- EV. destruct (E2 (nth j (nth (nth 1 row 0%nat) X []) 0) (r1 j) (r2 j)) as (A1 & A2 & A3). destruct rep; cbn [repair_donor]; rewrite ?A1, ?A2, ?A3, ?E1; reflexivity.
  - split; auto. split; [auto|discriminate].
Qed.
(** C91: at least one value of the donor is taken, for both crossovers *)
Theorem C91_trial_mask : forall n_var draws prob start dr r, (r < n_var)%nat -> length draws = n_var ->
  (exists j, (j < n_var)%nat /\ nth j (mut_binomial draws prob true r) false = true) /\ (exists j, (j < n_var)%nat /\ nth j (mut_exp n_var start prob dr true r) false = true).
Proof.
  intros n_var draws prob start dr r Hr HL.
  assert (G : forall M, length M = n_var -> exists j, (j < n_var)%nat /\ nth j (row_at_least_once_true M r) false = true).
  { intros M LM. destruct (existsb (fun b => b) M) eqn:E.
    - apply existsb_exists in E as (b & Hb & Eb). apply (In_nth _ _ false) in Hb as (j & Hj & Ej). exists j. split; [lia|]. apply row_once_spec; [lia|]. left. congruence.
    - exists r. split; auto. apply row_once_spec; [lia|]. right. split; auto. intros k. destruct (nth k M false) eqn:Ek; auto. exfalso. assert (Hk : (k < length M)%nat) by (destruct (Nat.lt_ge_cases k (length M)); auto; rewrite nth_overflow in Ek by auto; discriminate). apply not_true_iff_false in E. apply E. apply existsb_exists. exists (nth k M false). split; [now apply nth_In|auto]. }
  split; apply G; [now rewrite map_length|]. assert (HX : forall fuel j M, length (exp_run n_var start prob dr fuel j M) = length M). { induction fuel as [|fuel IH]; intros j M; [reflexivity|]. cbn [exp_run]. destruct (Qle_bool _ _); auto. rewrite IH. apply length_upd. } rewrite HX. apply repeat_length.
Qed.
(** C91: offspring k is built from parent k (its opponent in the duel): every selection puts k in the first column, so where the mask is false the trial has the values of parent k *)
Theorem C91_target : forall fuel n_pop n_diffs draws ranks P X n_var F gamma uF uG rep bounds r1 r2 M k, draws_ok n_pop draws -> (k < n_pop)%nat ->
  (des_rand fuel n_pop (2 + 2 * n_diffs) draws = Some P \/ ((1 <= n_diffs)%nat /\ des_best fuel n_pop (2 + 2 * n_diffs) draws = Some P) \/ des_ranked fuel n_pop (2 + 2 * n_diffs) draws ranks = Some P \/
   ((1 <= n_diffs)%nat /\ des_current_to_best fuel n_pop (2 + 2 * n_diffs) draws = Some P) \/ ((1 <= n_diffs)%nat /\ des_current_to_rand fuel n_pop (2 + 2 * n_diffs) draws = Some P)) ->
  forall j, (j < n_var)%nat -> nth j M false = false -> nth j (variant_trial X n_var (nth k P []) F gamma n_diffs uF uG rep bounds r1 r2 M) 0 = nth j (nth k X []) 0.
Proof.
  intros fuel n_pop n_diffs draws ranks P X n_var F gamma uF uG rep bounds r1 r2 M k HD Hk HP j Hj HM.
  assert (E : nth 0 (nth k P []) 0%nat = k).
  { destruct HP as [HP|[[HP1 HP]|[HP|[[HP1 HP]|[HP1 HP]]]]].
    - apply C30_rand in HP; auto; [|lia]. destruct HP as [_ HP]. destruct (HP k Hk) as (ex & -> & _). reflexivity.
    - apply C30_best in HP; auto; [|lia]. destruct HP as [_ HP]. destruct (HP k Hk) as (ex & -> & _). reflexivity.
    - apply C30_ranked in HP; auto. destruct HP as [_ HP]. destruct (HP k Hk) as (row & -> & _). reflexivity.
    - apply C30_current_to_best in HP; auto; [|lia]. destruct HP as [_ HP]. destruct (HP k Hk) as (ex & -> & _). reflexivity.
    - apply C30_current_to_rand in HP; auto; [|lia]. destruct HP as (r & _ & _ & HP). destruct (HP k Hk) as (ex & -> & _). reflexivity. }
  unfold variant_trial. rewrite nth_map_seq0 by auto. cbv zeta. rewrite HM, E. reflexivity.
Qed.
Print Assumptions C91_trial.
Print Assumptions C91_target.

(** ** instances *)
Local Open Scope nat_scope.
Notation g3 := (gde3_advance ([], f_nan) snd ex_feas fst np_argsort dsort_ex (default_nds pr_ref) crowd_ex).
Definition g3_pop : list (list flt * flt) := [([fz 3; fz 1], fz 0); ([fz 1; fz 3], fz 0); ([fz 2; fz 2], fz 2)].
Definition g3_off : list (list flt * flt) := [([fz 2; fz 1], fz 0); ([fz 3; fz 2], fz 0); ([fz 4; fz 4], fz 1)].
Lemma ex_evaluated (L : list (list flt * flt)) : Forall (fun a => row_ok 2 (fst a) /\ exists z, (0 <= z <= 1000)%Z /\ snd a = fz z) L -> evaluated snd ex_feas fst 2 true L.
Proof.
  intros H. rewrite Forall_forall in H.
  assert (HZ : forall z, (0 <= z <= 1000)%Z -> isnan (fz z) = false). { intros z Hz. assert (K : forallb (fun k => negb (isnan (fz (Z.of_nat k)))) (seq 0 1001) = true) by (vm_compute; reflexivity). rewrite forallb_forall in K. specialize (K (Z.to_nat z)). rewrite Z2Nat.id in K by lia. apply negb_true_iff, K, in_seq. lia. }
  assert (HF : forall z, (0 <= z <= 1000)%Z -> fleb (fz z) f_zero = true -> z = 0%Z). { intros z Hz E. assert (K : forallb (fun k => negb (fleb (fz (Z.of_nat k)) f_zero) || (k =? 0)) (seq 0 1001) = true) by (vm_compute; reflexivity). rewrite forallb_forall in K. specialize (K (Z.to_nat z)). rewrite Z2Nat.id in K by lia. rewrite E in K. cbn [negb orb] in K. assert (HI : In (Z.to_nat z) (seq 0 1001)) by (apply in_seq; lia). apply K, Nat.eqb_eq in HI. lia. }
  assert (HP : forall z, (0 <= z <= 1000)%Z -> fleb (fz z) f_zero = false -> fltb (fz 0) (fz z) = true). { intros z Hz E. assert (K : forallb (fun k => fleb (fz (Z.of_nat k)) f_zero || fltb (fz 0) (fz (Z.of_nat k))) (seq 0 1001) = true) by (vm_compute; reflexivity). rewrite forallb_forall in K. specialize (K (Z.to_nat z)). rewrite Z2Nat.id in K by lia. rewrite E in K. cbn [orb] in K. apply K, in_seq. lia. }
  split; [apply Forall_forall; intros a Hin; destruct (H a Hin) as (H1 & z & Hz & ->); auto|]. unfold ex_feas. split; [|split; [|discriminate]].
  - intros a b HA HB FA FB. destruct (H a HA) as (_ & z & Hz & E), (H b HB) as (_ & w & Hw & E'). rewrite E, E' in *. apply HF in FA, FB; auto. subst. reflexivity.
  - intros a b HA HB FA FB. destruct (H a HA) as (_ & z & Hz & E), (H b HB) as (_ & w & Hw & E'). rewrite E, E' in *. apply HF in FA; auto. subst. auto.
Qed.
(** parent 0 is beaten and replaced, parent 1 and its opponent both stay, the less violating offspring 2 replaces its parent; three of the four survive *)
Example C91_meets : evaluated snd ex_feas fst 2 true (g3_pop ++ g3_off) /\ gde3_pool ([], f_nan) snd fst g3_pop g3_off = Some [3; 1; 4; 5] /\ g3 true 3 g3_pop g3_off = Some [3; 1; 4] /\
  (exists final, gde3_run ([], f_nan) snd ex_feas fst np_argsort dsort_ex (default_nds pr_ref) crowd_ex true 3 g3_pop [g3_off; g3_pop] = Some final /\ length final = 3) /\
  length (nsga2_run ([], f_nan) snd ex_feas fst np_argsort dsort_ex (default_nds pr_ref) crowd_ex true 3 g3_pop [g3_off; g3_pop]) = 3.
Proof.
  split; [apply ex_evaluated; unfold g3_pop, g3_off; cbn [app]; repeat (apply Forall_cons; [split; [split; [reflexivity|repeat constructor]|eexists; split; [|reflexivity]; lia]|]); apply Forall_nil|]. split; [vm_compute; reflexivity|]. split; [vm_compute; reflexivity|]. split; [eexists; split; vm_compute; reflexivity|vm_compute; reflexivity].
Qed.
(** C91: without room for all unbeaten solutions the guarantee for histories fails: a solution of the final population is beaten by one seen before, which has been dropped *)
Definition crowd_two (M : fltmat) (_ : nat) : list flt := map (fun _ => S754_infinity false) M.      (* crowding distance of one or two points *)
Theorem C91_forgets_refuted : ~ (forall (A : Type) (d : A) cv feas obj m asort dsort nds crowding hc n gens (pop final : list A),
  asort_ok asort -> dsort_ok dsort -> (forall M r, length (crowding M r) = length M) -> nds_ok m nds -> 0 < n -> length pop = n -> Forall (fun infills => length infills = n) gens -> evaluated cv feas obj m hc (pop ++ concat gens) ->
  gde3_run d cv feas obj asort dsort nds crowding hc n pop gens = Some final -> forall a b, In a (pop ++ concat gens) -> In b final -> ~ beats cv obj a b).
Proof.
  intros H. specialize (H _ ([], f_nan) snd ex_feas fst 2 np_argsort dsort_ex (default_nds pr_ref) crowd_two true 1 [[([fz 3; fz 1], fz 0)]; [([fz 2; fz 3], fz 0)]] [([fz 1; fz 3], fz 0)] [([fz 2; fz 3], fz 0)] np_argsort_ok ex_dsort).
  apply (H (fun M r => map_length _ M) ex_nds ltac:(lia) eq_refl ltac:(repeat constructor)) with (a := ([fz 1; fz 3], fz 0)) (b := ([fz 2; fz 3], fz 0)); [|vm_compute; reflexivity|now left|now left|].
  - apply ex_evaluated. cbn [app concat]. repeat (apply Forall_cons; [split; [split; [reflexivity|repeat constructor]|eexists; split; [|reflexivity]; lia]|]). apply Forall_nil.
  - right. split; [reflexivity|]. split; [repeat constructor|]. exists 0, (fz 1), (fz 2). repeat split; reflexivity.
Qed.
Print Assumptions C91_forgets_refuted.
(** a trial vector: base 3, difference (8 - 0), F = 1/2, donor 7 in bounds, the second value from the target *)
Example C91_trial_case : variant_trial [[1; 1]; [3; 3]; [8; 8]; [0; 0]]%Q 2 [0; 1; 2; 3] (inr (1#2)%Q) None 1 (fun _ => 0%Q) (fun _ _ => 0%Q) BounceBack (Some ([0; 0], [9; 9])%Q) (fun _ => 0%Q) (fun _ => 0%Q) [true; false]
  = [3 + (1#2) * (8 - 0); 1]%Q.
Proof. reflexivity. Qed.
