(** * C93 (continued): what MOPSO-CD does not guarantee, personal bests, leaders, movement, the elites of CMOPSO *)
From Coq Require Import List Arith Bool Lia Permutation Relations QArith Lqa.
From Coq Require Import Floats.SpecFloat.
From Verif Require Import Flt ListAux NpSort M_NDS M_Duplicate M_Survival M_Optimum M_CTAEA M_MOPSO M_Crowding S_Pareto S_NDS S_Survival S_Optimum P_Dominator P_Duplicate P_Optimum Thm_NDS Thm_Duplicate Thm_Optimum Thm_Archive Thm_CTAEA Thm_BRKGA2 Thm_MOPSO.
From Verif Require P_Survival Thm_Survival.
Import ListNotations.
Local Open Scope nat_scope.

(** ** the archive is cut to 100 *)
(** C93: if more than archive_size initial particles are mutually non-dominated, the first optimum has archive_size members, but the archive the search continues with is cut to 100 random ones (or archive_size, if
    that is smaller) - with the default archive_size 200 half of it is thrown away *)
Theorem C93_initial_cut : forall (A : Type) (d : A) obj cv feas m pr close crowd trunc draw size (g : list A),
  pr_ok m pr -> (forall it, trunc_ok (trunc it)) -> (forall it, draw_ok 3 (draw it)) -> 1 <= size -> Forall (ind_ok obj cv m) g ->
  NoDup g -> (forall a b, In a g -> In b g -> close a b = true -> a = b) -> (forall x, In x g -> feas x = true) -> (forall x y, In x g -> In y g -> ~ dominates (obj x) (obj y)) -> size < length g ->
  exists st, mo_run d obj cv feas pr close crowd trunc draw 0 size mo_start [g] = Some st /\ length (mo_opt st) = size /\ length (mo_arch st) = Nat.min size 100.
Proof.
  intros A d obj cv feas m pr close crowd trunc draw size g HP HT HD Hsz HO HN Hc Hf Hnd Hlt. assert (Hg : g <> []) by (intros ->; cbn in Hlt; lia).
  assert (J0 : st_in (@mo_start A) []) by (split; apply incl_nil_l).
  destruct (adv_spec d obj cv feas m pr close crowd trunc draw size HP HT HD Hsz 0 mo_start [] g J0 (Forall_nil _) HO Hg) as (st & E & P & _ & N & L & K & K' & Ea).
  cbn [mo_start mo_arch mo_pop app] in K, K'. exists st. cbn [mo_run]. rewrite E. split; auto.
  assert (HL : length (mo_opt st) = size).
  { destruct (le_lt_dec size (length (mo_opt st))) as [C|C]; [lia|]. exfalso. specialize (K' C).
    pose proof (NoDup_incl_length HN (fun x Hx => proj2 (K' x) (conj Hx (fun y Hy => Hnd y x Hy Hx)))). lia. }
  split; auto. unfold mo_archive_add in Ea.
  assert (HI : incl (mo_opt st) g) by (intros x Hx; apply K; auto).
  destruct (add1_spec d obj cv feas pr m true close true (Some 100) (trunc 0) HP ltac:(discriminate) (Some size) (mo_opt st) g (mo_arch st) (ok_incl obj cv m _ _ HI HO) HO Ea) as (_ & res & R1 & R2 & _ & _ & R5).
  assert (Hm : forall x, In x (merged (mo_opt st) g) <-> In x g) by (intros x; rewrite merged_In; split; [intros [Hx|Hx]; auto|auto]).
  assert (R1' : forall x, In x res <-> In x g).
  { intros x. rewrite R1. unfold best. rewrite Hm. split; [tauto|]. intros Hx. split; auto. intros y Hy [[_ C]|[(_ & _ & C)|(C & _)]]; apply Hm in Hy; [rewrite Hf in C; auto; discriminate|apply (Hnd y x); auto|rewrite Hf in C; auto; discriminate]. }
  assert (HB : length g <= length (the_elim d close true res)).
  { apply NoDup_incl_length; auto. intros x Hx. apply R1' in Hx as Hx'. destruct (elim_repr d close true res x Hx') as (y & Hy & Hch).
    assert (Eq : forall a b, clos_refl_trans A (fun a b => close a b = true /\ In a res /\ In b res) a b -> b = a).
    { intros a b Hab. induction Hab as [a b (C & Ca & Cb)| |a b z _ IH1 _ IH2]; auto; [|congruence]. symmetry. apply Hc; auto; now apply R1'. }
    now rewrite <- (Eq x y Hch). }
  assert (KT : forall k, eff_truncate (Some size) (Some 100) = Some k -> length (trunc 0 (the_elim d close true res) k) = Nat.min size 100).
  { intros k Hk. cbn [eff_truncate option_map] in Hk. injection Hk as <-. destruct (HT 0 (the_elim d close true res) (Nat.min size 100)) as [-> _]; lia. }
  destruct size as [|s] eqn:Es; [lia|]. destruct R2 as [R2|(k & M & _ & _ & _ & Ek & ->)]; [|now apply KT].
  destruct (R5 s eq_refl R2) as [C|(k & Ek & ->)]; [rewrite R2 in C; lia|now apply KT].
Qed.
Print Assumptions C93_initial_cut.

(** ** refutations *)
Definition all_inf (M : fltmat) : list flt := map (fun _ => S754_infinity false) M.
Definition first3 (it k : nat) (rem : list nat) : list nat := firstn 3 rem.
Definition last3 (it k : nat) (rem : list nat) : list nat := firstn 3 (rev rem).
Lemma first3_ok it : draw_ok 3 (first3 it).
Proof. intros k rem HN _. unfold first3. split; [now apply P_Survival.NoDup_firstn|]. split; [intros x; apply P_Survival.firstn_In|apply firstn_length]. Qed.
Lemma last3_ok it : draw_ok 3 (last3 it).
Proof. intros k rem HN _. unfold last3. split; [apply P_Survival.NoDup_firstn; now apply NoDup_rev|]. split; [intros x Hx; apply P_Survival.firstn_In in Hx; now apply in_rev|rewrite firstn_length, rev_length; reflexivity]. Qed.
Notation demo_run draw size gens := (mo_run dd d_obj d_cv d_feas pr_fast d_close all_inf (fun _ => @keep_first dind) draw 0 size mo_start gens).
(** the setting of the theorems above, for two objectives *)
Definition demo_ok (draw : nat -> nat -> list nat -> list nat) (size : nat) (gens : list (list dind)) : Prop :=
  pr_ok 2 pr_fast /\ (forall it : nat, trunc_ok (@keep_first dind)) /\ (forall it, draw_ok 3 (draw it)) /\ 1 <= size /\
  Forall (ind_ok d_obj d_cv 2) (concat gens) /\ Forall (fun g => g <> []) gens.
Lemma demo_setting draw size gens : (forall it, draw_ok 3 (draw it)) -> 1 <= size -> forallb (fun a => (length (snd (fst a)) =? 2) && forallb (fun n => negb (isnan (fbits n))) (snd (fst a)) && negb (isnan (d_cv a))) (concat gens) = true ->
  forallb (fun g => negb (length g =? 0)) gens = true -> demo_ok draw size gens.
Proof.
  intros H1 H2 H3 H4. split; [apply pr_fast_ok|]. split; [intros _; apply keep_first_ok|]. split; auto. split; auto. split.
  - apply Forall_forall. intros a Ha. rewrite forallb_forall in H3. specialize (H3 a Ha). apply andb_true_iff in H3 as [H3 Hc]. apply andb_true_iff in H3 as [Hl Hv]. apply Nat.eqb_eq in Hl. split; [split|].
    + unfold d_obj. now rewrite map_length.
    + unfold d_obj. apply Forall_map, Forall_forall. intros n Hn. rewrite forallb_forall in Hv. specialize (Hv n Hn). now apply negb_true_iff in Hv.
    + now apply negb_true_iff in Hc.
  - apply Forall_forall. intros g Hg. rewrite forallb_forall in H4. specialize (H4 g Hg). intros ->. discriminate.
Qed.
Ltac demo := apply demo_setting; [exact first3_ok || exact last3_ok|lia|vm_compute; reflexivity|vm_compute; reflexivity].

(** C93: the optimum may list a solution twice although all evaluated solutions are different (the particles of the previous iteration are merged with the archive that already has them) *)
Theorem C93_duplicates_refuted : ~ (forall draw size gens st, demo_ok draw size gens -> NoDup (concat gens) -> demo_run draw size gens = Some st -> NoDup (mo_opt st)).
Proof.
  intros H. specialize (H first3 9 [[(1, [1; 5], 0)]; [(2, [5; 1], 0)]] {| mo_arch := [(1, [1; 5], 0); (2, [5; 1], 0)]; mo_pop := [(2, [5; 1], 0)]; mo_opt := [(1, [1; 5], 0); (1, [1; 5], 0); (2, [5; 1], 0)] |}).
  assert (C : NoDup [(1, [1; 5], 0); (1, [1; 5], 0); (2, [5; 1], 0)]).
  { apply H; [demo| |vm_compute; reflexivity]. cbn. apply NoDup_cons; [|apply NoDup_cons; [intros []|apply NoDup_nil]]. intros [C|[]]. discriminate. }
  inversion C as [|? ? C1 _]; subst. apply C1. now left.
Qed.
(** C93: constraints are ignored: an infeasible solution with better objectives displaces the feasible ones, and the run reports no success *)
Theorem C93_feasible_refuted : ~ (forall draw size gens st, demo_ok draw size gens -> (exists x, In x (concat gens) /\ d_feas x = true) -> demo_run draw size gens = Some st -> exists x, In x (mo_opt st) /\ d_feas x = true).
Proof.
  intros H. specialize (H first3 9 [[(1, [2; 2], 0); (2, [1; 1], 1)]] {| mo_arch := [(1, [2; 2], 0)]; mo_pop := [(1, [2; 2], 0); (2, [1; 1], 1)]; mo_opt := [(2, [1; 1], 1)] |}).
  destruct H as (x & Hx & Hf); [demo|exists (1, [2; 2], 0); split; [simpl; auto|reflexivity]|vm_compute; reflexivity|]. cbn in Hx. destruct Hx as [<-|[]]. discriminate.
Qed.
(** C93: once the archive is full the optimum can get worse: a reported solution may be dominated by one that was evaluated (and reported) before *)
Theorem C93_forgets_refuted : ~ (forall draw size gens st, demo_ok draw size gens -> demo_run draw size gens = Some st -> forall x y, In x (mo_opt st) -> In y (concat gens) -> ~ dominates (d_obj y) (d_obj x)).
Proof.
  intros H. specialize (H last3 1 [[(1, [1; 3], 0)]; [(2, [3; 1], 0)]; [(3, [2; 4], 0)]] {| mo_arch := [(3, [2; 4], 0)]; mo_pop := [(3, [2; 4], 0)]; mo_opt := [(3, [2; 4], 0)] |}).
  specialize (H ltac:(demo) ltac:(vm_compute; reflexivity) (3, [2; 4], 0) (1, [1; 3], 0)). apply H; [now left|now left|].
  split; [repeat constructor|]. exists 0, (fbits 1), (fbits 2). repeat split; reflexivity.
Qed.
Print Assumptions C93_forgets_refuted.
(** the hypotheses of C93_optimum / C93_complete / C93_initial_cut hold in concrete runs *)
Example C93_case : let gens := [[(1, [1; 5], 0); (2, [6; 6], 0)]; [(3, [5; 1], 0); (4, [0; 7], 0)]] in
  demo_ok first3 9 gens /\ (exists st, demo_run first3 9 gens = Some st /\ map (fun a => fst (fst a)) (mo_opt st) = [1; 1; 3; 4]) /\
  (forall a b, d_close a b = d_close b a) /\ (forall a, d_close a a = true) /\ (forall a b, In a (concat gens) -> In b (concat gens) -> d_close a b = true -> d_obj a = d_obj b) /\
  (forall k st, demo_run first3 9 (firstn k gens) = Some st -> length (mo_opt st) < 9).
Proof.
  cbv zeta. split; [demo|]. split; [eexists; split; vm_compute; reflexivity|]. split; [intros [[a ?] ?] [[b ?] ?]; apply Nat.eqb_sym|]. split; [intros [[a ?] ?]; apply Nat.eqb_refl|]. split.
  - intros a b Ha Hb. cbn in Ha, Hb. intuition subst; try reflexivity; discriminate.
  - intros [|[|k]] st E; [cbn in E; injection E as <-; cbn; lia|vm_compute in E; injection E as <-; cbn; lia|]. rewrite firstn_all2 in E by (cbn; lia). vm_compute in E. injection E as <-. cbn. lia.
Qed.
Example C93_initial_cut_case : exists st, demo_run last3 2 [[(1, [1; 5], 0); (2, [3; 3], 0); (3, [5; 1], 0)]] = Some st /\ length (mo_opt st) = 2 /\ length (mo_arch st) = 2.
Proof. eexists. split; [vm_compute; reflexivity|]. split; reflexivity. Qed.
Example C93_tournament_case : draw_ok 3 (fun k rem => firstn 3 rem) /\ tournaments (fun k rem => firstn 3 rem) [fz 4; fz 1; fz 2; fz 9] 2 (seq 0 4) = [0; 3].
Proof. split; [exact (first3_ok 0)|reflexivity]. Qed.

(** ** personal bests and leaders *)
Lemma np_dominates_iff a b : length a = length b -> (np_dominates a b = true <-> dominates a b).
Proof.
  intros HL. unfold np_dominates. rewrite andb_true_iff, forallb_forall, existsb_exists. split.
  - intros [H1 ([x y] & H2 & H3)]. split.
    + clear H2 H3 x y. revert b HL H1; induction a as [|x a IH]; intros [|y b] HL H1; try discriminate; constructor; [apply (H1 (x, y)); now left|]. apply IH; [now injection HL|]. intros p Hp. apply H1. now right.
    + apply (In_nth _ _ (f_nan, f_nan)) in H2 as (k & Hk & E). rewrite combine_length in Hk. rewrite combine_nth in E by auto. injection E as E1 E2. exists k, x, y. cbn [fst snd] in H3. split; [|split; auto]; apply nth_error_nth' with (d := f_nan) || idtac.
      * rewrite <- E1. apply nth_error_nth'. lia.
      * rewrite <- E2. apply nth_error_nth'. lia.
  - intros [H1 (k & x & y & Hx & Hy & HL')]. split.
    + clear - H1. induction H1 as [|u v a b Huv _ IH]; intros p Hp; [destruct Hp|]. destruct Hp as [<-|Hp]; auto.
    + exists (x, y). split; auto. assert (Hk : k < length a) by (apply nth_error_Some; congruence). apply (nth_error_nth _ _ f_nan) in Hx. apply (nth_error_nth _ _ f_nan) in Hy. rewrite <- Hx, <- Hy, <- combine_nth by auto. apply nth_In. rewrite combine_length. lia.
Qed.
(** the crowding distance of two points is infinite for both (metrics.py:46-47) *)
Lemma crowding_two asort m a b : cd asort m [a; b] = [PInf; PInf].
Proof. reflexivity. Qed.

(** C93: a particle's personal best is one of its positions so far, and no position it ever visited dominates it; it is only ever replaced by a position dominating it *)
Theorem C93_pbest : forall (A : Type) obj crowd m (visited : list A) start,
  (forall a b, crowd [a; b] = [S754_infinity false; S754_infinity false]) -> Forall (fun a => row_ok m (obj a)) (start :: visited) ->
  let pb := fold_left (pbest_step obj crowd) visited start in
  In pb (start :: visited) /\ (forall y, In y (start :: visited) -> ~ dominates (obj y) (obj pb)) /\ (pb = start \/ dominates (obj pb) (obj start)).
Proof.
  intros A obj crowd m visited start HC HO.
  assert (Step : forall pb new, row_ok m (obj pb) -> row_ok m (obj new) -> pbest_step obj crowd pb new = new /\ dominates (obj new) (obj pb) \/ pbest_step obj crowd pb new = pb /\ ~ dominates (obj new) (obj pb)).
  { intros pb new [L1 _] [L2 _]. unfold pbest_step. pose proof (np_dominates_iff (obj new) (obj pb) ltac:(congruence)) as HI. destruct (np_dominates (obj new) (obj pb)); [left; split; auto; now apply HI|]. right. split; [|intros C; apply HI in C; discriminate].
    destruct (np_dominates (obj pb) (obj new)); [reflexivity|]. rewrite HC. reflexivity. }
  revert start HO. induction visited as [|v visited IH]; intros start HO; cbn [fold_left].
  - split; [now left|]. split; [|now left]. intros y [<-|[]]. apply dominates_irrefl.
  - inversion HO as [|? ? Hs HO']; subst. inversion HO' as [|? ? Hv HO'']; subst. destruct (Step start v Hs Hv) as [[E HDm]|[E HDm]]; rewrite E; cbv zeta in *.
    + destruct (IH v) as (I1 & I2 & I3); [constructor; auto|]. split; [now right|]. split.
      * intros y [<-|Hy]; [|now apply I2]. intros C. destruct I3 as [I3|I3]; [rewrite I3 in C; apply (dominates_irrefl (obj start)); eapply dominates_trans; eauto|].
        apply (I2 v); [now left|]. eapply dominates_trans; eauto.
      * right. destruct I3 as [->|I3]; auto. eapply dominates_trans; eauto.
    + destruct (IH start) as (I1 & I2 & I3); [constructor; auto|]. split; [destruct I1 as [I1|I1]; [now left|now right; right]|]. split; auto.
      intros y [<-|[<-|Hy]]; [apply I2; now left| |apply I2; now right]. intros C. destruct I3 as [I3|I3]; [rewrite I3 in C; auto|]. apply HDm. eapply dominates_trans; eauto.
Qed.
Print Assumptions C93_pbest.
Example C93_pbest_case : let f := fun p : nat * nat => [fbits (fst p); fbits (snd p)] in
  fold_left (pbest_step f all_inf) [(5, 1); (2, 3); (1, 9)] (3, 3) = (2, 3). Proof. reflexivity. Qed.

(** C93: a leader is a member of the archive, and the less crowded of the two drawn *)
Theorem C93_leader : forall (A : Type) (d : A) obj crowd (arch : list A) i1 i2,
  i1 < length arch -> i2 < length arch -> let c i := nth i (crowd (map obj arch)) f_nan in
  (forall i, i < length arch -> isnan (c i) = false) ->
  exists i, leader d obj crowd arch i1 i2 = nth i arch d /\ i < length arch /\ (i = i1 \/ i = i2 \/ length arch = 1) /\ (length arch <> 1 -> fleb (c i1) (c i) = true /\ fleb (c i2) (c i) = true).
Proof.
  intros A d obj crowd arch i1 i2 H1 H2 c HN. unfold leader. destruct (Nat.eqb_spec (length arch) 1) as [E|E]; [exists 0; split; auto; split; [lia|]; split; [auto|congruence]|].
  destruct (Nat.eqb_spec i1 i2) as [->|Hne]; [exists i2; split; auto; split; auto; split; auto; intros _; split; apply fle_refl, HN; auto|].
  cbv zeta. change (nth i1 (crowd (map obj arch)) f_nan) with (c i1). change (nth i2 (crowd (map obj arch)) f_nan) with (c i2). destruct (fltb (c i2) (c i1)) eqn:El.
  - exists i1. split; auto. split; auto. split; auto. intros _. split; [apply fle_refl, HN; auto|now apply flt_le].
  - exists i2. split; auto. split; auto. split; auto. intros _. split; [|apply fle_refl, HN; auto]. apply nlt_le; auto.
Qed.
Print Assumptions C93_leader.

(** ** movement *)
Local Open Scope Q_scope.
Lemma to_bounds_spec x l u : l <= u -> l <= to_bounds x l u <= u /\ (l <= x <= u -> to_bounds x l u = x) /\ (x < l -> to_bounds x l u = l) /\ (u < x -> to_bounds x l u = u).
Proof.
  intros H. unfold to_bounds. destruct (Qle_bool l x) eqn:E1; [apply Qle_bool_iff in E1|assert (H1 : x < l) by (apply Qnot_le_lt; intros C; apply Qle_bool_iff in C; congruence)].
  - destruct (Qle_bool x u) eqn:E2; [apply Qle_bool_iff in E2|assert (H2 : u < x) by (apply Qnot_le_lt; intros C; apply Qle_bool_iff in C; congruence)]; repeat split; try lra; auto; intros; lra.
  - destruct (Qle_bool l u) eqn:E2; [apply Qle_bool_iff in E2|exfalso; apply Qle_bool_iff in H; congruence]. repeat split; try lra; auto; intros; lra.
Qed.
(** C93: velocities stay within max_velocity_rate times the range, new positions inside the box, and a particle never moves further than its velocity allows - in MOPSO-CD and CMOPSO, whatever the random numbers *)
Theorem C93_movement : forall rate xl xu w c1 c2 r1 r2 v x pb leader, xl <= xu -> 0 <= rate ->
  let vmax := mo_vmax rate xl xu in
  forall v', (v' = mo_velocity w c1 c2 r1 r2 v x pb leader vmax \/ v' = cm_velocity r1 r2 v x leader vmax) ->
  let x' := mo_position xl xu x v' in
  - vmax <= v' <= vmax /\ xl <= x' <= xu /\ (xl <= x <= xu -> - vmax <= x' - x <= vmax /\ (xl <= x + v' <= xu -> x' = x + v')).
Proof.
  intros rate xl xu w c1 c2 r1 r2 v x pb leader Hx Hr vmax v' Hv x'. assert (HV : 0 <= vmax) by (unfold vmax, mo_vmax; apply Qmult_le_0_compat; lra).
  assert (Hb : - vmax <= v' <= vmax) by (destruct Hv as [-> | ->]; unfold mo_velocity, cm_velocity; apply to_bounds_spec; lra).
  destruct (to_bounds_spec (x + v') xl xu Hx) as (P1 & P2 & P3 & P4). fold (mo_position xl xu x v') in P1, P2, P3, P4. fold x' in P1, P2, P3, P4. split; auto. split; auto.
  intros Hin. split; auto. destruct (Qlt_le_dec (x + v') xl) as [C|C]; [rewrite (P3 C); lra|]. destruct (Qlt_le_dec xu (x + v')) as [C'|C']; [rewrite (P4 C'); lra|]. rewrite (P2 (conj C C')). lra.
Qed.
Print Assumptions C93_movement.
Example C93_movement_case : mo_velocity 1 2 2 1 0 1 3 7 0 2 = 2 /\ mo_position 0 4 3 2 = 4. Proof. split; reflexivity. Qed.
(** C93: CMOPSO's winner is one of the two elites drawn, at an angle not larger than the other's *)
Theorem C93_winner : forall (B : Type) (key : B -> Q) a b, let w := cm_winner key a b in (w = a \/ w = b) /\ key w <= key a /\ key w <= key b.
Proof.
  intros B key a b. cbv zeta. unfold cm_winner. destruct (Qle_bool (key a) (key b)) eqn:E; [apply Qle_bool_iff in E|assert (H1 : key b < key a) by (apply Qnot_le_lt; intros C; apply Qle_bool_iff in C; congruence)]; split; auto; split; lra.
Qed.

(** ** the elites of CMOPSO *)
Local Open Scope nat_scope.
Lemma selected_perm {A} (d : A) (l : list A) n J : S_Survival.selects (length l) n J -> exists rest, Permutation.Permutation l (gather d l J ++ rest).
Proof.
  intros (H1 & H2 & _). exists (gather d l (filter (fun i => if in_dec Nat.eq_dec i J then false else true) (seq 0 (length l)))).
  unfold gather. rewrite <- map_app. rewrite <- (gather_seq d l) at 1. unfold gather. apply Permutation_map. apply NoDup_Permutation; [apply seq_NoDup| |].
  - apply NoDup_app_iff. split; auto. split; [apply NoDup_filter, seq_NoDup|]. intros i Hi C. apply filter_In in C as [_ C]. destruct (in_dec Nat.eq_dec i J); [discriminate|auto].
  - intros i. rewrite in_app_iff, filter_In, in_seq. destruct (in_dec Nat.eq_dec i J) as [C|C]; split; intros K.
    + now left.
    + specialize (H2 i C). lia.
    + right. auto.
    + destruct K as [K|[K _]]; [tauto|auto].
Qed.
Section Cm.
  Context {A : Type} (d : A) (obj : A -> list flt) (cv : A -> flt) (feas : A -> bool) (m : nat).
  Variables (pr : fltmat -> list nat) (close : A -> A -> bool) (crowd : fltmat -> list flt) (draw : nat -> nat -> list nat -> list nat) (asort : list flt -> list nat) (hc : bool).
  Notation ok := (ind_ok obj cv m).
  Hypotheses (HP : pr_ok m pr) (HD : forall it, draw_ok 3 (draw it)) (HA : asort_ok asort).
  Lemma elite_truncation_ok it : trunc_ok (elite_truncation d obj cv feas crowd draw it asort hc).
  Proof.
    intros l k Hk. unfold elite_truncation. assert (Hin : inner_ok (fun _ => True) (tournament_inner obj crowd draw it)).
    { intros p n _ _ Hn. unfold tournament_inner. destruct (C93_tournament (draw it) (crowd (map obj p)) 3 (length p) n (HD it) ltac:(lia) Hn) as [K _]. exact K. }
    destruct (P_Survival.survival_do_spec d cv feas asort HA (fun _ => True) (tournament_inner obj crowd draw it) true hc (Some k) l Hin (proj2 (Forall_forall _ _) (fun _ _ => Logic.I))) as [K _]. cbv zeta in K. rewrite Nat.min_l in K by auto.
    split; [rewrite length_gather; apply K|]. now apply (selected_perm d l k).
  Qed.
End Cm.

(** C93: the elite archive of CMOPSO after any number of iterations: at most pop_size evaluated solutions (elite_size whenever it had to be cut), pairwise different, none better than another, none beaten by a current
    particle, and only feasible ones as soon as one feasible solution has been evaluated *)
Theorem C93_elites : forall (A : Type) (d : A) obj cv feas m pr close crowd draw asort hc pop_size elite_size survival (gens : list (list A)) g elites pop,
  pr_ok m pr -> (forall it, draw_ok 3 (draw it)) -> asort_ok asort -> 1 <= pop_size -> 1 <= elite_size -> (forall l, incl (survival l) l) -> (forall a b, close a b = close b a) ->
  Forall (ind_ok obj cv m) (concat (gens ++ [g])) ->
  cm_run d obj cv feas pr close crowd draw 0 asort hc pop_size elite_size survival [] [] (gens ++ [g]) = Some (elites, pop) ->
  elites <> [] /\ length elites <= pop_size /\ incl (elites ++ pop) (concat (gens ++ [g])) /\
  (forall x y, In x elites -> In y elites -> ~ better_than obj cv feas x y) /\
  (forall x y, In x elites -> In y (pop ++ g) -> ~ better_than obj cv feas y x) /\
  ((exists a, In a (concat (gens ++ [g])) /\ feas a = true) -> forall x, In x elites -> feas x = true) /\
  (forall p q, p < length elites -> q < length elites -> p <> q -> close (nth p elites d) (nth q elites d) = false).
Proof.
  intros A d obj cv feas m pr close crowd draw asort hc ps es survival gens g elites pop HP HD HA Hps Hes Hsv Hsy HO E.
  assert (Run : forall gens it e0 p0 seen, incl e0 seen -> incl p0 seen -> (e0 = [] -> p0 = []) -> Forall (ind_ok obj cv m) (seen ++ concat (gens ++ [g])) ->
    ((exists a, In a seen /\ feas a = true) -> e0 <> [] /\ forall x, In x e0 -> feas x = true) ->
    cm_run d obj cv feas pr close crowd draw it asort hc ps es survival e0 p0 (gens ++ [g]) = Some (elites, pop) ->
    elites <> [] /\ length elites <= ps /\ incl (elites ++ pop) (seen ++ concat (gens ++ [g])) /\
    (forall x y, In x elites -> In y elites -> ~ better_than obj cv feas x y) /\ (forall x y, In x elites -> In y (pop ++ g) -> ~ better_than obj cv feas y x) /\
    ((exists a, In a (seen ++ concat (gens ++ [g])) /\ feas a = true) -> forall x, In x elites -> feas x = true) /\
    (forall p q, p < length elites -> q < length elites -> p <> q -> close (nth p elites d) (nth q elites d) = false)).
  { clear gens HO E. induction gens as [|h gens IH]; intros it e0 p0 seen I1 I2 I3 HO Hf E.
    - cbn [app cm_run concat] in *. rewrite app_nil_r in *. destruct (archive_add _ _ _ _ _ _ _ _ _ _ _ _) as [e1|] eqn:Ea; [|discriminate]. injection E as <- <-.
      assert (HOe : Forall (ind_ok obj cv m) e0) by (apply Forall_forall; intros x Hx; rewrite Forall_forall in HO; apply HO, in_or_app; auto).
      assert (HOp : Forall (ind_ok obj cv m) (p0 ++ g)) by (apply Forall_forall; intros x Hx; rewrite Forall_forall in HO; apply HO; apply in_app_or in Hx as [Hx|Hx]; apply in_or_app; auto).
      destruct (add1_members d obj cv feas pr m true close true (Some ps) (Some es) (elite_truncation d obj cv feas crowd draw it asort hc) HP ltac:(discriminate) (elite_truncation_ok d obj cv feas crowd draw asort hc HD HA it)) with (arch := e0) (sols := p0 ++ g) (arch' := e1) as (K1 & K2 & K3 & K4); auto.
      { intros k Hk. cbn [eff_truncate option_map] in Hk. injection Hk as <-. apply Nat.min_glb_lt; lia. }
      assert (Hsub : forall x, In x (merged e0 (p0 ++ g)) -> In x (seen ++ g)) by (intros x Hx; rewrite merged_In, !in_app_iff in *; destruct Hx as [Hx|[Hx|Hx]]; auto).
      split; auto. split; [destruct ps as [|M]; [lia|]; apply (K3 M); auto|]. split.
      + intros x Hx. apply in_app_or in Hx as [Hx|Hx]; [apply Hsub, (K2 x Hx)|]. apply Hsv in Hx. apply Hsub, merged_In. auto.
      + split; [intros x y Hx Hy; apply (K2 y Hy), (K2 x Hx)|]. split; [|split; [|apply K4; auto]].
        * intros x y Hx Hy. apply (K2 x Hx). apply merged_In. right. apply in_app_or in Hy as [Hy|Hy]; [now apply Hsv|apply in_or_app; auto].
        * intros (a & Ha & Hfa) x Hx. destruct (feas x) eqn:Fx; auto. exfalso.
          assert (Hy : exists y, In y (merged e0 (p0 ++ g)) /\ feas y = true).
          { apply in_app_or in Ha as [Ha|Ha]; [|exists a; split; auto; apply merged_In; right; apply in_or_app; auto]. destruct (Hf (ex_intro _ a (conj Ha Hfa))) as [N F]. destruct e0 as [|y e0]; [congruence|]. exists y. split; [apply merged_In; left; now left|apply F; now left]. }
          destruct Hy as (y & Hy & Fy). apply (proj2 (K2 x Hx) y Hy). left. auto.
    - cbn [app cm_run concat] in E, HO |- *. destruct (archive_add _ _ _ _ _ _ _ _ _ _ _ _) as [e1|] eqn:Ea; [|discriminate].
      assert (HOe : Forall (ind_ok obj cv m) e0) by (apply Forall_forall; intros x Hx; rewrite Forall_forall in HO; apply HO, in_or_app; auto).
      assert (HOp : Forall (ind_ok obj cv m) (p0 ++ h)) by (apply Forall_forall; intros x Hx; rewrite Forall_forall in HO; apply HO; apply in_app_or in Hx as [Hx|Hx]; rewrite !in_app_iff; auto).
      destruct (add1_members d obj cv feas pr m true close true (Some ps) (Some es) (elite_truncation d obj cv feas crowd draw it asort hc) HP ltac:(discriminate) (elite_truncation_ok d obj cv feas crowd draw asort hc HD HA it)) with (arch := e0) (sols := p0 ++ h) (arch' := e1) as (K1 & K2 & _ & _); auto.
      { intros k Hk. cbn [eff_truncate option_map] in Hk. injection Hk as <-. apply Nat.min_glb_lt; lia. }
      assert (Hsub : forall x, In x (merged e0 (p0 ++ h)) -> In x (seen ++ h)) by (intros x Hx; rewrite merged_In, !in_app_iff in *; destruct Hx as [Hx|[Hx|Hx]]; auto).
      rewrite app_assoc in HO |- *. apply (IH (S it) e1 (survival (p0 ++ h)) (seen ++ h)); auto.
      + intros x Hx. apply Hsub, (K2 x Hx).
      + intros x Hx. apply Hsv in Hx. apply Hsub, merged_In. auto.
      + congruence.
      + intros (a & Ha & Hfa). split; auto. intros x Hx. destruct (feas x) eqn:Fx; auto. exfalso.
        assert (Hy : exists y, In y (merged e0 (p0 ++ h)) /\ feas y = true).
        { apply in_app_or in Ha as [Ha|Ha]; [|exists a; split; auto; apply merged_In; right; apply in_or_app; auto]. destruct (Hf (ex_intro _ a (conj Ha Hfa))) as [N F]. destruct e0 as [|y e0]; [congruence|]. exists y. split; [apply merged_In; left; now left|apply F; now left]. }
        destruct Hy as (y & Hy & Fy). apply (proj2 (K2 x Hx) y Hy). left. auto. }
  apply (Run gens 0 [] [] []); auto; try (apply incl_nil_l); try (intros (a & [] & _)).
Qed.
Print Assumptions C93_elites.
Example C93_elites_case : exists elites pop, cm_run dd d_obj d_cv d_feas pr_fast d_close all_inf first3 0 np_argsort true 3 2 (firstn 3) [] [] [[(1, [1; 5], 0); (2, [6; 6], 3); (3, [3; 3], 0)]; [(4, [5; 1], 0); (5, [0; 7], 0); (6, [3; 3], 0)]] = Some (elites, pop) /\
  map (fun a => fst (fst a)) elites = [1; 3].
Proof. eexists. eexists. split; vm_compute; reflexivity. Qed.
Example C93_leader_case : leader 0 (fun x => [fz (Z.of_nat x)]) (fun M => [fz 3; fz 1; fz 7]) [10; 11; 12] 1 2 = 12 /\ leader 0 (fun x => [fz (Z.of_nat x)]) (fun M => [fz 3; fz 1; fz 7]) [10; 11; 12] 0 1 = 10.
Proof. split; reflexivity. Qed.
