(** * C92 (continued): several objectives, duplicate elimination, selection *)
From Coq Require Import List Arith Bool Lia Permutation Relations.
From Verif Require Import Flt ListAux NpSort M_NDS M_Duplicate M_Survival M_Optimum M_BRKGA S_Pareto S_NDS S_Survival S_Optimum P_Dominator P_Duplicate P_Optimum Thm_NDS Thm_Duplicate Thm_Optimum Thm_GA Thm_ES Thm_BRKGA.
From Verif Require Thm_SMS P_Survival4.
Import ListNotations.
Local Open Scope nat_scope.

Section Multi.
  Context {A : Type} (d : A) (obj : A -> list flt) (pr : fltmat -> list nat) (m : nat).
  Notation okF := (fun a => row_ok m (obj a)).
  Hypothesis HP : pr_ok m pr.

  Lemma split_multi_elites pop x : Forall okF pop -> (In x (elites (split_multi d obj pr pop)) <-> In x pop /\ forall y, In y pop -> ~ dominates (obj y) (obj x)).
  Proof.
    intros HO. destruct pop as [|p0 pop0] eqn:Ep; [cbn; tauto|]. rewrite <- Ep in *. assert (Hne : map obj pop <> []) by (rewrite Ep; discriminate). clear Ep p0 pop0.
    assert (HR : rect m (map obj pop)) by (apply Forall_map; eapply Forall_impl; [|exact HO]; intros a Ha; apply Ha).
    assert (HM : mat_ok (map obj pop)) by (apply Forall_map; eapply Forall_impl; [|exact HO]; intros a Ha; apply Ha).
    assert (HJ : forall i, In i (first_front pr (map obj pop)) <-> i < length pop /\ forall y, In y pop -> ~ dominates (obj y) (obj (nth i pop d))).
    { intros i. unfold first_front. rewrite (C09_only_first (map obj pop) false (pr (map obj pop)) [] 0 None None Hne (HP _ Hne HR HM) i). rewrite map_length.
      split; intros [Hi HD]; split; auto.
      - intros y Hy. apply (In_nth _ _ d) in Hy as (j & Hj & <-). specialize (HD j Hj). unfold row_dom in HD.
        rewrite !(nth_indep _ [] (obj d)) in HD by (now rewrite map_length). rewrite !map_nth in HD. auto.
      - intros j Hj. unfold row_dom. rewrite !(nth_indep _ [] (obj d)) by (now rewrite map_length). rewrite !map_nth. apply HD. now apply nth_In. }
    unfold elites, split_multi. split.
    - intros Hx. apply in_map_iff in Hx as ([a b] & <- & Hx). apply filter_In in Hx as [Hx Hb]. cbn [fst snd] in *. apply in_map_iff in Hx as (k & E & Hk). injection E as <- <-.
      apply existsb_exists in Hb as (k' & Hk' & E). apply Nat.eqb_eq in E as <-. apply HJ in Hk' as [H1 H2]. split; auto. now apply nth_In.
    - intros [Hx HD]. apply (In_nth _ _ d) in Hx as (k & Hk & <-). apply in_map_iff. exists (nth k pop d, existsb (Nat.eqb k) (first_front pr (map obj pop))). split; auto.
      assert (E : existsb (Nat.eqb k) (first_front pr (map obj pop)) = true) by (apply existsb_exists; exists k; split; [apply HJ; auto|apply Nat.eqb_refl]).
      apply filter_In. split; [|exact E]. apply in_map_iff. exists k. split; auto. apply in_seq. lia.
  Qed.
  Lemma split_multi_fst pop : map fst (split_multi d obj pr pop) = pop.
  Proof. unfold split_multi. rewrite map_map. cbn [fst]. apply (gather_seq d pop). Qed.

  (** in a finite set every member is non-dominated or dominated by a non-dominated one *)
  Lemma nondominated_above (l : list A) x : exists u, In u (x :: l) /\ (u = x \/ dominates (obj u) (obj x)) /\ forall y, In y l -> ~ dominates (obj y) (obj u).
  Proof.
    induction l as [|a l (u & Hu & Hux & Hn)].
    - exists x. split; [simpl; auto|]. split; auto.
    - destruct (Thm_SMS.dom_dec (obj a) (obj u)) as [Hd|Hd].
      + exists a. split; [simpl; auto|]. split; [right; destruct Hux as [->|Hux]; auto; eapply dominates_trans; eauto|].
        intros y [<-|Hy]; [apply dominates_irrefl|]. intros HD. apply (Hn y Hy). eapply dominates_trans; eauto.
      + exists u. split; [destruct Hu as [<-|Hu]; simpl; auto|]. split; auto. intros y [<-|Hy]; auto.
  Qed.
  Lemma nd_of_union (seen g E : list A) : (forall x, In x E <-> In x seen /\ forall y, In y seen -> ~ dominates (obj y) (obj x)) ->
    forall x, (In x (E ++ g) /\ forall y, In y (E ++ g) -> ~ dominates (obj y) (obj x)) <-> (In x (seen ++ g) /\ forall y, In y (seen ++ g) -> ~ dominates (obj y) (obj x)).
  Proof.
    intros HE x. split; intros [Hx HD].
    - split; [apply in_app_or in Hx as [Hx|Hx]; apply in_or_app; auto; left; now apply HE|]. intros y Hy HDy. apply in_app_or in Hy as [Hy|Hy]; [|apply (HD y); auto; apply in_or_app; auto].
      destruct (nondominated_above seen y) as (u & Hu & Huy & Hn). apply (HD u).
      + apply in_or_app. left. apply HE. split; auto. destruct Hu as [<-|Hu]; auto.
      + destruct Huy as [->|Huy]; auto. eapply dominates_trans; eauto.
    - split.
      + apply in_app_or in Hx as [Hx|Hx]; apply in_or_app; auto. left. apply HE. split; auto. intros y Hy. apply HD, in_or_app; auto.
      + intros y Hy. apply HD. apply in_app_or in Hy as [Hy|Hy]; apply in_or_app; auto. left. now apply HE.
  Qed.
End Multi.

(** C92: with several objectives and no duplicate elimination, the elites are at any time exactly the non-dominated ones (objectives only) of everything evaluated so far; the population is those
    elites of the previous generation together with the new solutions, so there is no bound on its size *)
Theorem C92_multi : forall (A : Type) (d : A) obj cv feas asort lex pr close hc m n (init : list A) gens,
  m <> 1 -> pr_ok m pr -> (forall x, In x (init ++ concat gens) -> row_ok m (obj x)) ->
  let final := brkga_run d obj cv feas asort lex pr close hc m n false init gens in
  (forall x, In x (elites final) <-> In x (init ++ concat gens) /\ forall y, In y (init ++ concat gens) -> ~ dominates (obj y) (obj x)) /\
  (forall g, map fst (brkga_run d obj cv feas asort lex pr close hc m n false init (gens ++ [g])) = elites final ++ g).
Proof.
  intros A d obj cv feas asort lex pr close hc m n init gens Hm HP Hok final.
  assert (Step : forall pop x, Forall (fun a => row_ok m (obj a)) pop -> (In x (elites (elite_survival d obj cv feas asort lex pr close hc m n false pop)) <-> In x pop /\ forall y, In y pop -> ~ dominates (obj y) (obj x))).
  { intros pop x HO. unfold elite_survival, elite_dedup. destruct (length pop =? 0) eqn:E0; [apply Nat.eqb_eq in E0; destruct pop; [cbn; tauto|discriminate]|].
    replace (m =? 1) with false by (symmetry; now apply Nat.eqb_neq). now apply split_multi_elites with m. }
  assert (Run : forall gens st seen, (forall x, In x (seen ++ concat gens) -> row_ok m (obj x)) -> (forall x, In x (elites st) <-> In x seen /\ forall y, In y seen -> ~ dominates (obj y) (obj x)) ->
    forall x, In x (elites (fold_left (fun st infills => brkga_advance d obj cv feas asort lex pr close hc m n false st infills) gens st)) <-> In x (seen ++ concat gens) /\ forall y, In y (seen ++ concat gens) -> ~ dominates (obj y) (obj x)).
  { clear - Step. induction gens as [|g gens IH]; intros st seen Hok HE x; cbn [fold_left concat]; [rewrite app_nil_r; auto|].
    rewrite app_assoc. apply IH; [intros z Hz; apply Hok; cbn [concat]; now rewrite app_assoc|]. intros z. unfold brkga_advance. rewrite Step; [now apply nd_of_union|].
    apply Forall_forall. intros a Ha. apply Hok. cbn [concat]. rewrite app_assoc. apply in_or_app. left. apply in_app_or in Ha as [Ha|Ha]; apply in_or_app; auto. left. now apply HE. }
  split.
  - intros x. apply Run; auto. intros z. apply Step. apply Forall_forall. intros a Ha. apply Hok, in_or_app; auto.
  - intros g. unfold brkga_run. rewrite fold_left_app. cbn [fold_left]. change (fold_left _ gens _) with final. unfold brkga_advance, elite_survival, elite_dedup.
    destruct (length (elites final ++ g) =? 0) eqn:E0; [apply Nat.eqb_eq, length_zero_iff_nil in E0; now rewrite E0|].
    replace (m =? 1) with false by (symmetry; now apply Nat.eqb_neq). apply split_multi_fst.
Qed.
Print Assumptions C92_multi.

(** ** duplicate elimination *)
(** a chain of pairwise close solutions *)
Definition chained {A} (close : A -> A -> bool) : A -> A -> Prop := clos_refl_trans A (fun a b => close a b = true).
Section Dedup.
  Context {A : Type} (d : A) (close : A -> A -> bool).
  Lemma dedup_spec pop : incl (elite_dedup d close true pop) pop /\ (forall x, In x pop -> exists y, In y (elite_dedup d close true pop) /\ chained close x y) /\
    (forall a l, pop = a :: l -> exists l', elite_dedup d close true pop = a :: l').
  Proof.
    unfold elite_dedup. destruct (C20_default A d close pop [] true) as (J & HS & HJ & HE). rewrite HE.
    assert (HJ' : forall i, In i J <-> i < length pop /\ forall j, j < i -> close (nth i pop d) (nth j pop d) = false).
    { intros i. rewrite HJ. split; [intros (H1 & H2 & _); auto|]. intros [H1 H2]. split; auto. split; auto. intros r []. }
    split.
    - intros x Hx. apply in_map_iff in Hx as (i & <- & Hi). apply nth_In, HJ', Hi.
    - split.
      + assert (K : forall i, i < length pop -> exists y, In y (map (fun i => nth i pop d) J) /\ chained close (nth i pop d) y).
        { induction i as [i IH] using lt_wf_ind. intros Hi.
          destruct (Thm_SMS.search i (fun j => close (nth i pop d) (nth j pop d) = true)) as [(j & Hj & Hc)|Hno].
          - intros j. destruct (close (nth i pop d) (nth j pop d)); auto.
          - destruct (IH j Hj) as (y & Hy & Hch); [lia|]. exists y. split; auto. eapply rt_trans; [apply rt_step; exact Hc|exact Hch].
          - exists (nth i pop d). split; [|apply rt_refl]. apply in_map_iff. exists i. split; auto. apply HJ'. split; auto. intros j Hj. specialize (Hno j Hj). now destruct (close (nth i pop d) (nth j pop d)). }
        intros x Hx. apply (In_nth _ _ d) in Hx as (i & Hi & <-). auto.
      + intros a l Ep. assert (H0 : In 0 J) by (apply HJ'; rewrite Ep; split; [simpl; lia|intros; lia]).
        destruct J as [|j J]; [destruct H0|]. exists (map (fun i => nth i pop d) J). cbn [map]. f_equal. assert (j = 0) as ->; [|now rewrite Ep].
        destruct H0 as [H0|H0]; auto. inversion HS as [|? ? _ HF]; subst. rewrite Forall_forall in HF. specialize (HF 0 H0). lia.
  Qed.
End Dedup.

(** C92: with the elimination of duplicates (close objective values), one objective, at least one elite: the first member is an elite, and every solution ever evaluated is chained (by close objective
    values) to one that does not beat it *)
Theorem C92_dedup : forall (A : Type) (d : A) obj cv feas asort lex pr close hc n (init : list A) gens,
  lex_ok lex -> 1 <= n -> init <> [] -> (forall x, In x (init ++ concat gens) -> ind_ok obj cv 1 x /\ cv_consistent cv feas x) ->
  let final := brkga_run d obj cv feas asort lex pr close hc 1 n true init gens in
  exists b rest, map fst final = b :: rest /\ In b (elites final) /\ In b (init ++ concat gens) /\
    forall x, In x (init ++ concat gens) -> exists y, In y (init ++ concat gens) /\ chained close x y /\ ~ better_than obj cv feas y b.
Proof.
  intros A d obj cv feas asort lex pr close hc n init gens HL Hn Hne Hall final.
  set (es := elite_survival d obj cv feas asort lex pr close hc 1 n true).
  assert (Step : forall pop, pop <> [] -> Forall (ind_ok obj cv 1) pop -> exists b r1 r2, elites (es pop) = b :: r1 /\ map fst (es pop) = b :: r2 /\ incl (b :: r2) pop /\
     incl r1 r2 /\ forall x, In x pop -> exists y, In y pop /\ chained close x y /\ leq obj cv b y).
  { intros pop Hp HO. unfold es, elite_survival. replace (length pop =? 0) with false by (symmetry; apply Nat.eqb_neq; destruct pop; [congruence|discriminate]). cbn [Nat.eqb].
    destruct (dedup_spec d close pop) as (D1 & D2 & D3). set (D := elite_dedup d close true pop) in *.
    assert (HOD : Forall (ind_ok obj cv 1) D) by (apply Forall_forall; intros x Hx; rewrite Forall_forall in HO; auto).
    destruct (split_single_spec d obj cv feas asort lex hc n D HL HOD) as (s & Hpm & Hs & E1 & E2 & _). rewrite E1, E2.
    destruct pop as [|p0 pop0]; [congruence|]. destruct (D3 _ _ eq_refl) as (l' & ED).
    destruct s as [|b r2]; [apply Permutation_sym, Permutation_nil in Hpm; rewrite Hpm in ED; discriminate|]. destruct n as [|n]; [lia|]. cbn [firstn].
    exists b, (firstn n r2), r2. split; auto. split; auto. split; [intros z Hz; apply D1, (Permutation_in _ (Permutation_sym Hpm)), Hz|]. split.
    - intros z Hz. rewrite <- (firstn_skipn n r2). apply in_or_app; auto.
    - intros x Hx. destruct (D2 x Hx) as (y & Hy & Hch). exists y. split; auto. split; auto. apply (Permutation_in _ Hpm) in Hy. destruct Hy as [<-|Hy]; [apply leq_refl; rewrite Forall_forall in HOD; apply HOD, (Permutation_in _ (Permutation_sym Hpm)); simpl; auto|].
      apply (In_nth _ _ d) in Hy as (q & Hq & <-). apply (Hs 0 (S q)). simpl; lia. }
  assert (Run : forall gens st seen, (forall x, In x (seen ++ concat gens) -> ind_ok obj cv 1 x) ->
    (exists b r1 r2, elites st = b :: r1 /\ map fst st = b :: r2 /\ incl (b :: r2) seen /\ incl r1 r2 /\ forall x, In x seen -> exists y, In y seen /\ chained close x y /\ leq obj cv b y) ->
    exists b r1 r2, let st' := fold_left (fun st infills => brkga_advance d obj cv feas asort lex pr close hc 1 n true st infills) gens st in
    elites st' = b :: r1 /\ map fst st' = b :: r2 /\ incl (b :: r2) (seen ++ concat gens) /\ forall x, In x (seen ++ concat gens) -> exists y, In y (seen ++ concat gens) /\ chained close x y /\ leq obj cv b y).
  { clear - Step HL. induction gens as [|g gens IH]; intros st seen Hok (b & r1 & r2 & H1 & H2 & H3 & H4 & H5); cbn [fold_left concat].
    { rewrite app_nil_r. exists b, r1, r2. auto. }
    rewrite app_assoc. apply IH; [intros z Hz; apply Hok; cbn [concat]; now rewrite app_assoc|].
    assert (HEs : incl (elites st ++ g) (seen ++ g)).
    { intros z Hz. apply in_app_or in Hz as [Hz|Hz]; apply in_or_app; auto. left. apply H3. rewrite H1 in Hz. destruct Hz as [<-|Hz]; simpl; auto. }
    assert (Hok' : forall z, In z (seen ++ g) -> ind_ok obj cv 1 z) by (intros z Hz; apply Hok; cbn [concat]; rewrite app_assoc; apply in_or_app; auto).
    destruct (Step (elites st ++ g)) as (b' & r1' & r2' & G1 & G2 & G3 & G4 & G5).
    { rewrite H1. discriminate. }
    { apply Forall_forall. intros z Hz. apply Hok', HEs, Hz. }
    exists b', r1', r2'. unfold brkga_advance. fold es. split; auto. split; auto. split; [intros z Hz; apply HEs, G3, Hz|]. split; auto.
    intros x Hx. apply in_app_or in Hx as [Hx|Hx].
    - destruct (H5 x Hx) as (y & Hy & Hch & Hle). exists y. split; [apply in_or_app; auto|]. split; auto.
      assert (Hb : In b (elites st ++ g)) by (rewrite H1; simpl; auto).
      (* b itself is first, hence kept: it is compared directly *)
      assert (Hbb : leq obj cv b' b).
      { clear IH. unfold es, elite_survival in G1, G2. rewrite H1 in G1, G2. cbn [app length Nat.eqb] in G1, G2. destruct (dedup_spec d close (b :: r1 ++ g)) as (D1 & D2 & D3). destruct (D3 _ _ eq_refl) as (l' & ED).
        set (D := elite_dedup d close true (b :: r1 ++ g)) in *.
        assert (HOD : Forall (ind_ok obj cv 1) D) by (apply Forall_forall; intros z Hz; apply Hok', HEs; rewrite H1; apply D1, Hz).
        destruct (split_single_spec d obj cv feas asort lex hc n D HL HOD) as (s & Hpm & Hs & E1 & E2 & _). rewrite E1 in G2. subst s.
        assert (Hbs : In b (b' :: r2')) by (apply (Permutation_in _ Hpm); rewrite ED; simpl; auto). destruct Hbs as [<-|Hbs]; [apply leq_refl; apply Hok', HEs, Hb|].
        apply (In_nth _ _ d) in Hbs as (q & Hq & <-). apply (Hs 0 (S q)). simpl; lia. }
      apply leq_trans with b; auto; apply Hok'; auto; [apply HEs, G3; simpl; auto|apply in_or_app; auto].
    - destruct (G5 x) as (y & Hy & Hch & Hle); [apply in_or_app; auto|]. exists y. split; auto. }
  destruct (Step init Hne) as (b0 & r1 & r2 & G1 & G2 & G3 & G4 & G5); [apply Forall_forall; intros x Hx; apply Hall, in_or_app; auto|].
  destruct (Run gens (es init) init) as (b & s1 & s2 & K1 & K2 & K3 & K4); [intros x Hx; now apply Hall|exists b0, r1, r2; auto|]. cbv zeta in *. change (fold_left _ gens _) with final in K1, K2.
  exists b, s2. split; auto. split; [rewrite K1; simpl; auto|]. split; [apply K3; simpl; auto|]. intros x Hx. destruct (K4 x Hx) as (y & Hy & Hch & Hle). exists y. split; auto. split; auto.
  apply leq_not_better; auto; try (apply Hall; auto); apply K3; simpl; auto.
Qed.
Print Assumptions C92_dedup.

(** C92: but the elimination looks at the objectives only: an infeasible elite removes a feasible solution with the same objective value, and the population stays without a feasible member *)
Definition same_obj (a b : dind) : bool := if list_eq_dec Nat.eq_dec (snd (fst a)) (snd (fst b)) then true else false.
Theorem C92_dedup_refuted : ~ forall n (init : list dind) gens, 1 <= n ->
  let final := brkga_run dd d_obj d_cv d_feas np_argsort np_lex P_Survival4.pr_ref same_obj true 1 n true init gens in
  (exists x, In x (init ++ concat gens) /\ d_feas x = true) -> exists e, In e (elites final) /\ d_feas e = true.
Proof.
  intros H. specialize (H 1 [(1, [5], 3)] [[(2, [5], 0)]] (le_n 1)). destruct H as (e & He & Hf).
  - exists (2, [5], 0). split; [simpl; auto|reflexivity].
  - vm_compute in He. destruct He as [<-|[]]. discriminate.
Qed.
Print Assumptions C92_dedup_refuted.
(** C92: with several objectives constraints are ignored: every feasible solution can be lost to an infeasible one *)
Theorem C92_multi_constraints_refuted : ~ forall n (init : list dind) gens,
  let final := brkga_run dd d_obj d_cv d_feas np_argsort np_lex P_Survival4.pr_ref same_obj true 2 n false init gens in
  (exists x, In x init /\ d_feas x = true) -> exists e, In e (map fst final) /\ d_feas e = true.
Proof.
  intros H. specialize (H 1 [(1, [1; 1], 4); (2, [2; 2], 0)] [[(3, [3; 3], 5)]]). destruct H as (e & He & Hf).
  - exists (2, [2; 2], 0). split; [simpl; auto|reflexivity].
  - vm_compute in He. destruct He as [<-|[<-|[]]]; discriminate.
Qed.
Print Assumptions C92_multi_constraints_refuted.

(** C92: mating always pairs an elite with a non-elite (with an elite, if everybody is); it raises iff there is no elite *)
Theorem C92_selection : forall types n u v,
  (forall k, u k < length (where_ (fun i => nth i types false) (length types))) ->
  (forall k, v k < length (where_ (fun i => negb (nth i types true)) (length types)) \/ v k < length (where_ (fun i => nth i types false) (length types)) /\ forallb (fun t => t) types = true) ->
  exists rows, elite_select types n u v = Some rows /\ length rows = n /\
    forall i j, In (i, j) rows -> i < length types /\ j < length types /\ nth i types false = true /\ (nth j types true = false \/ forallb (fun t => t) types = true).
Proof.
  intros types n u v Hu Hv. unfold elite_select. set (e := where_ (fun i => nth i types false) (length types)) in *. set (ne := where_ (fun i => negb (nth i types true)) (length types)) in *.
  assert (Hall : length ne = 0 <-> forallb (fun t => t) types = true).
  { rewrite length_zero_iff_nil. split.
    - intros E. apply forallb_forall. intros t Ht. apply (In_nth _ _ true) in Ht as (i & Hi & <-). destruct (nth i types true) eqn:Et; auto. exfalso. assert (HI : In i ne) by (apply In_where; rewrite Et; auto). rewrite E in HI. destruct HI.
    - intros HF. destruct ne as [|i ne'] eqn:E; auto. exfalso. assert (HI : In i (where_ (fun i => negb (nth i types true)) (length types))) by (fold ne; rewrite E; simpl; auto). apply In_where in HI as [HI Hn].
      rewrite forallb_forall in HF. rewrite (HF (nth i types true)) in Hn; [discriminate|]. now apply nth_In. }
  set (ne' := if length ne =? 0 then e else ne).
  assert (He : forall k, In (nth (u k) e 0) e) by (intros k; apply nth_In, Hu).
  assert (Hne' : forall k, In (nth (v k) ne' 0) ne').
  { intros k. unfold ne'. destruct (Nat.eqb_spec (length ne) 0) as [E|E]; apply nth_In; destruct (Hv k) as [H|[H1 H2]]; auto; try lia. apply Hall in H2. contradiction. }
  unfold rand_choice. destruct (Nat.eqb_spec n 0) as [->|Hn].
  { exists []. cbn. split; auto. split; auto. intros i j []. }
  replace (length e =? 0) with false by (symmetry; apply Nat.eqb_neq; intros E; specialize (Hu 0); lia).
  replace (length ne' =? 0) with false by (symmetry; apply Nat.eqb_neq; intros E; apply length_zero_iff_nil in E; specialize (Hne' 0); rewrite E in Hne'; destruct Hne').
  eexists. split; [reflexivity|]. split; [rewrite combine_length, !map_length, seq_length; lia|].
  intros i j Hij. assert (Hi := in_combine_l _ _ _ _ Hij). assert (Hj := in_combine_r _ _ _ _ Hij). apply in_map_iff in Hi as (k & <- & _). apply in_map_iff in Hj as (k' & <- & _).
  specialize (He k). specialize (Hne' k'). apply In_where in He as [He1 He2]. split; auto.
  unfold ne' in *. destruct (Nat.eqb_spec (length ne) 0) as [E|E].
  - apply In_where in Hne' as [G1 G2]. split; auto. split; auto. right. now apply Hall.
  - apply In_where in Hne' as [G1 G2]. split; auto. split; auto. left. now apply negb_true_iff in G2.
Qed.
Print Assumptions C92_selection.
Theorem C92_no_elite : forall types n u v, 1 <= n -> (elite_select types n u v = None <-> forall t, In t types -> t = false).
Proof.
  intros types n u v Hn. unfold elite_select. set (e := where_ (fun i => nth i types false) (length types)). set (ne := where_ (fun i => negb (nth i types true)) (length types)).
  unfold rand_choice. replace (n =? 0) with false by (symmetry; apply Nat.eqb_neq; lia). destruct (Nat.eqb_spec (length e) 0) as [E|E].
  - split; auto. intros _ t Ht. apply (In_nth _ _ false) in Ht as (i & Hi & <-). destruct (nth i types false) eqn:Et; auto. apply length_zero_iff_nil in E. assert (HI : In i e) by (apply In_where; auto). rewrite E in HI. destruct HI.
  - replace (length (if length ne =? 0 then e else ne) =? 0) with false.
    2: { symmetry. apply Nat.eqb_neq. destruct (Nat.eqb_spec (length ne) 0); auto. }
    split; [discriminate|]. intros H. exfalso. apply E. apply length_zero_iff_nil. destruct e as [|i e'] eqn:Ee; auto. exfalso.
    assert (HI : In i (where_ (fun i => nth i types false) (length types))) by (fold e; rewrite Ee; simpl; auto). apply In_where in HI as [H1 H2]. rewrite (H (nth i types false)) in H2; [discriminate|now apply nth_In].
Qed.
Print Assumptions C92_no_elite.

(** the hypotheses are met *)
Definition b_init : list dind := [(1, [5], 0); (2, [4], 2); (3, [9], 0); (4, [5], 0)].
Definition b_gens : list (list dind) := [[(5, [8], 0); (6, [3], 0)]; [(7, [1], 5)]; [(8, [4], 0); (9, [3], 0)]].
Example C92_case :
  (forall x, In x (b_init ++ concat b_gens) -> ind_ok d_obj d_cv 1 x /\ cv_consistent d_cv d_feas x) /\
  elites (brkga_run dd d_obj d_cv d_feas np_argsort np_lex P_Survival4.pr_ref same_obj true 1 2 false b_init b_gens) = [(6, [3], 0); (9, [3], 0)] /\
  elites (brkga_run dd d_obj d_cv d_feas np_argsort np_lex P_Survival4.pr_ref same_obj true 1 2 true b_init b_gens) = [(6, [3], 0); (8, [4], 0)].
Proof.
  split; [|split; vm_compute; reflexivity]. intros x Hx. repeat (destruct Hx as [<-|Hx]; [repeat constructor|]). destruct Hx.
Qed.
Example C92_multi_case : pr_ok 2 P_Survival4.pr_ref /\
  brkga_run dd d_obj d_cv d_feas np_argsort np_lex P_Survival4.pr_ref same_obj false 2 7 false [(1, [1; 5], 0); (2, [3; 3], 0); (3, [4; 4], 0)] [[(4, [2; 3], 0); (5, [5; 1], 0)]]
    = [((1, [1; 5], 0), true); ((2, [3; 3], 0), false); ((4, [2; 3], 0), true); ((5, [5; 1], 0), true)].
Proof. split; [intros F _ HR HM; now apply P_Survival4.pr_ref_ok with 2|vm_compute; reflexivity]. Qed.
Example C92_select_case : elite_select [true; false; true; false] 3 (fun k => k mod 2) (fun k => 1 - k mod 2) = Some [(0, 3); (2, 1); (0, 3)] /\ elite_select [false; false] 1 (fun _ => 0) (fun _ => 0) = None.
Proof. vm_compute. auto. Qed.
