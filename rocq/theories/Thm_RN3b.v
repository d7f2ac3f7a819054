(** * C98: R-NSGA-III, survivors and reported optimum *)
From Coq Require Import List Arith Bool Lia Permutation ZArith QArith Lqa.
From Verif Require Import Flt ListAux NpSort M_NDS M_Survival M_Optimum M_NSGA3 M_Norm S_Pareto S_NDS S_NSGA3 S_Survival P_Peel P_NDS1 P_Survival P_Survival2 P_Survival3 P_Survival4 P_Bounds P_Optimum P_NSGA3 Thm_NSGA3 M_RNSGA3.
Import ListNotations.
Local Open Scope nat_scope.

(** the survivors are those of NSGA-III for the same distances; the optimum only differs when nobody of the first front is closest to a direction somebody is associated with *)
Lemma aspiration_same perm shuf nds n_dirs drow F n : match ref_dir_survival perm shuf nds n_dirs drow F n with
  | None => aspiration_survival perm shuf nds n_dirs drow F n = None
  | Some (V, o) => exists o', aspiration_survival perm shuf nds n_dirs drow F n = Some (V, o') /\ (o' = [] \/ o' = o)
  end.
Proof.
  unfold ref_dir_survival, aspiration_survival. cbv zeta. set (fr := renumber 0 (nds F n)). set (J := concat (nds F n)). set (D := map drow (gather [] F J)).
  set (o := intersect (nth 0 fr []) _).
  assert (G : gather 0 J o = [] \/ gather 0 J o = gather 0 J (if length o =? 0 then nth 0 fr [] else o)) by (destruct o; [left; reflexivity|right; reflexivity]).
  destruct (n <? length J); [|exists (gather 0 J o); auto].
  destruct (niching _ _ _ _ _ _); [|reflexivity]. eexists. split; [reflexivity|exact G].
Qed.
(** C98: what survives: whole fronts before the [r]-th one, and of the [r]-th one everything or a selection that fills the niches (as in C59); nobody of a better front is discarded for one of a worse *)
Theorem C98_survival : forall perm shuf nds n_dirs m drow F n, oracles_ok perm shuf nds n_dirs m drow -> F <> [] -> rect m F -> mat_ok F -> n <= length F ->
  exists S opt full r sel (niche : nat -> nat),
    aspiration_survival perm shuf nds n_dirs drow F n = Some (S, opt) /\ S_Survival.selects (length F) n S /\
    (forall i, i < length F -> niche i < n_dirs /\ forall v, v < n_dirs -> fltb (nth v (drow (nth i F [])) f_nan) (nth (niche i) (drow (nth i F [])) f_nan) = false) /\
    is_peeling (length F) (row_dom F) full /\ r < length full /\ S = concat (firstn r full) ++ sel /\
    (forall i j ri rj, In i S -> j < length F -> ~ In j S -> pareto_rank F i ri -> pareto_rank F j rj -> ri <= rj) /\
    let front := nth r full [] in
    (sel = front \/
     exists P, sel = map (fun p => nth p front 0) P /\
       fills_niches (length front) (fun p => niche (nth p front 0)) (fun p => nth (niche (nth p front 0)) (drow (nth (nth p front 0) F [])) f_nan)
         (fun v => count_occ Nat.eq_dec (map niche (concat (firstn r full))) v) P).
Proof.
  intros perm shuf nds n_dirs m drow F n HO Fne FR FM Fn. pose proof (aspiration_same perm shuf nds n_dirs drow F n) as AS.
  destruct (C59_survival _ _ _ _ _ _ _ _ HO Fne FR FM Fn) as (S & opt & full & r & sel & niche & E & H1 & H2 & H3 & H4 & H5 & H6).
  destruct (C59_ranks _ _ _ _ _ _ _ _ HO Fne FR FM Fn) as (S' & opt' & E' & HR). rewrite E in E'. injection E' as <- <-.
  rewrite E in AS. destruct AS as (o' & EA & _). exists S, o', full, r, sel, niche. auto 10.
Qed.
(** C98: with constraints: feasible ones first, then by violation *)
Definition aspiration_inner {A} (obj : A -> list flt) perm shuf nds n_dirs drow (pop : list A) (n : nat) : list nat :=
  match aspiration_survival perm shuf nds n_dirs drow (map obj pop) n with Some (surv, _) => surv | None => [] end.
Theorem C98_constraints : forall (A : Type) (d : A) cv feas obj asort perm shuf nds n_dirs m drow hc ns (pop : list A),
  asort_ok asort -> oracles_ok perm shuf nds n_dirs m drow -> Forall (fun a => row_ok m (obj a)) pop ->
  let n := Nat.min (match ns with None => length pop | Some n => n end) (length pop) in
  let S := survival_do d cv feas asort (aspiration_inner obj perm shuf nds n_dirs drow) true hc ns pop in
  S_Survival.selects (length pop) n S /\
  (hc = true ->
    (forall i j, In i S -> feas (nth i pop d) = false -> j < length pop -> feas (nth j pop d) = true -> In j S) /\
    (forall i j, In i S -> feas (nth i pop d) = false -> j < length pop -> feas (nth j pop d) = false -> ~ In j S -> fltb (cv (nth j pop d)) (cv (nth i pop d)) = false)).
Proof.
  intros A d cv feas obj asort perm shuf nds n_dirs m drow hc ns pop Ha HO Hw. cbv zeta.
  destruct (survival_do_spec d cv feas asort Ha (fun a => row_ok m (obj a)) (aspiration_inner obj perm shuf nds n_dirs drow) true hc ns pop) as [H1 H2]; auto.
  intros p n Hp Hwf Hn. unfold aspiration_inner. destruct (P_Survival3.rows_ok m obj p Hwf) as [HR HM].
  destruct (C98_survival perm shuf nds n_dirs m drow (map obj p) n HO) as (S & opt & full & r & sel & niche & E & Hsel & _); auto; [destruct p; [congruence|discriminate]|now rewrite map_length|].
  rewrite E. now rewrite map_length in Hsel.
Qed.
(** C98: survival.opt: non-dominated solutions of the merged population, and when it is not empty exactly what NSGA-III would report *)
Theorem C98_survival_opt : forall perm shuf nds n_dirs m drow F n, oracles_ok perm shuf nds n_dirs m drow -> F <> [] -> rect m F -> mat_ok F -> n <= length F ->
  exists S opt, aspiration_survival perm shuf nds n_dirs drow F n = Some (S, opt) /\ (forall x, In x opt -> x < length F /\ forall j, j < length F -> ~ row_dom F j x) /\
    (opt <> [] -> ref_dir_survival perm shuf nds n_dirs drow F n = Some (S, opt)).
Proof.
  intros perm shuf nds n_dirs m drow F n HO Fne FR FM Fn. pose proof (aspiration_same perm shuf nds n_dirs drow F n) as AS.
  destruct (C60_optimum_partial _ _ _ _ _ _ _ _ HO Fne FR FM Fn) as (S & opt & E & O1 & O2). rewrite E in AS. destruct AS as (o' & EA & H). exists S, o'. split; [exact EA|]. split.
  - intros x Hx. destruct H as [-> | ->]; [contradiction|auto].
  - intros N. destruct H as [-> | ->]; [congruence|exact E].
Qed.
(** C98: the report of a generation without any feasible solution: one of least violation; with one: the survival's optimum, or - when that is empty - the report of the generation before *)
Theorem C98_report : forall (A : Type) (d : A) cv feas (pop surv_opt old : list A), pop <> [] -> (forall a, In a pop -> isnan (cv a) = false) ->
  let rep := nsga3_set_optimum d cv feas pop surv_opt old in
  ((forall a, In a pop -> feas a = false) -> exists x, rep = [x] /\ In x pop /\ forall b, In b pop -> fleb (cv x) (cv b) = true) /\
  ((exists a, In a pop /\ feas a = true) -> (surv_opt <> [] -> rep = surv_opt) /\ (surv_opt = [] -> rep = old)).
Proof.
  intros A d cv feas pop surv_opt old Hne Hcv rep. unfold rep, nsga3_set_optimum. split.
  - intros Hno. replace (existsb feas pop) with false by (symmetry; apply not_true_iff_false; intros K; apply existsb_exists in K; destruct K as (a & Ia & Fa); rewrite Hno in Fa; [discriminate|exact Ia]).
    assert (VK : vec_ok (map cv pop)) by (apply Forall_forall; intros z Hz; apply in_map_iff in Hz as (a & <- & Ia); auto).
    destruct (np_argmin_spec (map cv pop)) as [M1 M2]; [destruct pop; [congruence|discriminate]|exact VK|]. rewrite map_length in M1, M2. set (k := np_argmin (map cv pop)) in *.
    assert (KN : forall t, t < length pop -> nth t (map cv pop) f_nan = cv (nth t pop d)) by (intros t Ht; rewrite (nth_indep _ f_nan (cv d)) by (now rewrite map_length); apply map_nth).
    exists (nth k pop d). split; [reflexivity|]. split; [now apply nth_In|]. intros b Ib. destruct (In_nth _ _ d Ib) as (t & Ht & <-). specialize (M2 t Ht). now rewrite !KN in M2.
  - intros EX. replace (existsb feas pop) with true by (symmetry; apply existsb_exists; exact EX). split; [intros N; destruct surv_opt; [congruence|reflexivity]|intros ->; reflexivity].
Qed.
(** distances for which nobody of the first front is closest to the only direction anybody is associated with *)
Definition far_drow (f : list flt) : list flt := if feqb (nth 0 f f_nan) (fz 1) then [fz 5; fz 9] else [fz 1; fz 9].
Definition far_F : fltmat := [[fz 1; fz 1]; [fz 2; fz 2]; [fz 3; fz 3]].
Lemma far_ok : oracles_ok ex_perm ex_shuf ex_nds 2 2 far_drow.
Proof.
  split; [intros; apply Permutation_sym, Permutation_rev|]. split; [intros; apply Permutation_sym, Permutation_rev|].
  split; [apply default_nds_ok; intros; eapply pr_ref_ok; eauto|]. split; [lia|].
  intros f _. unfold far_drow. destruct (feqb _ _); (split; [reflexivity|repeat constructor]).
Qed.
(** C98: the survival's optimum can be empty although there are non-dominated solutions; R-NSGA-III then goes on reporting what it reported before, here a solution dominated by a member of the
    population - or nothing at all, if nothing was reported before *)
Theorem C98_stale_refuted :
  ~ (forall perm shuf nds n_dirs m drow F n S opt old, oracles_ok perm shuf nds n_dirs m drow -> F <> [] -> rect m F -> mat_ok F -> n <= length F ->
     aspiration_survival perm shuf nds n_dirs drow F n = Some (S, opt) ->
     let rep := nsga3_set_optimum [] (fun _ => f_zero) (fun _ => true) (gather [] F S) (gather [] F opt) old in
     rep <> [] /\ forall x s, In x rep -> In s S -> ~ dominates (nth s F []) x).
Proof.
  intros H. assert (E : aspiration_survival ex_perm ex_shuf ex_nds 2 far_drow far_F 2 = Some ([0; 1], [])) by (vm_compute; reflexivity).
  destruct (H ex_perm ex_shuf ex_nds 2 2 far_drow far_F 2 [0; 1] [] [[fz 2; fz 2]] far_ok) as [_ K]; [discriminate|repeat constructor|repeat constructor|cbn; lia|exact E|].
  apply (K [fz 2; fz 2] 0); [now left|now left|]. split; [repeat constructor|]. exists 0, (fz 1), (fz 2). repeat split; reflexivity.
Qed.
Theorem C98_example : oracles_ok ex_perm ex_shuf ex_nds 2 2 ex_drow /\ oracles_ok ex_perm ex_shuf ex_nds 2 2 far_drow /\
  aspiration_survival ex_perm ex_shuf ex_nds 2 ex_drow ex_F 2 = Some ([2; 0], [1; 2]) /\ aspiration_survival ex_perm ex_shuf ex_nds 2 far_drow far_F 2 = Some ([0; 1], []) /\
  nsga3_set_optimum [] (fun _ => f_zero) (fun _ => true) (gather [] far_F [0; 1]) (gather [] far_F []) [] = [].
Proof. split; [apply C59_case|]. split; [exact far_ok|]. vm_compute. auto. Qed.

Local Open Scope Q_scope.
(** C98: ideal and worst value of an objective: extremes of all values seen and of the reference points *)
Definition extremes (l : list Q) (p : Q * Q) : Prop := In (fst p) l /\ In (snd p) l /\ forall x, In x l -> fst p <= x <= snd p.
Lemma points_fold l : forall o seen, match o with None => seen = [] | Some p => extremes seen p end ->
  match fold_left (fun o x => Some (match o with None => (x, x) | Some (lo, hi) => ((if Qle_bool lo x then lo else x), (if Qle_bool x hi then hi else x)) end)) l o with None => seen ++ l = [] | Some p => extremes (seen ++ l) p end.
Proof.
  induction l as [|x l IH]; intros o seen HO; cbn [fold_left]; [rewrite app_nil_r; destruct o; exact HO|].
  replace (seen ++ x :: l) with ((seen ++ [x]) ++ l) by (now rewrite <- app_assoc). apply IH. destruct o as [[lo hi]|]; [|subst seen; split; [now left|split; [now left|intros y [<-|[]]; split; apply Qle_refl]]].
  destruct HO as (H1 & H2 & H3). cbn [fst snd] in *. destruct (Qle_bool lo x) eqn:E1, (Qle_bool x hi) eqn:E2; (split; [|split]); cbn [fst snd]; try (apply in_or_app; auto; now left); try (apply in_or_app; right; now left);
    intros y Hy; apply in_app_or in Hy; (destruct Hy as [Hy|[<-|[]]]; [specialize (H3 y Hy)|specialize (H3 lo H1)]);
    repeat match goal with H : Qle_bool _ _ = true |- _ => apply Qle_bool_iff in H | H : Qle_bool ?a ?b = false |- _ => assert (~ a <= b) by (intros K; apply Qle_bool_iff in K; congruence); clear H end; split; lra.
Qed.
Theorem C98_points : forall gens refs, refs <> [] -> gens <> [] ->
  exists p, fold_left (fun o F => rn3_points o F refs) gens None = Some p /\ extremes (concat gens ++ refs) p.
Proof.
  intros gens refs Hr Hg.
  assert (G : forall gens o seen, match o with None => seen = [] | Some p => extremes seen p end ->
     match fold_left (fun o F => rn3_points o F refs) gens o with None => seen ++ concat (map (fun F => F ++ refs) gens) = [] | Some p => extremes (seen ++ concat (map (fun F => F ++ refs) gens)) p end).
  { clear Hg gens. induction gens as [|F gens IH]; intros o seen HO; cbn [fold_left map concat]; [rewrite app_nil_r; destruct o; exact HO|]. rewrite app_assoc. apply IH. apply (points_fold (F ++ refs)). exact HO. }
  specialize (G gens None [] eq_refl). cbn [app] in G. assert (EQ : forall x, In x (concat (map (fun F => F ++ refs) gens)) <-> In x (concat gens ++ refs)).
  { intros x. rewrite in_app_iff, !in_concat. split.
    - intros (l & Hl & Hx). apply in_map_iff in Hl. destruct Hl as (F & <- & HF). apply in_app_or in Hx. destruct Hx as [Hx|Hx]; [left; exists F; auto|now right].
    - intros [(F & HF & Hx)|Hx]; [exists (F ++ refs); split; [apply in_map_iff; exists F; auto|apply in_or_app; now left]|]. destruct gens as [|F gens]; [congruence|]. exists (F ++ refs). split; [now left|apply in_or_app; now right]. }
  destruct (fold_left (fun o F => rn3_points o F refs) gens None) as [p|].
  - exists p. split; [reflexivity|]. destruct G as (G1 & G2 & G3). split; [now apply EQ|]. split; [now apply EQ|]. intros x Hx. apply G3, EQ, Hx.
  - exfalso. destruct refs as [|y refs]; [congruence|]. assert (K : In y []) by (rewrite <- G; apply EQ, in_or_app; right; now left). exact K.
Qed.
(** C98: when no usable hyperplane exists the nadir point is the worst value of the whole population, dominated solutions included (C61: of the first front, for NSGA-III); where that is too close to the
    ideal point it is the worst of the front, which is not larger *)
Theorem C98_nadir : forall solve extreme ideal worst wpop wfront m, length ideal = m -> length wpop = m -> length wfront = m -> hyperplane_nadir solve extreme ideal worst = None ->
  let nadir := rn3_nadir solve extreme ideal worst wpop wfront in length nadir = m /\
  forall j, (j < m)%nat -> (small < nth j wpop 0 - nth j ideal 0 -> nth j nadir 0 = nth j wpop 0) /\
    (nth j wpop 0 - nth j ideal 0 <= small -> nth j nadir 0 = nth j wfront 0) /\ (nth j wfront 0 <= nth j wpop 0 -> nth j wpop 0 - nth j ideal 0 <= small -> nth j nadir 0 - nth j ideal 0 <= small).
Proof.
  intros solve extreme ideal worst wpop wfront m L1 L2 L3 HN nadir. unfold nadir, rn3_nadir, get_nadir_point. rewrite HN. clear HN nadir.
  set (f := fun (nw : Q * Q) i => if Qle_bool (fst nw - i) small then snd nw else fst nw).
  assert (G : forall m ideal wpop wfront, length ideal = m -> length wpop = m -> length wfront = m -> length (map2 f (combine wpop wfront) ideal) = m /\ forall j, (j < m)%nat -> nth j (map2 f (combine wpop wfront) ideal) 0 = f (nth j wpop 0, nth j wfront 0) (nth j ideal 0)).
  { clear. induction m as [|m IH]; intros [|i ideal] [|p wpop] [|w wfront] L1 L2 L3; try discriminate; [split; [reflexivity|lia]|]. cbn [combine map2 length]. destruct (IH ideal wpop wfront) as [I1 I2]; [cbn in L1; lia|cbn in L2; lia|cbn in L3; lia|]. split; [now f_equal|]. intros [|j] Hj; [reflexivity|]. cbn [nth]. apply I2. lia. }
  destruct (G m ideal wpop wfront L1 L2 L3) as [G1 G2]. split; [exact G1|]. intros j Hj. rewrite (G2 j Hj). unfold f. cbn [fst snd].
  destruct (Qle_bool (nth j wpop 0 - nth j ideal 0) small) eqn:E.
  - apply Qle_bool_iff in E. split; [intros K; exfalso; lra|]. split; [reflexivity|]. intros A B. lra.
  - assert (~ nth j wpop 0 - nth j ideal 0 <= small) by (intros K; apply Qle_bool_iff in K; congruence). split; [reflexivity|]. split; intros; contradiction.
Qed.
(** the fallback depends on a dominated solution: front (1, 1), population worst (9, 9) *)
Theorem C98_nadir_refuted : ~ (forall solve extreme ideal worst wpop wfront j, length ideal = length wpop -> length wfront = length wpop -> hyperplane_nadir solve extreme ideal worst = None ->
  (j < length wpop)%nat -> small < nth j wfront 0 - nth j ideal 0 -> nth j (rn3_nadir solve extreme ideal worst wpop wfront) 0 == nth j wfront 0).
Proof. intros H. specialize (H (fun _ => None) [] [0; 0] [9; 9] [9; 9] [1; 1] 0%nat eq_refl eq_refl eq_refl ltac:(cbn; lia) ltac:(reflexivity)). vm_compute in H. discriminate. Qed.
