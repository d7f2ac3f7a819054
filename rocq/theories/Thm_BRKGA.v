(** * C92: elites of BRKGA and the best solution of G3PCX *)
From Coq Require Import List Arith Bool Lia Permutation Relations.
From Verif Require Import Flt ListAux NpSort M_NDS M_Duplicate M_Survival M_Optimum M_BRKGA S_Pareto S_NDS S_Survival S_Optimum P_Dominator P_Duplicate P_Optimum Thm_Duplicate Thm_Optimum Thm_GA Thm_ES.
Import ListNotations.
Local Open Scope nat_scope.

(** ** lists *)
Lemma perm_four {A} (a : list A) : forall b c e, Permutation (a ++ b) (c ++ e) ->
  exists a1 a2 b1 b2, Permutation a (a1 ++ a2) /\ Permutation b (b1 ++ b2) /\ Permutation c (a1 ++ b1) /\ Permutation e (a2 ++ b2).
Proof.
  induction a as [|x a IH]; intros b c e H.
  - exists [], [], c, e. cbn in *. auto.
  - assert (HI : In x (c ++ e)) by (apply (Permutation_in _ H); simpl; auto). apply in_app_or in HI as [HI|HI]; apply in_split in HI as (l1 & l2 & ->).
    + assert (H' : Permutation (a ++ b) ((l1 ++ l2) ++ e)).
      { apply (Permutation_cons_inv (a := x)). cbn [app] in H. rewrite H. rewrite <- !app_assoc. cbn [app]. symmetry. apply Permutation_middle. }
      destruct (IH _ _ _ H') as (a1 & a2 & b1 & b2 & P1 & P2 & P3 & P4). exists (x :: a1), a2, b1, b2. cbn [app]. repeat split; auto.
      rewrite <- Permutation_middle. now constructor.
    + assert (H' : Permutation (a ++ b) (c ++ (l1 ++ l2))).
      { apply (Permutation_cons_inv (a := x)). cbn [app] in H. rewrite H. rewrite !app_assoc. symmetry. apply Permutation_middle. }
      destruct (IH _ _ _ H') as (a1 & a2 & b1 & b2 & P1 & P2 & P3 & P4). exists a1, (x :: a2), b1, b2. cbn [app]. repeat split; auto.
      * rewrite <- Permutation_middle. now constructor.
      * rewrite <- Permutation_middle. now constructor.
Qed.

Section Fit.
  Context {A : Type} (d : A) (obj : A -> list flt) (cv : A -> flt) (feas : A -> bool) (asort : list flt -> list nat) (lex : list (flt * flt) -> list nat) (hc : bool).
  Notation ok := (ind_ok obj cv 1).
  Notation leq := (leq obj cv).
  Notation better := (better_than obj cv feas).
  Notation surv := (survival_do d cv feas asort (fitness_survival obj cv lex) false hc).

  (** what FitnessSurvival().do returns: the first [n] of the population in increasing order *)
  Lemma fit_sorted pop : lex_ok lex -> Forall ok pop ->
    exists s, Permutation pop s /\ (forall p q, p < q < length s -> leq (nth p s d) (nth q s d)) /\ forall n, gather d pop (surv (Some n) pop) = firstn n s.
  Proof.
    intros HL HO. destruct pop as [|p0 pop0] eqn:Ep.
    { exists []. split; [constructor|]. split; [simpl; lia|]. intros n. unfold survival_do. cbn. now rewrite firstn_nil. }
    rewrite <- Ep in *. assert (Hlen : length pop <> 0) by (rewrite Ep; discriminate). clear Ep p0 pop0.
    set (keys := map (fun a => (cv a, nth 0 (obj a) f_nan)) pop).
    assert (HK : Forall key_ok keys) by (unfold keys; apply Forall_map; eapply Forall_impl; [|exact HO]; intros a Ha; split; [apply Ha|now apply ok_f with cv]).
    destruct (HL keys HK) as [HPm HS]. set (J := lex keys) in *.
    assert (HkL : length keys = length pop) by (unfold keys; now rewrite map_length). rewrite HkL in HPm.
    assert (HJ : length J = length pop) by (now rewrite (Permutation_length HPm), seq_length).
    assert (Hb : forall i, In i J -> i < length pop) by (intros i Hi; apply (Permutation_in _ HPm) in Hi; apply in_seq in Hi; lia).
    assert (HKn : forall i, i < length pop -> nth i keys (f_nan, f_nan) = (cv (nth i pop d), nth 0 (obj (nth i pop d)) f_nan)).
    { intros i' Hi'. unfold keys. rewrite (nth_indep _ _ (cv d, nth 0 (obj d) f_nan)) by (now rewrite map_length). apply (map_nth (fun a => (cv a, nth 0 (obj a) f_nan))). }
    exists (gather d pop J). split.
    { symmetry. transitivity (gather d pop (seq 0 (length pop))); [unfold gather; now apply Permutation_map|]. now rewrite gather_seq. }
    split.
    - intros p q [Hpq Hq]. rewrite length_gather in Hq. rewrite !nth_gather by (rewrite ?length_gather; lia).
      specialize (HS p q Hpq Hq). rewrite !HKn in HS; auto; apply Hb, nth_In; lia.
    - intros n. unfold survival_do. replace (length pop =? 0) with false by (symmetry; now apply Nat.eqb_neq). cbn [andb].
      unfold fitness_survival. fold keys. fold J. unfold gather. rewrite <- firstn_map. rewrite <- HJ at 1.
      replace (length J) with (length (map (fun i => nth i pop d) J)) by apply map_length.
      destruct (Nat.le_gt_cases n (length (map (fun i => nth i pop d) J))); [now rewrite Nat.min_l|]. rewrite Nat.min_r by lia. now rewrite !firstn_all2 by lia.
  Qed.

  Notation split_single := (split_single d obj cv feas asort lex hc).
  Lemma elites_app (st st' : list (A * bool)) : elites (st ++ st') = elites st ++ elites st'.
  Proof. unfold elites. rewrite filter_app. apply map_app. Qed.
  Lemma non_elites_app (st st' : list (A * bool)) : non_elites (st ++ st') = non_elites st ++ non_elites st'.
  Proof. unfold non_elites. rewrite filter_app. apply map_app. Qed.
  Lemma elites_true (l : list A) : elites (map (fun a => (a, true)) l) = l /\ non_elites (map (fun a => (a, true)) l) = [].
  Proof. induction l as [|a l [H1 H2]]; [auto|]. unfold elites, non_elites in *. cbn. now rewrite H1, H2. Qed.
  Lemma elites_false (l : list A) : elites (map (fun a => (a, false)) l) = [] /\ non_elites (map (fun a => (a, false)) l) = l.
  Proof. induction l as [|a l [H1 H2]]; [auto|]. unfold elites, non_elites in *. cbn. now rewrite H1, H2. Qed.

  Lemma split_single_spec n pop : lex_ok lex -> Forall ok pop ->
    exists s, Permutation pop s /\ (forall p q, p < q < length s -> leq (nth p s d) (nth q s d)) /\
      map fst (split_single n pop) = s /\ elites (split_single n pop) = firstn n s /\ non_elites (split_single n pop) = skipn n s.
  Proof.
    intros HL HO. destruct (fit_sorted pop HL HO) as (s & Hp & Hs & Hn). exists s. split; auto. split; auto.
    unfold M_BRKGA.split_single. rewrite Hn. rewrite (Permutation_length Hp), firstn_all. rewrite map_app, !map_map. cbn [fst]. rewrite !map_id.
    rewrite elites_app, non_elites_app. destruct (elites_true (firstn n s)) as [-> ->]. destruct (elites_false (skipn n s)) as [-> ->]. rewrite app_nil_r. cbn [app].
    split; [apply firstn_skipn|auto].
  Qed.
  (** positions p < n <= q *)
  Lemma split_leq n s e x : (forall p q, p < q < length s -> leq (nth p s d) (nth q s d)) -> In e (firstn n s) -> In x (skipn n s) -> leq e x.
  Proof.
    intros Hs He Hx. apply (In_nth _ _ d) in He as (p & Hp & <-). apply (In_nth _ _ d) in Hx as (q & Hq & <-). rewrite firstn_length in Hp. rewrite skipn_length in Hq.
    replace (nth p (firstn n s) d) with (nth p s d). replace (nth q (skipn n s) d) with (nth (n + q) s d). apply Hs; lia.
    - rewrite <- (firstn_skipn n s) at 1. rewrite app_nth2; rewrite firstn_length; [f_equal; lia|lia].
    - rewrite <- (firstn_skipn n s) at 1. rewrite app_nth1; [auto|rewrite firstn_length; lia].
  Qed.

  (** ** the single-objective history without duplicate elimination *)
  Notation run := (brkga_run d obj cv feas asort lex).
  Lemma single_step pr close n pop : lex_ok lex -> Forall ok pop ->
    let st := elite_survival d obj cv feas asort lex pr close hc 1 n false pop in
    Permutation pop (elites st ++ non_elites st) /\ map fst st = elites st ++ non_elites st /\ length (elites st) = Nat.min n (length pop) /\ forall e x, In e (elites st) -> In x (non_elites st) -> leq e x.
  Proof.
    intros HL HO st. unfold st, elite_survival, elite_dedup. destruct (length pop =? 0) eqn:E0.
    { apply Nat.eqb_eq in E0. destruct pop; [|discriminate]. cbn. repeat split; auto. lia. intros e x []. }
    cbn [Nat.eqb]. destruct (split_single_spec n pop HL HO) as (s & Hp & Hs & -> & -> & ->). rewrite firstn_skipn. split; auto. split; auto. split.
    - rewrite firstn_length. now rewrite (Permutation_length Hp).
    - intros e x. now apply split_leq.
  Qed.
  Lemma keep_best n seen infills (E R E' R' : list A) : (forall x, In x (seen ++ infills) -> ok x) ->
    Permutation seen (E ++ R) -> length E = Nat.min n (length seen) -> (forall e x, In e E -> In x R -> leq e x) ->
    Permutation (E ++ infills) (E' ++ R') -> length E' = Nat.min n (length (E ++ infills)) -> (forall e x, In e E' -> In x R' -> leq e x) ->
    Permutation (seen ++ infills) (E' ++ R' ++ R) /\ length E' = Nat.min n (length (seen ++ infills)) /\ forall e x, In e E' -> In x (R' ++ R) -> leq e x.
  Proof.
    intros Hok P1 L1 B1 P2 L2 B2. rewrite app_length in *. pose proof (Permutation_length P1) as Q1. pose proof (Permutation_length P2) as Q2. rewrite !app_length in *. split; [|split; [lia|]].
    - rewrite P1. rewrite app_assoc, <- P2. rewrite <- !app_assoc. apply Permutation_app_head, Permutation_app_comm.
    - intros e x He Hx. apply in_app_or in Hx as [Hx|Hx]; [auto|].
      destruct (perm_four _ _ _ _ P2) as (a1 & a2 & b1 & b2 & F1 & F2 & F3 & F4).
      apply Permutation_length in F1 as G1. apply Permutation_length in F3 as G3. rewrite app_length in G1, G3.
      apply (Permutation_in _ F3) in He as He'. apply in_app_or in He' as [He'|He'].
      + apply B1; auto. apply (Permutation_in _ (Permutation_sym F1)), in_or_app. auto.
      + assert (Hl : length b1 <> 0) by (destruct b1; [destruct He'|discriminate]). assert (HR : length R <> 0) by (destruct R; [destruct Hx|discriminate]).
        destruct a2 as [|y a2]; [simpl in *; lia|].
        assert (HyE : In y E) by (apply (Permutation_in _ (Permutation_sym F1)), in_or_app; simpl; auto).
        assert (HyR : In y R') by (apply (Permutation_in _ (Permutation_sym F4)); simpl; auto).
        apply leq_trans with y; auto; apply Hok.
        * assert (Hi : In e (E ++ infills)) by (apply (Permutation_in _ (Permutation_sym P2)), in_or_app; auto).
          apply in_app_or in Hi as [Hi|Hi]; apply in_or_app; auto. left. apply (Permutation_in _ (Permutation_sym P1)), in_or_app; auto.
        * apply in_or_app; left. apply (Permutation_in _ (Permutation_sym P1)), in_or_app; auto.
        * apply in_or_app; left. apply (Permutation_in _ (Permutation_sym P1)), in_or_app; auto.
  Qed.
  Lemma run_best pr close n gens : lex_ok lex -> forall st seen R, (forall x, In x (seen ++ concat gens) -> ok x) ->
    Permutation seen (elites st ++ R) -> length (elites st) = Nat.min n (length seen) -> (forall e x, In e (elites st) -> In x R -> leq e x) ->
    let final := fold_left (fun st infills => brkga_advance d obj cv feas asort lex pr close hc 1 n false st infills) gens st in
    exists R', Permutation (seen ++ concat gens) (elites final ++ R') /\ length (elites final) = Nat.min n (length (seen ++ concat gens)) /\ forall e x, In e (elites final) -> In x R' -> leq e x.
  Proof.
    intros HL. induction gens as [|g gens IH]; intros st seen R Hok P1 L1 B1; cbn [fold_left concat].
    { rewrite app_nil_r. exists R. auto. }
    rewrite app_assoc. assert (Hok' : forall x, In x (seen ++ g) -> ok x) by (intros x Hx; apply Hok; cbn [concat]; rewrite app_assoc; apply in_or_app; auto).
    destruct (single_step pr close n (elites st ++ g) HL) as (S1 & _ & S3 & S4).
    { apply Forall_forall. intros x Hx. apply Hok'. apply in_app_or in Hx as [Hx|Hx]; apply in_or_app; auto. left. apply (Permutation_in _ (Permutation_sym P1)), in_or_app; auto. }
    destruct (keep_best n seen g (elites st) R _ _ Hok' P1 L1 B1 S1 S3 S4) as (K1 & K2 & K3).
    eapply IH; eauto. intros x Hx. apply Hok. cbn [concat]. now rewrite app_assoc.
  Qed.
End Fit.

(** C92: a single-objective survival of BRKGA keeps every solution, marks exactly the first n_elites (or all) as elite, and no other member beats an elite *)
Theorem C92_elites : forall (A : Type) (d : A) obj cv feas asort lex pr close hc n (pop : list A),
  lex_ok lex -> (forall x, In x pop -> ind_ok obj cv 1 x /\ cv_consistent cv feas x) ->
  let st := elite_survival d obj cv feas asort lex pr close hc 1 n false pop in
  Permutation pop (map fst st) /\ map fst st = elites st ++ non_elites st /\ length (elites st) = Nat.min n (length pop) /\
  forall e x, In e (elites st) -> In x (non_elites st) -> ~ better_than obj cv feas x e.
Proof.
  intros A d obj cv feas asort lex pr close hc n pop HL Hok st.
  destruct (single_step d obj cv feas asort lex hc pr close n pop HL) as (S1 & S2 & S3 & S4); [apply Forall_forall; intros; now apply Hok|]. fold st in S1, S2, S3, S4.
  rewrite S2. split; auto. split; auto. split; auto. intros e x He Hx.
  apply leq_not_better; try (apply Hok, (Permutation_in _ (Permutation_sym S1)), in_or_app; auto). now apply S4.
Qed.
Print Assumptions C92_elites.

(** C92: over any number of generations the elites are n_elites best solutions of everything evaluated so far: the rest of the history beats none of them *)
Theorem C92_history : forall (A : Type) (d : A) obj cv feas asort lex pr close hc n (init : list A) gens,
  lex_ok lex -> (forall x, In x (init ++ concat gens) -> ind_ok obj cv 1 x /\ cv_consistent cv feas x) ->
  let final := brkga_run d obj cv feas asort lex pr close hc 1 n false init gens in
  exists rest, Permutation (init ++ concat gens) (elites final ++ rest) /\ length (elites final) = Nat.min n (length (init ++ concat gens)) /\
    forall e x, In e (elites final) -> In x rest -> ~ better_than obj cv feas x e.
Proof.
  intros A d obj cv feas asort lex pr close hc n init gens HL Hok final.
  destruct (single_step d obj cv feas asort lex hc pr close n init HL) as (S1 & _ & S3 & S4); [apply Forall_forall; intros; apply Hok, in_or_app; auto|].
  destruct (run_best d obj cv feas asort lex hc pr close n gens HL _ init _ (fun x Hx => proj1 (Hok x Hx)) S1 S3 S4) as (R & P & L & B).
  exists R. fold final. change (fold_left _ gens _) with final in P, L, B. split; auto. split; auto. intros e x He Hx.
  apply leq_not_better; try (apply Hok, (Permutation_in _ (Permutation_sym P)), in_or_app; auto). now apply B.
Qed.
Print Assumptions C92_history.
