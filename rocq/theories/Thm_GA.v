(** * C42: elitism of the genetic algorithm with FitnessSurvival (soo/nonconvex/ga.py, base/genetic.py). *)
From Coq Require Import List Arith Bool Lia Permutation.
From Verif Require Import Flt ListAux NpSort M_NDS M_Survival M_Optimum S_Pareto S_NDS S_Survival S_Optimum P_Dominator P_Optimum Thm_Optimum.
Import ListNotations.
Local Open Scope nat_scope.

(** order of np.lexsort([F, cv]): violation first, then objective *)
Definition pair_lt (a b : flt * flt) : bool := if fltb (fst a) (fst b) then true else if fltb (fst b) (fst a) then false else fltb (snd a) (snd b).
(** contract of np.lexsort, only for keys without NaN *)
Definition key_ok (k : flt * flt) : Prop := isnan (fst k) = false /\ isnan (snd k) = false.
Definition lex_ok (lex : list (flt * flt) -> list nat) : Prop := forall keys, Forall key_ok keys -> is_argsort pair_lt (f_nan, f_nan) keys (lex keys).

Section GA.
  Context {A : Type} (d : A) (obj : A -> list flt) (cv : A -> flt) (feas : A -> bool) (asort : list flt -> list nat) (lex : list (flt * flt) -> list nat) (hc : bool).
  (** survival.do of FitnessSurvival (filter_infeasible = False) *)
  Definition ga_survival (pop : list A) (n : nat) : list nat :=
    survival_do d cv feas asort (fitness_survival obj cv lex) false hc (Some n) pop.
  (** the generations after the initial population; [None]: mating produced nothing *)
  Fixpoint evolve (pop_size : nat) (pop : list A) (offs : list (option (list A))) : list A :=
    match offs with [] => pop | o :: offs => evolve pop_size (ga_advance d ga_survival pop_size pop o) offs end.
  Notation better := (better_than obj cv feas).
  Notation ok := (ind_ok obj cv 1).
  (** how feasibility is defined (Individual): no violation; violations are not negative *)
  Definition cv_consistent (a : A) : Prop := fleb f_zero (cv a) = true /\ feas a = fleb (cv a) f_zero.
  Notation key a := (cv a, nth 0 (obj a) f_nan).
  Definition leq (a b : A) : Prop := pair_lt (key b) (key a) = false.

  Lemma ok_f a : ok a -> isnan (nth 0 (obj a) f_nan) = false.
  Proof. intros [[HL HV] _]. destruct (obj a) as [|u [|? ?]]; try discriminate. inversion HV; auto. Qed.
  Lemma leq_trans a b c : ok a -> ok b -> ok c -> leq a b -> leq b c -> leq a c.
  Proof.
    intros Ha Hb Hc. pose proof (ok_f a Ha). pose proof (ok_f b Hb). pose proof (ok_f c Hc).
    assert (HL : forall x y, ok x -> ok y -> leq x y <-> fltb (cv x) (cv y) = true \/ (feqb (cv x) (cv y) = true /\ fleb (nth 0 (obj x) f_nan) (nth 0 (obj y) f_nan) = true)).
    { clear. intros x y Hx Hy. unfold leq, pair_lt; cbn [fst snd]. pose proof (ok_f x Hx) as Fx. pose proof (ok_f y Hy) as Fy. destruct Hx as [_ Cx], Hy as [_ Cy].
      destruct (flt_total (cv x) (cv y) Cx Cy) as [H|[H|H]].
      - rewrite (flt_asym _ _ H), H. split; auto.
      - assert (H' : feqb (cv y) (cv x) = true) by (now rewrite feq_sym). pose proof (feq_le _ _ H) as L1. pose proof (feq_le _ _ H') as L2.
        rewrite (fle_not_lt _ _ L1), (fle_not_lt _ _ L2), H. split.
        + intros HF. right. split; auto. now apply nlt_le.
        + intros [HF|[_ HF]]; [discriminate|now apply fle_not_lt].
      - rewrite H. split; [discriminate|]. intros [HF|[HF _]]; [rewrite (flt_asym _ _ H) in HF; discriminate|]. apply feq_le, fle_not_lt in HF. congruence. }
    rewrite !HL by auto. intros [H2|[H2 H3]] [H4|[H4 H5]].
    - left. eapply flt_trans; eauto.
    - left. eapply flt_le_trans; eauto. now apply feq_le.
    - left. eapply fle_lt_trans; eauto. now apply feq_le.
    - right. split; [eapply feq_trans|eapply fle_trans]; eauto.
  Qed.
  Lemma leq_refl a : ok a -> leq a a.
  Proof. intros Ha. unfold leq, pair_lt; cbn [fst snd]. now rewrite !flt_irrefl. Qed.
  (** no worse in the lexicographic order implies not beaten *)
  Lemma leq_not_better a b : ok a -> ok b -> cv_consistent a -> cv_consistent b -> leq a b -> ~ better b a.
  Proof.
    intros Ha Hb [Na Fa] [Nb Fb] HL. pose proof (ok_f a Ha) as Va. pose proof (ok_f b Hb) as Vb. unfold leq, pair_lt in HL; cbn [fst snd] in HL.
    intros [[H1 H2]|[(H1 & H2 & H3)|(H1 & H2 & H3)]].
    - rewrite Fb in H1. rewrite Fa in H2. assert (Hlt : fltb (cv b) (cv a) = true).
      { apply fle_lt_trans with f_zero; auto. destruct (fltb f_zero (cv a)) eqn:E; auto. apply nlt_le in E; [congruence|reflexivity|apply Ha]. }
      rewrite Hlt in HL. discriminate.
    - apply dominates_single in H3; try (destruct Ha as [[? ?] _]; auto); try (destruct Hb as [[? ?] _]; auto).
      rewrite Fb in H1. rewrite Fa in H2.
      assert (E1 : fleb (cv b) (cv a) = true) by (eapply fle_trans; eauto). assert (E2 : fleb (cv a) (cv b) = true) by (eapply fle_trans; eauto).
      rewrite (fle_not_lt _ _ E1), (fle_not_lt _ _ E2) in HL. congruence.
    - rewrite H3 in HL. discriminate.
  Qed.

  Lemma ga_step pop_size merged : lex_ok lex -> Forall ok merged -> merged <> [] -> 1 <= pop_size ->
    let new := gather d merged (ga_survival merged pop_size) in
    length new = Nat.min pop_size (length merged) /\ incl new merged /\ exists b, In b new /\ forall x, In x merged -> leq b x.
  Proof.
    intros HL HO Hne HP new. unfold new, ga_survival, survival_do.
    assert (Hlen : length merged <> 0) by (destruct merged; [congruence|discriminate]).
    replace (length merged =? 0) with false by (symmetry; now apply Nat.eqb_neq). cbn [andb].
    unfold fitness_survival. set (keys := map (fun a => key a) merged).
    assert (HK : Forall key_ok keys) by (unfold keys; apply Forall_map; eapply Forall_impl; [|exact HO]; intros a Ha; split; [apply Ha|now apply ok_f]).
    destruct (HL keys HK) as [HPm HS]. set (J := lex keys) in *.
    assert (HkL : length keys = length merged) by (unfold keys; now rewrite map_length). rewrite HkL in HPm.
    assert (HJ : length J = length merged) by (now rewrite (Permutation_length HPm), seq_length).
    assert (Hb : forall i, In i J -> i < length merged) by (intros i Hi; apply (Permutation_in _ HPm) in Hi; apply in_seq in Hi; lia).
    split; [rewrite length_gather, firstn_length, HJ; lia|]. split.
    - intros x Hx. apply in_map_iff in Hx as (i & <- & Hi). apply nth_In, Hb. rewrite <- (firstn_skipn (Nat.min pop_size (length merged)) J). apply in_or_app; auto.
    - destruct J as [|j J'] eqn:EJ; [simpl in HJ; lia|]. exists (nth j merged d).
      destruct (Nat.min pop_size (length merged)) as [|k] eqn:Ek; [lia|]. split; [cbn [firstn gather map]; left; auto|].
      intros x Hx. apply (In_nth _ _ d) in Hx as (i & Hi & <-).
      assert (HI : In i (j :: J')) by (apply (Permutation_in _ (Permutation_sym HPm)), in_seq; lia).
      apply (In_nth _ _ 0) in HI as (q & Hq & Eq).
      assert (HKn : forall i, i < length merged -> nth i keys (f_nan, f_nan) = key (nth i merged d)).
      { intros i' Hi'. unfold keys. rewrite (nth_indep _ _ (key d)) by (now rewrite map_length). apply (map_nth (fun a => key a)). }
      destruct q as [|q].
      + cbn [nth] in Eq. subst i. apply leq_refl. rewrite Forall_forall in HO. apply HO. now apply nth_In.
      + specialize (HS 0 (S q) ltac:(lia) Hq). rewrite Eq in HS. cbn [nth] in HS. unfold leq.
        rewrite !HKn in HS; auto. apply Hb; simpl; auto.
  Qed.

  Definition off_list (o : option (list A)) : list A := match o with None => [] | Some l => l end.
  Lemma evolve_inv pop_size offs : lex_ok lex -> 1 <= pop_size -> forall pop, Forall ok pop -> (forall o, In o offs -> Forall ok (off_list o)) -> pop <> [] ->
    incl (evolve pop_size pop offs) (pop ++ concat (map off_list offs)) /\
    (forall x, In x (pop ++ concat (map off_list offs)) -> exists b, In b (evolve pop_size pop offs) /\ leq b x) /\
    (length pop = pop_size -> length (evolve pop_size pop offs) = pop_size) /\ (length (evolve pop_size pop offs) <= Nat.max (length pop) pop_size).
  Proof.
    intros HL HP. induction offs as [|o offs IH]; intros pop Hok Hoo Hne.
    - cbn [evolve map concat]. rewrite app_nil_r. split; [apply incl_refl|]. split; [|split; [auto|lia]].
      intros x Hx. exists x. split; auto. apply leq_refl. rewrite Forall_forall in Hok. auto.
    - cbn [evolve map concat]. set (M := pop ++ off_list o).
      assert (HM : ga_advance d ga_survival pop_size pop o = gather d M (ga_survival M pop_size)) by (unfold ga_advance, M; destruct o; cbn [off_list]; rewrite ?app_nil_r; auto).
      rewrite HM. assert (HO : Forall ok M) by (apply Forall_app; split; auto; apply Hoo; simpl; auto).
      destruct (ga_step pop_size M HL HO) as (S1 & S2 & b & Hb & Hbx); auto.
      { unfold M. destruct pop; [congruence|discriminate]. }
      set (new := gather d M (ga_survival M pop_size)) in *.
      assert (HOn : Forall ok new) by (apply Forall_forall; intros x Hx; rewrite Forall_forall in HO; auto).
      destruct (IH new) as (I1 & I2 & I3 & I4); auto.
      { intros o' Ho'. apply Hoo; simpl; auto. }
      { intros E. rewrite E in Hb. destruct Hb. }
      assert (HM2 : length M = length pop + length (off_list o)) by apply app_length.
      split.
      + intros x Hx. apply I1 in Hx. apply in_app_or in Hx. rewrite app_assoc. apply in_or_app. destruct Hx as [Hx|Hx]; [left; apply S2; auto|auto].
      + split; [|split; [intros E; apply I3; rewrite S1; lia|lia]].
        intros x Hx. rewrite app_assoc in Hx. apply in_app_or in Hx. destruct Hx as [Hx|Hx]; [|apply I2, in_or_app; auto].
        destruct (I2 b) as (b' & Hb' & HL'); [apply in_or_app; auto|]. exists b'. split; auto.
        assert (Hb'ok : ok b').
        { apply I1, in_app_or in Hb'. destruct Hb' as [Hb'|Hb']; [rewrite Forall_forall in HOn; auto|]. apply in_concat in Hb' as (l & Hl & Hb').
          apply in_map_iff in Hl as (o' & <- & Ho'). assert (HF : Forall ok (off_list o')) by (apply Hoo; simpl; auto). rewrite Forall_forall in HF. auto. }
        apply leq_trans with b; auto; rewrite Forall_forall in HOn, HO; auto.
  Qed.
End GA.

(** C42: over any number of generations, with any offspring: no individual that was ever in the population or among the offspring is better
    than the best one of the current population; only such individuals occur; the population size never changes once it is [pop_size] *)
Theorem C42_elitism : forall (A : Type) (d : A) obj cv feas asort lex hc pop_size (pop : list A) offs,
  lex_ok lex -> 1 <= pop_size -> pop <> [] ->
  (forall x, In x (pop ++ concat (map off_list offs)) -> ind_ok obj cv 1 x /\ cv_consistent cv feas x) ->
  let final := evolve d obj cv feas asort lex hc pop_size pop offs in
  incl final (pop ++ concat (map off_list offs)) /\
  (exists b, In b final /\ forall x, In x (pop ++ concat (map off_list offs)) -> ~ better_than obj cv feas x b) /\
  (length pop = pop_size -> length final = pop_size) /\ length final <= Nat.max (length pop) pop_size.
Proof.
  intros A d obj cv feas asort lex hc ps pop offs HL HP Hne Hall final.
  destruct (evolve_inv d obj cv feas asort lex hc ps offs HL HP pop) as (I1 & I2 & I3 & I4); auto.
  { apply Forall_forall. intros x Hx. apply Hall, in_or_app; auto. }
  { intros o Ho. apply Forall_forall. intros x Hx. apply Hall, in_or_app. right. apply in_concat. exists (off_list o). split; auto. apply in_map; auto. }
  fold final in I1, I2, I3, I4. split; auto. split; [|auto].
  (* the least member of the final population *)
  assert (Hmin : forall l, l <> [] -> incl l (pop ++ concat (map off_list offs)) -> exists b, In b l /\ forall x, In x l -> leq obj cv b x).
  { induction l as [|a l IH]; intros Hl Hin; [congruence|]. destruct l as [|a' l'].
    - exists a. split; [simpl; auto|]. intros x [<-|[]]. apply leq_refl. apply Hall, Hin; simpl; auto.
    - destruct IH as (b & Hb & Hm); [discriminate|intros z Hz; apply Hin; simpl; auto|].
      destruct (pair_lt (cv a, nth 0 (obj a) f_nan) (cv b, nth 0 (obj b) f_nan)) eqn:E.
      + exists a. split; [simpl; auto|]. assert (Hab : leq obj cv a b).
        { unfold leq. unfold pair_lt in *; cbn [fst snd] in *. destruct (fltb (cv a) (cv b)) eqn:E1.
          - now rewrite (flt_asym _ _ E1).
          - destruct (fltb (cv b) (cv a)) eqn:E2; [discriminate|]. now apply flt_asym. }
        intros x [<-|Hx]; [apply leq_refl; apply Hall, Hin; simpl; auto|]. apply leq_trans with b; auto; try (apply Hall, Hin; simpl; auto; fail).
      + exists b. split; [right; auto|]. intros x [<-|Hx]; auto. }
  destruct (Hmin final) as (b & Hb & Hm); auto.
  { destruct pop as [|p0 pop0]; [congruence|]. destruct (I2 p0) as (y & Hy & _); [simpl; auto|]. intros E. rewrite E in Hy. destruct Hy. }
  exists b. split; auto. intros x Hx. destruct (I2 x Hx) as (y & Hy & Hyx).
  apply leq_not_better; try apply Hall; auto. apply leq_trans with y; auto; apply Hall; auto.
Qed.
Print Assumptions C42_elitism.

(** C42: the reported optimum (filter_optimum of the population) never gets worse between two generations *)
Theorem C42_reported_optimum : forall (A : Type) (d : A) obj cv feas asort lex hc pr pop_size (pop : list A) offs o1 o2 x1 x2,
  lex_ok lex -> 1 <= pop_size ->
  (forall x, In x (pop ++ concat (map off_list offs)) -> ind_ok obj cv 1 x /\ cv_consistent cv feas x) ->
  filter_optimum d obj cv feas pr 1 (Some pop) true = Some o1 -> In x1 o1 ->
  filter_optimum d obj cv feas pr 1 (Some (evolve d obj cv feas asort lex hc pop_size pop offs)) true = Some o2 -> In x2 o2 ->
  ~ better_than obj cv feas x1 x2.
Proof.
  intros A d obj cv feas asort lex hc pr ps pop offs o1 o2 x1 x2 HL HP Hall E1 H1 E2 H2.
  assert (Hne : pop <> []) by (intros ->; discriminate).
  destruct (C42_elitism A d obj cv feas asort lex hc ps pop offs HL HP Hne Hall) as (I1 & (b & Hb & HB) & _). cbv zeta in *.
  set (final := evolve d obj cv feas asort lex hc ps pop offs) in *.
  assert (Hspec : forall l o x, (forall z, In z l -> ind_ok obj cv 1 z) -> filter_optimum d obj cv feas pr 1 (Some l) true = Some o -> In x o -> best obj cv feas l x).
  { intros l o x Hl E Hx. destruct (existsb feas l) eqn:EF.
    - assert (Hex : exists a, In a l /\ feas a = true) by (now apply existsb_exists).
      destruct (C40_single A d obj cv feas pr l true) as (y & Ey & Hy & Hf & Hm); auto; [now apply Forall_forall|]. rewrite Ey in E. injection E as <-. destruct Hx as [<-|[]].
      split; auto. intros z Hz [[K1 K2]|[(K1 & K2 & K3)|(K1 & K2 & K3)]]; try congruence.
      specialize (Hm z Hz K1). apply dominates_single in K3; try (apply Hl; auto). apply fle_not_lt in Hm. congruence.
    - rewrite not_existsb in EF. assert (Hln : l <> []) by (intros ->; discriminate).
      destruct (C40_infeasible A d obj cv feas pr 1 l Hln) as [(y & Ey & Hy & Hm) _]; auto; [intros a Ha; apply Hl; auto|]. rewrite Ey in E. injection E as <-. destruct Hx as [<-|[]].
      split; auto. intros z Hz [[K1 K2]|[(K1 & K2 & K3)|(K1 & K2 & K3)]]; try (rewrite EF in K1 by auto; discriminate).
      specialize (Hm z Hz). apply fle_not_lt in Hm. congruence. }
  assert (Hok : forall z, In z final -> ind_ok obj cv 1 z) by (intros z Hz; apply Hall, I1; auto).
  destruct (Hspec final o2 x2 Hok E2 H2) as [H2i H2b].
  destruct (Hspec pop o1 x1) as [H1i _]; auto; [intros z Hz; apply Hall, in_or_app; auto|].
  intros HB12. assert (Hx1 : In x1 (pop ++ concat (map off_list offs))) by (apply in_or_app; auto).
  specialize (HB x1 Hx1). specialize (H2b b Hb).
  (* x1 beats x2, b does not beat x2, x1 does not beat b: impossible in a weak order *)
  destruct (Hall x1 Hx1) as [O1 C1]. destruct (Hall x2 (I1 x2 H2i)) as [O2 C2]. destruct (Hall b (I1 b Hb)) as [Ob Cb].
  pose proof (ok_f obj cv x1 O1) as F1. pose proof (ok_f obj cv x2 O2) as F2. pose proof (ok_f obj cv b Ob) as Fb.
  assert (DS : forall a c, ind_ok obj cv 1 a -> ind_ok obj cv 1 c -> (dominates (obj a) (obj c) <-> fltb (nth 0 (obj a) f_nan) (nth 0 (obj c) f_nan) = true)).
  { intros a c [[? ?] _] [[? ?] _]. apply dominates_single; auto. }
  destruct HB12 as [[K1 K2]|[(K1 & K2 & K3)|(K1 & K2 & K3)]].
  - destruct (feas b) eqn:Eb; [apply H2b; left; auto|apply HB; left; auto].
  - destruct (feas b) eqn:Eb; [|apply HB; left; auto]. apply DS in K3; auto. apply H2b. right; left. split; auto. split; auto. apply DS; auto.
    apply fle_lt_trans with (nth 0 (obj x1) f_nan); auto. apply nlt_le; auto. destruct (fltb (nth 0 (obj x1) f_nan) (nth 0 (obj b) f_nan)) eqn:E; auto. exfalso. apply HB. right; left. split; auto. split; auto. apply DS; auto.
  - destruct (feas b) eqn:Eb; [apply H2b; left; auto|]. apply H2b. right; right. split; auto. split; auto.
    apply fle_lt_trans with (cv x1); auto. apply nlt_le; [apply O1|apply Ob|]. destruct (fltb (cv x1) (cv b)) eqn:E; auto. exfalso. apply HB. right; right. auto.
Qed.
Print Assumptions C42_reported_optimum.

(** the hypotheses are met: numpy's lexicographic sort (NaN last), and two generations from an infeasible population *)
Definition np_pair_lt (a b : flt * flt) : bool := nplt (fst a) (fst b) || (negb (nplt (fst b) (fst a)) && nplt (snd a) (snd b)).
Definition np_lex : list (flt * flt) -> list nat := argsort np_pair_lt (f_nan, f_nan).
Lemma np_pair_false x y : np_pair_lt x y = false <-> nplt (fst x) (fst y) = false /\ (nplt (fst y) (fst x) = false -> nplt (snd x) (snd y) = false).
Proof. unfold np_pair_lt. rewrite orb_false_iff, andb_false_iff, negb_false_iff. destruct (nplt (fst y) (fst x)); intuition congruence. Qed.
Lemma np_lex_ok : lex_ok np_lex.
Proof.
  intros keys HK. assert (HA : is_argsort np_pair_lt (f_nan, f_nan) keys (np_lex keys)); [apply argsort_is_argsort|destruct HA as [H1 H2]].
  - intros x y H. apply np_pair_false. unfold np_pair_lt in H. rewrite orb_true_iff, andb_true_iff, negb_true_iff in H. destruct H as [H|[H H']].
    + rewrite (nplt_asym _ _ H). split; auto. congruence.
    + split; auto. intros _. now apply nplt_asym.
  - intros x y z _ _ _. rewrite !np_pair_false. intros [Ha Hb] [Hc Hd]. split; [eapply nplt_nlt_trans; eauto|].
    intros He. assert (E1 : nplt (fst x) (fst y) = false) by (exact (nplt_nlt_trans _ _ _ Hc He)).
    assert (E2 : nplt (fst y) (fst z) = false) by (exact (nplt_nlt_trans _ _ _ He Ha)).
    eapply nplt_nlt_trans; eauto.
  - split; auto. intros p q Hpq Hq. specialize (H2 p q Hpq Hq). apply np_pair_false in H2.
    assert (HN : forall i, i < length (argsort np_pair_lt (f_nan, f_nan) keys) -> key_ok (nth (nth i (argsort np_pair_lt (f_nan, f_nan) keys) 0) keys (f_nan, f_nan))).
    { intros i Hi. rewrite Forall_forall in HK. apply HK, nth_In. apply (perm_seq_In _ _ _ H1). now apply nth_In. }
    pose proof (HN p ltac:(unfold np_lex in Hq; lia)) as [Kp1 Kp2]. pose proof (HN q Hq) as [Kq1 Kq2]. unfold np_lex in *.
    set (a := nth (nth p _ _) _ _) in *. set (b := nth (nth q _ _) _ _) in *.
    destruct H2 as [H2 H3]. unfold nplt in H2, H3. rewrite Kp1, Kp2, Kq1, ?Kq2 in *. cbn [negb andb] in *. rewrite !orb_false_r in *.
    unfold pair_lt. rewrite H2. destruct (fltb (fst a) (fst b)) eqn:E; auto.
Qed.

Definition ga_pop : list dind := [(1, [5], 3); (2, [4], 2); (3, [9], 7)].
Definition ga_offs : list (option (list dind)) := [Some [(4, [8], 0); (5, [1], 2)]; None; Some [(6, [7], 0); (7, [2], 1); (8, [8], 0)]].
Example C42_case : lex_ok np_lex /\ (forall x, In x (ga_pop ++ concat (map off_list ga_offs)) -> ind_ok d_obj d_cv 1 x /\ cv_consistent d_cv d_feas x) /\
  evolve dd d_obj d_cv d_feas np_argsort np_lex true 3 ga_pop [Some [(4, [8], 0); (5, [1], 2)]] = [(4, [8], 0); (5, [1], 2); (2, [4], 2)] /\
  evolve dd d_obj d_cv d_feas np_argsort np_lex true 3 ga_pop ga_offs = [(6, [7], 0); (4, [8], 0); (8, [8], 0)].
Proof.
  split; [apply np_lex_ok|]. split; [|split; vm_compute; reflexivity].
  intros x Hx. repeat (destruct Hx as [<-|Hx]; [repeat constructor|]). destruct Hx.
Qed.
