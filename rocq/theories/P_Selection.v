(** * Proofs for M_Selection: tournaments *)
From Coq Require Import List Arith Bool ZArith Lia Permutation.
From Verif Require Import Flt ListAux M_Dominator S_Pareto P_Dominator M_Selection S_Selection S_Cross P_Perm P_Cross.
Import ListNotations.
Local Open Scope nat_scope.

Lemma fltb_asym' x y : fltb x y = true -> fltb y x = true -> False.
Proof. intros H1 H2. rewrite (flt_asym _ _ H1) in H2. discriminate. Qed.

Lemma compare_less a x b y r coin : compare_ false a x b y r coin =
  if fltb x y then Some a else if fltb y x then Some b else if r then Some (if coin then b else a) else None.
Proof. reflexivity. Qed.
Lemma compare_more a x b y r coin : compare_ true a x b y r coin =
  if fltb y x then Some a else if fltb x y then Some b else if r then Some (if coin then b else a) else None.
Proof. reflexivity. Qed.

Ltac coin_tac := match goal with |- context [if ?c then ?b else ?a] => destruct c end.

Lemma cv_part pop a b c1 : exists w, by_cv pop a b c1 = Some w /\ (w = a \/ w = b) /\
  (fltb (t_cv (pop a)) (t_cv (pop b)) = true -> w = a) /\ (fltb (t_cv (pop b)) (t_cv (pop a)) = true -> w = b).
Proof.
  unfold by_cv. rewrite compare_less. destruct (fltb (t_cv (pop a)) (t_cv (pop b))) eqn:E1.
  - exists a. repeat split; auto. intros E2. exfalso; eapply fltb_asym'; eauto.
  - destruct (fltb (t_cv (pop b)) (t_cv (pop a))) eqn:E2.
    + exists b. repeat split; auto. discriminate.
    + exists (if c1 then b else a). repeat split; [destruct c1; auto|discriminate|discriminate].
Qed.

(** the generic shape of all constraint-first tournaments *)
Lemma cv_first_implements (t : (nat -> tind) -> nat -> nat -> bool -> bool -> option nat) (rest : (nat -> tind) -> nat -> nat -> bool -> bool -> option nat) R ok :
  (forall pop a b c1 c2, t pop a b c1 c2 = if some_infeasible (pop a) (pop b) then by_cv pop a b c1 else rest pop a b c1 c2) ->
  implements rest R ok -> implements t (cv_first R) ok.
Proof.
  intros Ht HR pop a b c1 c2 Hok. rewrite Ht. unfold some_infeasible, cv_first, infeasible.
  destruct (fltb f_zero (t_cv (pop a)) || fltb f_zero (t_cv (pop b))) eqn:E.
  - destruct (cv_part pop a b c1) as (w & Hw & Hin & H1 & H2). exists w. repeat split; auto.
    + intros [[_ H]|(N1 & N2 & _)]; auto. exfalso. apply orb_true_iff in E. tauto.
    + intros [[_ H]|(N1 & N2 & _)]; auto. exfalso. apply orb_true_iff in E. tauto.
  - destruct (HR pop a b c1 c2 Hok) as (w & Hw & Hin & H1 & H2). exists w. repeat split; auto.
    + apply orb_false_iff in E as [E1 E2]. intros [[[C|C] _]|(_ & _ & H)]; auto; congruence.
    + apply orb_false_iff in E as [E1 E2]. intros [[[C|C] _]|(_ & _ & H)]; auto; congruence.
Qed.

Lemma less_implements f : implements (fun pop a b c1 c2 => compare_ false a (f (pop a)) b (f (pop b)) true c2) (less f) any.
Proof.
  intros pop a b c1 c2 _. rewrite compare_less. unfold less. destruct (fltb (f (pop a)) (f (pop b))) eqn:E1.
  - exists a. repeat split; auto. intros E2. exfalso; eapply fltb_asym'; eauto.
  - destruct (fltb (f (pop b)) (f (pop a))) eqn:E2.
    + exists b. repeat split; auto. discriminate.
    + exists (if c2 then b else a). repeat split; [destruct c2; auto|discriminate|discriminate].
Qed.
Lemma more_implements f : implements (fun pop a b c1 c2 => compare_ true a (f (pop a)) b (f (pop b)) true c2) (more f) any.
Proof.
  intros pop a b c1 c2 _. rewrite compare_more. unfold more. destruct (fltb (f (pop b)) (f (pop a))) eqn:E1.
  - exists a. repeat split; auto. intros E2. exfalso; eapply fltb_asym'; eauto.
  - destruct (fltb (f (pop a)) (f (pop b))) eqn:E2.
    + exists b. repeat split; auto. discriminate.
    + exists (if c2 then b else a). repeat split; [destruct c2; auto|discriminate|discriminate].
Qed.
(** an undecided first criterion followed by a second one *)
Lemma then_implements (first : (nat -> tind) -> nat -> nat -> bool -> bool -> option nat) second R S (ok : tind -> tind -> Prop) :
  (forall pop a b c1 c2, ok (pop a) (pop b) ->
     (first pop a b c1 c2 = Some a /\ R (pop a) (pop b) /\ ~ R (pop b) (pop a)) \/
     (first pop a b c1 c2 = Some b /\ R (pop b) (pop a) /\ ~ R (pop a) (pop b)) \/
     (first pop a b c1 c2 = None /\ ~ R (pop a) (pop b) /\ ~ R (pop b) (pop a))) ->
  implements second S ok ->
  implements (fun pop a b c1 c2 => match first pop a b c1 c2 with Some w => Some w | None => second pop a b c1 c2 end) (then_ R S) ok.
Proof.
  intros HF HS pop a b c1 c2 Hok. unfold then_. destruct (HF pop a b c1 c2 Hok) as [(E & R1 & R2)|[(E & R1 & R2)|(E & R1 & R2)]]; rewrite E.
  - exists a. repeat split; auto. intros [H|(N1 & N2 & _)]; tauto.
  - exists b. repeat split; auto. intros [H|(N1 & N2 & _)]; tauto.
  - destruct (HS pop a b c1 c2 Hok) as (w & Hw & Hin & H1 & H2). exists w. repeat split; auto; intros [H|(_ & _ & H)]; tauto.
Qed.
Lemma less_first f : forall (pop : nat -> tind) a b (c1 c2 : bool), any (pop a) (pop b) ->
  (compare_ false a (f (pop a)) b (f (pop b)) false c2 = Some a /\ less f (pop a) (pop b) /\ ~ less f (pop b) (pop a)) \/
  (compare_ false a (f (pop a)) b (f (pop b)) false c2 = Some b /\ less f (pop b) (pop a) /\ ~ less f (pop a) (pop b)) \/
  (compare_ false a (f (pop a)) b (f (pop b)) false c2 = None /\ ~ less f (pop a) (pop b) /\ ~ less f (pop b) (pop a)).
Proof.
  intros pop a b c1 c2 _. rewrite compare_less. unfold less. destruct (fltb (f (pop a)) (f (pop b))) eqn:E1.
  - left. repeat split; auto. intros E2. eapply fltb_asym'; eauto.
  - destruct (fltb (f (pop b)) (f (pop a))) eqn:E2; [right; left|right; right]; repeat split; auto; discriminate.
Qed.
Definition dom_choice (pop : nat -> tind) (a b : nat) (c1 c2 : bool) : option nat :=
  let rel := get_relation (t_F (pop a)) (t_F (pop b)) None None in
  if Z.eqb rel 1 then Some a else if Z.eqb rel (-1) then Some b else None.
Lemma dom_first : forall pop a b c1 c2, comparable (pop a) (pop b) ->
  (dom_choice pop a b c1 c2 = Some a /\ dom (pop a) (pop b) /\ ~ dom (pop b) (pop a)) \/
  (dom_choice pop a b c1 c2 = Some b /\ dom (pop b) (pop a) /\ ~ dom (pop a) (pop b)) \/
  (dom_choice pop a b c1 c2 = None /\ ~ dom (pop a) (pop b) /\ ~ dom (pop b) (pop a)).
Proof.
  intros pop a b c1 c2 (HL & H1 & H2). unfold dom_choice, dom. cbv zeta.
  destruct (get_relation_obj_spec (t_F (pop a)) (t_F (pop b)) H1 H2 HL) as (G1 & G2 & G3).
  destruct (get_relation_range (t_F (pop a)) (t_F (pop b)) None None) as [E|[E|E]]; rewrite E in *; simpl.
  - right; right. assert (H := proj1 G3 eq_refl). tauto.
  - left. assert (H := proj1 G1 eq_refl). split; [reflexivity|]. split; [exact H|]. apply dominates_asym; exact H.
  - right; left. assert (H := proj1 G2 eq_refl). split; [reflexivity|]. split; [exact H|]. apply dominates_asym; exact H.
Qed.
Lemma random_implements : implements (fun pop a b c1 c2 => Some (if c2 then b else a)) never any.
Proof. intros pop a b c1 c2 _. exists (if c2 then b else a). repeat split; [destruct c2; auto|intros []|intros []]. Qed.
Lemma implements_weaken t R (ok ok' : tind -> tind -> Prop) : (forall x y, ok' x y -> ok x y) -> implements t R ok -> implements t R ok'.
Proof. intros H HI pop a b c1 c2 Hok. apply HI; auto. Qed.
Lemma implements_ext t t' R ok : (forall pop a b c1 c2, t pop a b c1 c2 = t' pop a b c1 c2) -> implements t R ok -> implements t' R ok.
Proof. intros H HI pop a b c1 c2 Hok. rewrite <- H. apply HI; auto. Qed.
Lemma implements_sub t (R R' : tind -> tind -> Prop) ok : (forall x y, R' x y -> R x y) -> implements t R ok -> implements t R' ok.
Proof. intros H HI pop a b c1 c2 Hok. destruct (HI pop a b c1 c2 Hok) as (w & ? & ? & ? & ?). exists w. repeat split; auto. Qed.

Lemma nsga2_rank_ok : implements (binary_tournament false) (cv_first (then_ (less t_rank) (more t_crowding))) any.
Proof.
  apply cv_first_implements with (rest := fun pop a b c1 c2 => match compare_ false a (t_rank (pop a)) b (t_rank (pop b)) false c2 with
    Some w => Some w | None => compare_ true a (t_crowding (pop a)) b (t_crowding (pop b)) true c2 end); [reflexivity|].
  apply (then_implements (fun pop a b c1 c2 => compare_ false a (t_rank (pop a)) b (t_rank (pop b)) false c2)
           (fun pop a b c1 c2 => compare_ true a (t_crowding (pop a)) b (t_crowding (pop b)) true c2)).
  - apply less_first.
  - apply more_implements.
Qed.
Lemma nsga2_dom_ok : implements (binary_tournament true) (cv_first (then_ dom (more t_crowding))) comparable.
Proof.
  apply cv_first_implements with (rest := fun pop a b c1 c2 => match dom_choice pop a b c1 c2 with
    Some w => Some w | None => compare_ true a (t_crowding (pop a)) b (t_crowding (pop b)) true c2 end); [reflexivity|].
  apply then_implements with (second := fun pop a b c1 c2 => compare_ true a (t_crowding (pop a)) b (t_crowding (pop b)) true c2).
  - apply dom_first.
  - eapply implements_weaken; [|apply more_implements]. unfold any; auto.
Qed.
Lemma nsga3_ok : implements comp_by_cv_then_random (cv_first never) any.
Proof. eapply cv_first_implements with (rest := fun (pop : nat -> tind) (a b : nat) (c1 c2 : bool) => Some (if c2 then b else a)); [reflexivity|apply random_implements]. Qed.
Lemma ga_ok : implements comp_by_cv_and_fitness (cv_first (less (fun x => nth 0 (t_F x) f_nan))) any.
Proof. eapply cv_first_implements; [|apply (less_implements (fun x => nth 0 (t_F x) f_nan))]. reflexivity. Qed.
Lemma clearing_ok : implements comp_by_cv_and_clearing_fitness (cv_first (then_ (less t_iter) (less t_rank))) any.
Proof.
  apply cv_first_implements with (rest := fun pop a b c1 c2 => match compare_ false a (t_iter (pop a)) b (t_iter (pop b)) false c2 with
    Some w => Some w | None => compare_ false a (t_rank (pop a)) b (t_rank (pop b)) true c2 end); [reflexivity|].
  apply (then_implements (fun pop a b c1 c2 => compare_ false a (t_iter (pop a)) b (t_iter (pop b)) false c2)
           (fun pop a b c1 c2 => compare_ false a (t_rank (pop a)) b (t_rank (pop b)) true c2)).
  - apply less_first.
  - apply less_implements.
Qed.
Lemma sms_ok : implements cv_and_dom_tournament (cv_first dom) comparable.
Proof.
  apply cv_first_implements with (rest := fun pop a b c1 c2 => match dom_choice pop a b c1 c2 with Some w => Some w | None => Some (if c2 then b else a) end).
  - intros. unfold cv_and_dom_tournament, dom_choice. destruct (some_infeasible _ _); auto. cbv zeta.
    destruct (Z.eqb _ 1); auto. destruct (Z.eqb _ (-1)); auto.
  - eapply implements_sub; [|apply (then_implements dom_choice (fun pop a b c1 c2 => Some (if c2 then b else a)) dom never comparable);
      [apply dom_first|eapply implements_weaken; [|apply random_implements]; unfold any; auto]].
    unfold then_. auto.
Qed.
Lemma spea2_ok : implements spea_binary_tournament (cv_first (less t_fit)) any.
Proof. eapply cv_first_implements; [|apply (less_implements t_fit)]. reflexivity. Qed.
Lemma age_ok : implements age_binary_tournament (more t_fit) any.
Proof. apply more_implements. Qed.
Lemma ctaea_ok : implements comp_by_cv_dom_then_random ctaea_better comparable.
Proof.
  intros pop a b c1 c2 Hok. unfold comp_by_cv_dom_then_random, ctaea_better. cbv zeta.
  destruct (fleb (t_cv (pop a)) f_zero) eqn:Ea, (fleb (t_cv (pop b)) f_zero) eqn:Eb; simpl.
  - pose proof (dom_first pop a b c1 c2 Hok) as H. unfold dom_choice in H. cbv zeta in H.
    destruct (Z.eqb _ 1) eqn:E1.
    + exists a. repeat split; auto. intros [[_ ?]|(_ & _ & Hd)]; [discriminate|]. destruct H as [(_ & _ & N)|[(E & _)|(E & _)]]; try tauto; try discriminate.
      injection E as ->; auto.
    + destruct (Z.eqb _ (-1)) eqn:E2.
      * exists b. repeat split; auto. intros [[_ ?]|(_ & _ & Hd)]; [discriminate|]. destruct H as [(E & _)|[(_ & _ & N)|(E & _)]]; try tauto; try discriminate.
        injection E as ->; auto.
      * assert (H' : ~ dom (pop a) (pop b) /\ ~ dom (pop b) (pop a)) by (destruct H as [(E & _)|[(E & _)|(E & ?)]]; try discriminate; tauto).
        exists (if c1 then b else a). repeat split; [destruct c1; auto| |]; intros [[_ ?]|(_ & _ & Hd)]; try discriminate; tauto.
  - exists a. repeat split; auto. intros [[? ?]|(? & _)]; discriminate.
  - exists b. repeat split; auto. intros [[? ?]|(? & _)]; discriminate.
  - exists (if c2 then b else a). repeat split; [destruct c2; auto| |]; intros [[? ?]|(? & ? & _)]; discriminate.
Qed.
Lemma unsga3_ok : implements comp_by_rank_and_ref_line_dist (cv_first same_niche_better) any.
Proof.
  apply cv_first_implements with (rest := fun pop a b c1 c2 =>
    match (if t_niche (pop a) =? t_niche (pop b) then
      if negb (feqb (t_rank (pop a)) (t_rank (pop b))) then compare_ false a (t_rank (pop a)) b (t_rank (pop b)) false c2
      else compare_ false a (t_dist (pop a)) b (t_dist (pop b)) false c2 else None) with Some w => Some w | None => Some (if c2 then b else a) end).
  - intros. unfold comp_by_rank_and_ref_line_dist. destruct (some_infeasible _ _); auto.
    destruct (cv_part pop a b c1) as (w & -> & _). auto.
  - intros pop a b c1 c2 _. unfold same_niche_better, less.
    destruct (Nat.eqb_spec (t_niche (pop a)) (t_niche (pop b))) as [En|En].
    2: { exists (if c2 then b else a). repeat split; [destruct c2; auto| |]; intros [? _]; congruence. }
    rewrite (feq_sym (t_rank (pop b)) (t_rank (pop a))).
    destruct (feqb (t_rank (pop a)) (t_rank (pop b))) eqn:Er; cbn [negb].
    + pose proof (less_first t_dist pop a b c1 c2 I) as H. unfold less in H.
      destruct H as [(-> & H1 & H2)|[(-> & H1 & H2)|(-> & H1 & H2)]].
      * exists a. repeat split; auto. intros (_ & [[? _]|[_ ?]]); [discriminate|tauto].
      * exists b. repeat split; auto. intros (_ & [[? _]|[_ ?]]); [discriminate|tauto].
      * exists (if c2 then b else a). repeat split; [destruct c2; auto| |]; intros (_ & [[? _]|[_ ?]]); try discriminate; tauto.
    + pose proof (less_first t_rank pop a b c1 c2 I) as H. unfold less in H.
      destruct H as [(-> & H1 & H2)|[(-> & H1 & H2)|(-> & H1 & H2)]].
      * exists a. repeat split; auto. intros (_ & [[_ ?]|[? _]]); [tauto|discriminate].
      * exists b. repeat split; auto. intros (_ & [[_ ?]|[? _]]); [tauto|discriminate].
      * exists (if c2 then b else a). repeat split; [destruct c2; auto| |]; intros (_ & [[_ ?]|[? _]]); try discriminate; tauto.
Qed.

(** ** the competitors *)
Lemma ceil_div_ge a b : 0 < b -> a <= ceil_div a b * b.
Proof.
  intros Hb. unfold ceil_div. pose proof (Nat.div_mod (a + (b - 1)) b ltac:(lia)). pose proof (Nat.mod_upper_bound (a + (b - 1)) b ltac:(lia)). lia.
Qed.
Lemma concat_length_const {A} (ll : list (list A)) m : Forall (fun l => length l = m) ll -> length (concat ll) = length ll * m.
Proof. induction 1; simpl; auto. rewrite app_length. lia. Qed.
Lemma random_permutations_length n m perm : (forall k, Permutation (perm k) (seq 0 m)) -> length (random_permutations n perm) = n * m.
Proof.
  intros H. unfold random_permutations. rewrite concat_length_const with (m := m).
  - now rewrite map_length, seq_length.
  - apply Forall_forall. intros l Hl. apply in_map_iff in Hl. destruct Hl as (k & <- & _). apply perm_seq_length; auto.
Qed.
Lemma concat_reshape {A} n m (l : list A) : length l = n * m -> concat (reshape n m l) = l.
Proof.
  revert l. induction n; intros l HL; simpl in *.
  - destruct l; auto; discriminate.
  - rewrite IHn; [apply firstn_skipn|]. rewrite skipn_length. lia.
Qed.
Lemma reshape_rows {A} n m (l : list A) : length l = n * m -> length (reshape n m l) = n /\ Forall (fun r => length r = m) (reshape n m l).
Proof.
  revert l. induction n; intros l HL; simpl in *; auto.
  destruct (IHn (skipn m l)) as [H1 H2]; [rewrite skipn_length; lia|].
  split; [auto|]. constructor; auto. rewrite firstn_length. lia.
Qed.
Lemma prefix_length n m k perm : 0 < m -> (forall j, Permutation (perm j) (seq 0 m)) -> k <= n * m ->
  length (firstn k (random_permutations n perm)) = k.
Proof. intros. rewrite firstn_length, (random_permutations_length n m); auto. lia. Qed.

(** full rounds: each individual exactly t times *)
Lemma count_rounds m n perm t i : (forall j, Permutation (perm j) (seq 0 m)) -> t <= n -> i < m ->
  count_occ Nat.eq_dec (firstn (t * m) (random_permutations n perm)) i = t.
Proof.
  intros HP. unfold random_permutations. generalize 0 as s. revert n. induction t; intros n s Hn Hi; [reflexivity|].
  destruct n; [lia|]. simpl. rewrite firstn_app. rewrite (perm_seq_length _ _ (HP s)).
  rewrite firstn_all2 by (rewrite (perm_seq_length _ _ (HP s)); lia). replace (m + t * m - m) with (t * m) by lia.
  rewrite count_occ_app, (count_perm_seq (perm s) m), IHt; auto. lia.
Qed.
(** if the pressure divides the population size, the competitors of one tournament are different *)
Lemma reshape_app {A} n1 n2 m (l1 l2 : list A) : length l1 = n1 * m -> reshape (n1 + n2) m (l1 ++ l2) = reshape n1 m l1 ++ reshape n2 m l2.
Proof.
  revert l1. induction n1; intros l1 HL; simpl in *.
  - destruct l1; [auto|discriminate].
  - rewrite firstn_app, skipn_app. replace (m - length l1) with 0 by lia. simpl. rewrite app_nil_r. f_equal. apply IHn1. rewrite skipn_length. lia.
Qed.
Lemma In_firstn' {A} (x : A) n l : In x (firstn n l) -> In x l.
Proof. intros H. rewrite <- (firstn_skipn n l). apply in_or_app; auto. Qed.
Lemma reshape_NoDup n m (l : list nat) : NoDup l -> Forall (@NoDup nat) (reshape n m l).
Proof.
  revert l. induction n; intros l HN; simpl; constructor.
  - rewrite <- (firstn_skipn m) in HN. apply NoDup_app_iff in HN. tauto.
  - apply IHn. rewrite <- (firstn_skipn m) in HN. apply NoDup_app_iff in HN. tauto.
Qed.
Lemma reshape_firstn {A} n m (l : list A) : reshape n m (firstn (n * m) l) = reshape n m l.
Proof.
  revert l. induction n; intros l; simpl; auto.
  rewrite firstn_firstn. replace (Nat.min m (m + n * m)) with m by lia. f_equal.
  rewrite skipn_firstn_comm. replace (m + n * m - m) with (n * m) by lia. apply IHn.
Qed.
Lemma reshape_nil_NoDup n m : Forall (@NoDup nat) (reshape n m []).
Proof. induction n; simpl; constructor; rewrite ?firstn_nil, ?skipn_nil; auto. constructor. Qed.
Lemma perms_chunks_NoDup q p n perm : (forall j, Permutation (perm j) (seq 0 (q * p))) -> forall N,
  Forall (@NoDup nat) (reshape N p (random_permutations n perm)).
Proof.
  intros HP N. unfold random_permutations. generalize 0 as s. revert N. induction n; intros N s; simpl; [apply reshape_nil_NoDup|].
  destruct (Nat.le_gt_cases N q) as [H|H].
  - rewrite <- (reshape_firstn N p). rewrite firstn_app.
    assert (E : N * p - length (perm s) = 0) by (rewrite (perm_seq_length _ _ (HP s)); nia). rewrite E. simpl. rewrite app_nil_r.
    rewrite reshape_firstn. apply reshape_NoDup. eapply perm_seq_NoDup; eauto.
  - replace N with (q + (N - q)) by lia. rewrite reshape_app by (apply (perm_seq_length _ _ (HP s))).
    apply Forall_app. split; auto. apply reshape_NoDup. eapply perm_seq_NoDup; eauto.
Qed.
