(** * C81: the survival of SPEA2 *)
From Coq Require Import List Arith Bool ZArith QArith Lqa Lia Permutation.
From Verif Require Import Flt ListAux NpSort M_Dominator M_NDS M_Survival M_SMS M_SPEA2 S_Pareto S_NDS S_Survival S_SPEA2 P_Dominator P_Peel P_NDS1 P_Survival P_Survival3 Thm_Dominator Thm_SMS.
Import ListNotations.
Local Open Scope nat_scope.

(** ** order of distances *)
Lemma olt_iff a b : olt a b = true <-> dlt a b.
Proof.
  unfold olt, dlt, dle. destruct a as [x|], b as [y|]; split; intros H; try discriminate; try tauto; auto.
  - apply negb_true_iff in H. intros L. apply Qle_bool_iff in L. congruence.
  - apply negb_true_iff. destruct (Qle_bool y x) eqn:E; auto. apply Qle_bool_iff in E. contradiction.
Qed.
Lemma dle_total a b : dle a b \/ dle b a.
Proof. destruct a as [x|], b as [y|]; cbn; auto. destruct (Qlt_le_dec x y); [left; lra|auto]. Qed.
Lemma dle_trans a b c : dle a b -> dle b c -> dle a c.
Proof. destruct a as [x|], b as [y|], c as [z|]; cbn; auto; try tauto. apply Qle_trans. Qed.
Lemma dle_refl a : dle a a.
Proof. destruct a; cbn; auto. lra. Qed.
Lemma dle_dec a b : {dle a b} + {~ dle a b}.
Proof. destruct a as [x|], b as [y|]; cbn; auto. destruct (Qlt_le_dec y x); [right; lra|auto]. Qed.
Lemma olt_false a b : olt a b = false <-> dle b a.
Proof. rewrite <- not_true_iff_false, olt_iff. unfold dlt. destruct (dle_dec b a); tauto. Qed.
Lemma insert_perm x l : Permutation (oinsert x l) (x :: l).
Proof. induction l as [|y l IH]; cbn [oinsert]; auto. destruct (olt y x); auto. rewrite IH. apply perm_swap. Qed.
Lemma osort_perm l : Permutation (osort l) l.
Proof. induction l as [|x l IH]; cbn [osort fold_right]; auto. fold (osort l). rewrite insert_perm, IH. reflexivity. Qed.
Inductive dsorted : list (option Q) -> Prop := ds_nil : dsorted [] | ds_cons x l : (forall y, In y l -> dle x y) -> dsorted l -> dsorted (x :: l).
Lemma insert_sorted x l : dsorted l -> dsorted (oinsert x l).
Proof.
  induction 1 as [|y l Hy HS IH]; cbn [oinsert]; [constructor; [intros ? []|constructor]|]. destruct (olt y x) eqn:E.
  - constructor; auto. intros z Hz. apply (Permutation_in _ (insert_perm x l)) in Hz. destruct Hz as [<-|Hz]; auto. apply olt_iff in E. unfold dlt in E. destruct (dle_total y x); tauto.
  - apply olt_false in E. constructor; [|constructor; auto]. intros z [<-|Hz]; auto. eapply dle_trans; eauto.
Qed.
Lemma osort_sorted l : dsorted (osort l).
Proof. induction l as [|x l IH]; cbn [osort fold_right]; [constructor|]. apply insert_sorted, IH. Qed.
Lemma dsorted_nth l : dsorted l <-> forall p q, p < q -> q < length l -> dle (nth p l None) (nth q l None).
Proof.
  split.
  - induction 1 as [|x l Hx HS IH]; intros p q Hpq Hq; cbn [length] in Hq; [lia|]. destruct q as [|q]; [lia|]. destruct p as [|p]; cbn [nth]; [apply Hx, nth_In; lia|apply IH; lia].
  - induction l as [|x l IH]; intros H; constructor.
    + intros y Hy. apply (In_nth _ _ None) in Hy as (q & Hq & <-). apply (H 0 (S q)); cbn; lia.
    + apply IH. intros p q Hpq Hq. apply (H (S p) (S q)); cbn; lia.
Qed.
Lemma drow_distances dist J i : distances dist J i (drow dist J i).
Proof. unfold drow. split; [apply osort_perm|]. apply dsorted_nth, osort_sorted. Qed.
(** sorted vectors with the same members agree up to equality of numbers *)
Lemma dlex_irrefl a b : Forall2 deq a b -> ~ dlex a b.
Proof. intros H K. induction K as [x y a b D|x y a b D K IH]; inversion H; subst; auto. destruct H3 as [_ H3]. exact (D H3). Qed.
Lemma sorted_unique a : dsorted a -> forall b, dsorted b -> Permutation a b -> Forall2 deq a b.
Proof.
  induction 1 as [|x a Hx HS IH]; intros b Hb HP; [apply Permutation_nil in HP; subst; constructor|].
  destruct Hb as [|y b Hy Hb]; [symmetry in HP; apply Permutation_nil in HP; discriminate|].
  assert (E : deq x y).
  { split.
    - assert (Hi : In y (x :: a)) by (apply (Permutation_in _ (Permutation_sym HP)); cbn; auto). destruct Hi as [->|Hi]; [apply dle_refl|auto].
    - assert (Hi : In x (y :: b)) by (apply (Permutation_in _ HP); cbn; auto). destruct Hi as [->|Hi]; [apply dle_refl|auto]. }
  constructor; auto.
  (* remove x and y: the tails are permutations up to equality; go through the position of x in b *)
  assert (HH : forall c, dsorted (y :: c) -> Permutation (x :: a) (y :: c) -> Forall2 deq a c).
  { intros c Hc HPc. assert (Hi : In x (y :: c)) by (apply (Permutation_in _ HPc); cbn; auto). destruct Hi as [Ey|Hxc].
    - subst y. apply IH; [now inversion Hc|]. eapply Permutation_cons_inv; eauto.
    -
apply in_split in Hxc as (c1 & c2 & ->).
      (* everything in c1 is equal to y and x *)
      inversion Hc as [|? ? Hyc Hc']; subst. 
      assert (HP2 : Permutation a (y :: c1 ++ c2)).
      { apply (Permutation_cons_inv (a := x)). rewrite HPc. rewrite <- (Permutation_middle c1 c2 x). apply perm_swap. }
      assert (S2 : dsorted (y :: c1 ++ c2)).
      { constructor; [intros z Hz; apply Hyc; apply in_app_or in Hz; apply in_or_app; cbn; tauto|]. clear - Hc'. induction c1 as [|z c1 IHc]; cbn [app] in *; [now inversion Hc'|]. inversion Hc'; subst. constructor; auto. intros w Hw. apply H1. apply in_app_or in Hw. apply in_or_app. cbn. tauto. }
      specialize (IH _ S2 HP2).
      (* shift: y :: c1 ++ c2 and c1 ++ x :: c2 agree since all of y, c1, x are equal *)
      assert (HC1 : forall z, In z c1 -> deq z y).
      { intros z Hz. split; [|apply Hyc, in_or_app; auto]. apply dle_trans with x; [|apply E]. clear - Hc' Hz. induction c1 as [|w c1 IHc]; [destruct Hz|]. cbn [app] in Hc'. inversion Hc'; subst. destruct Hz as [->|Hz]; [apply H1, in_or_app; cbn; auto|auto]. }
      assert (Shift : Forall2 deq (y :: c1 ++ c2) (c1 ++ x :: c2)).
      { clear - HC1 E. assert (R : forall l : list (option Q), Forall2 deq l l) by (induction l; constructor; auto; split; apply dle_refl).
        assert (G : forall w, deq w y -> Forall2 deq (w :: c1 ++ c2) (c1 ++ x :: c2)).
        { induction c1 as [|z c1 IHc]; intros w Hw; cbn [app].
          - constructor; [|apply R]. destruct Hw, E. split; eapply dle_trans; eauto.
          - constructor; [destruct Hw, (HC1 z (or_introl eq_refl)); split; eapply dle_trans; eauto|]. apply IHc; [intros; apply HC1; cbn; auto|apply HC1; cbn; auto]. }
        apply G. split; apply dle_refl. }
      clear - IH Shift. revert IH Shift. generalize (y :: c1 ++ c2) (c1 ++ x :: c2). intros u v H1. revert v. induction H1 as [|p q a u Hpq H1 IH]; intros v Hv; inversion Hv; subst; constructor; auto.
      destruct Hpq, H2. split; eapply dle_trans; eauto. }
  apply HH; [constructor; auto|exact HP].
Qed.
Lemma distances_unique dist J i v w : distances dist J i v -> distances dist J i w -> Forall2 deq v w.
Proof. intros [P1 S1] [P2 S2]. apply sorted_unique; [now apply dsorted_nth|now apply dsorted_nth|]. now rewrite P1, P2. Qed.
Lemma dlex_deq a b : dlex a b -> forall a' b', Forall2 deq a a' -> Forall2 deq b b' -> dlex a' b'.
Proof.
  induction 1 as [x y a b D|x y a b D K IH]; intros a' b' Ha Hb; inversion Ha as [|? x' ? a0 [X1 X2] Ha']; inversion Hb as [|? y' ? b0 [Y1 Y2] Hb']; subst.
  - apply dlex_here. intros C. apply D. apply dle_trans with y'; auto. apply dle_trans with x'; auto.
  - destruct D as [D1 D2]. apply dlex_next; auto. split; [apply dle_trans with x; auto; apply dle_trans with y; auto|apply dle_trans with y; auto; apply dle_trans with x; auto].
Qed.
Lemma lex_lt_iff a : forall b, lex_lt a b = true <-> dlex a b.
Proof.
  induction a as [|x a IH]; intros b; [split; [discriminate|intros H; inversion H]|]. destruct b as [|y b]; [split; [discriminate|intros H; inversion H]|]. cbn [lex_lt].
  destruct (olt x y) eqn:E1; [split; auto; intros _; apply dlex_here; now apply olt_iff|]. apply olt_false in E1. destruct (olt y x) eqn:E2.
  - apply olt_iff in E2. split; [discriminate|]. intros H; inversion H; subst; [contradiction|]. destruct H3. contradiction.
  - apply olt_false in E2. rewrite IH. split; [intros; apply dlex_next; auto; split; auto|]. intros H; inversion H; subst; [contradiction|auto].
Qed.
Lemma dlex_cotrans a b : dlex a b -> forall c, length c = length a -> length b = length a -> dlex a c \/ dlex c b.
Proof.
  induction 1 as [x y a b D|x y a b D K IH]; intros c Hc Hb; destruct c as [|z c]; try discriminate; cbn in Hc, Hb.
  - destruct (dle_dec z x) as [L|L]; [|left; apply dlex_here; exact L]. right. apply dlex_here. intros C. apply D. eapply dle_trans; eauto.
  - destruct (dle_dec z x) as [L|L]; [|left; apply dlex_here; exact L]. destruct (dle_dec x z) as [L2|L2].
    + destruct (IH c) as [H|H]; [lia|lia|left; apply dlex_next; auto; split; auto|right; apply dlex_next; auto; destruct D; split; eapply dle_trans; eauto].
    + right. apply dlex_here. intros C. apply L2. destruct D. eapply dle_trans; eauto.
Qed.
Lemma dlex_asym a b : dlex a b -> ~ dlex b a.
Proof.
  induction 1 as [x y a b D|x y a b D K IH]; intros H; inversion H as [? ? ? ? D'|? ? ? ? D' K']; subst; auto.
  - unfold dlt in *. destruct (dle_total x y); tauto.
  - destruct D'. contradiction.
  - destruct D. contradiction.
Qed.
Lemma dlex_trans a b : dlex a b -> forall c, dlex b c -> dlex a c.
Proof.
  induction 1 as [x y a b D|x y a b D K IH]; intros c H; inversion H as [? z ? c0 D'|? z ? c0 D' K']; subst.
  - apply dlex_here. intros C. apply D'. apply dle_trans with x; auto. destruct (dle_total x y); [auto|contradiction].
  - apply dlex_here. intros C. apply D. destruct D'. eapply dle_trans; eauto.
  - apply dlex_here. intros C. apply D'. destruct D. eapply dle_trans; eauto.
  - apply dlex_next; auto. destruct D, D'. split; eapply dle_trans; eauto.
Qed.
Lemma lexmin_from_spec n rows : forall best bi i, length best = n -> Forall (fun r => length r = n) rows ->
  (lexmin_from best bi i rows = bi /\ forall r, In r rows -> ~ dlex r best) \/
  (exists k, k < length rows /\ lexmin_from best bi i rows = i + k /\ dlex (nth k rows []) best /\ forall r, In r rows -> ~ dlex r (nth k rows [])).
Proof.
  induction rows as [|r rows IH]; intros best bi i Hb HF; cbn [lexmin_from]; [left; split; auto; intros ? []|]. inversion HF as [|? ? Hr HF']; subst.
  destruct (lex_lt r best) eqn:E.
  - apply lex_lt_iff in E. right. destruct (IH r i (S i) Hr HF') as [[H1 H2]|(k & Hk & H1 & H2 & H3)].
    + exists 0. cbn [length nth]. split; [lia|]. split; [lia|]. split; [auto|]. intros r' [<-|Hr']; [intros C; exact (dlex_asym _ _ C C)|auto].
    + exists (S k). cbn [length nth]. split; [lia|]. split; [lia|]. split; [eapply dlex_trans; eauto|]. intros r' [<-|Hr']; [now apply dlex_asym|auto].
  - assert (NE : ~ dlex r best) by (rewrite <- lex_lt_iff; congruence). destruct (IH best bi (S i) eq_refl HF') as [[H1 H2]|(k & Hk & H1 & H2 & H3)].
    + left. split; auto. intros r' [<-|Hr']; auto.
    + right. exists (S k). cbn [length nth]. split; [lia|]. split; [lia|]. split; [auto|]. intros r' [<-|Hr']; auto. intros C. apply NE. eapply dlex_trans; eauto.
Qed.
Lemma lexmin_spec n rows : rows <> [] -> Forall (fun r => length r = n) rows -> lexmin rows < length rows /\ forall r, In r rows -> ~ dlex r (nth (lexmin rows) rows []).
Proof.
  destruct rows as [|r rows]; [congruence|]. intros _ HF. inversion HF as [|? ? Hr HF']; subst. unfold lexmin.
  destruct (lexmin_from_spec (length r) rows r 0 1 eq_refl HF') as [[-> H2]|(k & Hk & -> & H2 & H3)]; cbn [length nth Nat.add].
  - split; [lia|]. intros r' [<-|Hr']; [intros C; exact (dlex_asym _ _ C C)|auto].
  - split; [lia|]. intros r' [<-|Hr']; [now apply dlex_asym|auto].
Qed.

(** ** fitness *)
Definition qlt (a b : Q) : bool := negb (Qle_bool b a).
Lemma qlt_false a b : qlt a b = false <-> (b <= a)%Q.
Proof. unfold qlt. rewrite negb_false_iff. apply Qle_bool_iff. Qed.
Section Fit.
  Context (m : nat) (F : list (list flt)) (HR : rect m F) (HM : mat_ok F).
  Notation N := (length F).
  Notation M := (calc_domination_matrix F None f_zero).
  Lemma M_spec i j : i < N -> j < N -> (entry M i j = 1%Z <-> row_dom F i j) /\ (entry M i j = (-1)%Z <-> row_dom F j i) /\ ((0 <= entry M i j)%Z <-> ~ row_dom F j i).
  Proof.
    intros Hi Hj. rewrite (C02_matrix_entry m F i j HR Hi Hj). destruct (get_relation_obj_spec (nth i F []) (nth j F [])) as (H1 & H2 & H3); auto using mat_ok_nth; [rewrite !(rect_nth m); auto|].
    split; [exact H1|]. split; [exact H2|]. unfold row_dom in *. rewrite <- H2. unfold get_relation. destruct (rel_loop_range (nth i F []) (nth j F []) 0 (or_introl eq_refl)) as [E|[E|E]]; rewrite E; lia.
  Qed.
  Lemma nd_In i : In i (where_ (fun i => forallb (fun j => (0 <=? entry M i j)%Z) (seq 0 N)) N) <-> non_dominated F i.
  Proof.
    rewrite In_where. unfold non_dominated. split; intros [Hi H]; split; auto.
    - intros j Hj. rewrite forallb_forall in H. specialize (H j ltac:(apply in_seq; lia)). apply Z.leb_le in H. exact (proj1 (proj2 (proj2 (M_spec i j Hi Hj))) H).
    - apply forallb_forall. intros j Hj. apply in_seq in Hj. apply Z.leb_le. apply (proj2 (proj2 (M_spec i j Hi ltac:(lia)))). apply H. lia.
  Qed.
  Lemma dominated_lists i : i < N -> lists N (row_dom F i) (where_ (fun j => (entry M i j =? 1)%Z) N).
  Proof. intros Hi. split; [apply NoDup_where|]. intros j. rewrite In_where, Z.eqb_eq. split; intros [Hj H]; split; auto; apply (proj1 (M_spec i j Hi Hj)); auto. Qed.
  Lemma dominators_lists i : i < N -> lists N (fun j => row_dom F j i) (where_ (fun j => (entry M i j =? -1)%Z) N).
  Proof. intros Hi. split; [apply NoDup_where|]. intros j. rewrite In_where, Z.eqb_eq. split; intros [Hj H]; split; auto; apply (proj1 (proj2 (M_spec i j Hi Hj))); auto. Qed.
  Lemma strength_pos i j : i < N -> j < N -> row_dom F i j -> 1 <= strength M N i.
  Proof. intros Hi Hj H. unfold strength. destruct (dominated_lists i Hi) as [_ HL]. assert (In j (where_ (fun j => (entry M i j =? 1)%Z) N)) by (apply HL; auto). destruct (where_ _ N); [contradiction|cbn; lia]. Qed.
  Lemma sum_incl (f : nat -> nat) l : NoDup l -> forall l', incl l l' -> list_sum (map f l) <= list_sum (map f l').
  Proof.
    induction 1 as [|x l Hx HN IH]; intros l' HI; [cbn; lia|]. assert (Hin : In x l') by (apply HI; cbn; auto). apply in_split in Hin as (a & b & ->).
    specialize (IH (a ++ b)). cbn [map]. change (list_sum (f x :: map f l)) with (f x + list_sum (map f l)). rewrite map_app, list_sum_app in *. cbn [map]. change (list_sum (f x :: map f b)) with (f x + list_sum (map f b)).
    assert (incl l (a ++ b)). { intros y Hy. assert (Hy' : In y (a ++ x :: b)) by (apply HI; cbn; auto). apply in_app_or in Hy'. apply in_or_app. destruct Hy' as [|[->|]]; auto. contradiction. }
    specialize (IH H). lia.
  Qed.

  Lemma raw_zero i : i < N -> (raw M N i = 0 <-> non_dominated F i).
  Proof.
    intros Hi. unfold raw. destruct (dominators_lists i Hi) as [_ HL]. set (D := where_ _ N) in *. split.
    - intros H. split; auto. intros j Hj Hd. assert (Hin : In j D) by (apply HL; auto). apply in_split in Hin as (a & b & E). rewrite E, map_app, list_sum_app in H. cbn [map] in H.
      change (list_sum (strength M N j :: map (strength M N) b)) with (strength M N j + list_sum (map (strength M N) b)) in H. pose proof (strength_pos j i Hj Hi Hd). lia.
    - intros [_ H]. destruct D as [|j D]; [reflexivity|]. exfalso. destruct (proj1 (HL j) ltac:(cbn; auto)) as [Hj Hd]. exact (H j Hj Hd).
  Qed.
  Lemma raw_mono i j : i < N -> j < N -> row_dom F j i -> raw M N j + 1 <= raw M N i.
  Proof.
    intros Hi Hj Hd. pose proof (strength_pos j i Hj Hi Hd) as HS. unfold raw. destruct (dominators_lists i Hi) as [N1 L1]. destruct (dominators_lists j Hj) as [N2 L2].
    set (Di := where_ (fun j => (entry M i j =? -1)%Z) N) in *. set (Dj := where_ (fun j0 => (entry M j j0 =? -1)%Z) N) in *.
    assert (HI : incl (j :: Dj) Di). { intros k [<-|Hk]; [apply L1; auto|]. apply L2 in Hk as [Hk Hkj]. apply L1. split; auto. eapply row_dom_trans; eauto. }
    assert (HN : NoDup (j :: Dj)) by (constructor; auto; intros C; apply L2 in C as [_ C]; exact (row_dom_irrefl F j C)).
    pose proof (sum_incl (strength M N) _ HN _ HI) as HH. cbn [map] in HH. change (list_sum (strength M N j :: map (strength M N) Dj)) with (strength M N j + list_sum (map (strength M N) Dj)) in HH. lia.
  Qed.
End Fit.

(** C81: the raw fitness is the sum of the strengths of the dominators; it is zero exactly for the non-dominated solutions *)
Theorem C81_raw : forall m F i, rect m F -> mat_ok F -> i < length F ->
  let r := raw (calc_domination_matrix F None f_zero) (length F) i in is_raw F i r /\ (r = 0 <-> non_dominated F i).
Proof.
  intros m F i HR HM Hi r. split; [|now apply (raw_zero m F HR HM)]. exists (where_ (fun j => (entry (calc_domination_matrix F None f_zero) i j =? -1)%Z) (length F)). eexists. split; [now apply (dominators_lists m)|]. split; [|reflexivity].
  destruct (dominators_lists m F HR HM i Hi) as [_ HL]. set (D := where_ _ _) in *. assert (HB : forall j, In j D -> j < length F) by (intros j Hj; apply HL in Hj; tauto). clearbody D. clear HL.
  induction D as [|j D IH]; cbn [map]; constructor; [|apply IH; intros; apply HB; cbn; auto]. eexists. split; [apply (dominated_lists m F HR HM); apply HB; cbn; auto|reflexivity].
Qed.
Section Fit2.
  Variable dist : nat -> nat -> option Q.
  Hypothesis Hd : forall i j x, dist i j = Some x -> (0 <= x)%Q.
  Lemma density_range n i : (0 <= density dist n i <= 1 # 2)%Q.
  Proof.
    unfold density. destruct (nth (kth n) (drow dist (seq 0 n) i) None) as [x|] eqn:E; [|lra].
    assert (HI : In (Some x) (drow dist (seq 0 n) i)) by (rewrite <- E; destruct (Nat.lt_ge_cases (kth n) (length (drow dist (seq 0 n) i))) as [H|H]; [now apply nth_In|rewrite nth_overflow in E by auto; discriminate]).
    apply (Permutation_in _ (proj1 (drow_distances dist (seq 0 n) i))) in HI. apply in_map_iff in HI as (j & HJ & _). destruct (i =? j); [discriminate|]. apply Hd in HJ.
    split; [apply Qle_shift_div_l; lra|apply Qle_shift_div_r; lra].
  Qed.
  Lemma fitness_range M n i : (inject_Z (Z.of_nat (raw M n i)) <= fitness dist M n i <= inject_Z (Z.of_nat (raw M n i)) + (1 # 2))%Q.
  Proof. unfold fitness. pose proof (density_range n i). lra. Qed.
End Fit2.
(** C81: the fitness is below one exactly for the non-dominated solutions, and a dominating solution is better by at least one half *)
Theorem C81_fitness : forall m F dist i, rect m F -> mat_ok F -> (forall i j x, dist i j = Some x -> (0 <= x)%Q) -> i < length F ->
  let fit := fitness dist (calc_domination_matrix F None f_zero) (length F) in
  ((fit i < 1)%Q <-> non_dominated F i) /\ forall j, j < length F -> row_dom F j i -> (fit j + (1 # 2) <= fit i)%Q.
Proof.
  intros m F dist i HR HM Hd Hi fit. pose proof (fitness_range dist Hd (calc_domination_matrix F None f_zero) (length F) i) as Ri. fold fit in Ri. split.
  - rewrite <- (raw_zero m F HR HM i Hi). set (r := raw _ _ i) in *. split.
    + intros H. destruct r as [|r]; auto. exfalso. rewrite Nat2Z.inj_succ in Ri. unfold Z.succ in Ri. rewrite inject_Z_plus in Ri. assert (0 <= inject_Z (Z.of_nat r))%Q by (change 0%Q with (inject_Z 0); rewrite <- Zle_Qle; lia). change (inject_Z 1) with 1%Q in Ri. lra.
    + intros E. rewrite E in Ri. change (inject_Z (Z.of_nat 0)) with 0%Q in Ri. lra.
  - intros j Hj HD. pose proof (fitness_range dist Hd (calc_domination_matrix F None f_zero) (length F) j) as Rj. fold fit in Rj. pose proof (raw_mono m F HR HM i j Hi Hj HD) as RM.
    assert (HQ : (inject_Z (Z.of_nat (raw (calc_domination_matrix F None f_zero) (length F) j)) + 1 <= inject_Z (Z.of_nat (raw (calc_domination_matrix F None f_zero) (length F) i)))%Q) by (change 1%Q with (inject_Z 1); rewrite <- inject_Z_plus, <- Zle_Qle; lia). lra.
Qed.
Print Assumptions C81_fitness.
(** the density uses the (k+1)-th nearest neighbour, k = floor(sqrt(n)), not the k-th: position k of the sorted distances, whose position 0 is the nearest neighbour *)
Theorem C81_neighbour : forall dist n i v, distances dist (seq 0 n) i v -> 3 <= n -> kth n = Nat.sqrt n /\
  (density dist n i == match nth (Nat.sqrt n) v None with None => 0 | Some x => 1 / (x + 2) end)%Q.
Proof.
  intros dist n i v HV Hn. assert (K : kth n = Nat.sqrt n). { unfold kth. pose proof (Nat.sqrt_lt_lin n ltac:(lia)). destruct (Nat.leb_spec n (Nat.sqrt n)); lia. }
  split; auto. unfold density. rewrite K. pose proof (distances_unique dist _ i _ _ (drow_distances dist (seq 0 n) i) HV) as HE.
  assert (G : forall k, deq (nth k (drow dist (seq 0 n) i) None) (nth k v None)). { clear - HE. induction HE; intros [|k]; cbn [nth]; auto; split; apply dle_refl. }
  specialize (G (Nat.sqrt n)). destruct (nth _ (drow dist _ _) None) as [x|], (nth _ v None) as [y|]; destruct G as [G1 G2]; cbn in G1, G2; try contradiction; [|reflexivity]. assert (E : (x == y)%Q) by lra. now rewrite E.
Qed.

(** ** selection *)
Section Sel.
  Variable dist : nat -> nat -> option Q.
  Lemma rows_len J : Forall (fun r => length r = length J) (map (drow dist J) J).
  Proof. apply Forall_map, Forall_forall. intros i _. unfold drow. now rewrite (Permutation_length (osort_perm _)), map_length. Qed.
  Lemma candidate_spec J : J <> [] -> candidate dist J < length J /\ forall j v w, In j J -> distances dist J (nth (candidate dist J) J 0) v -> distances dist J j w -> ~ dlex w v.
  Proof.
    intros HJ. destruct (lexmin_spec (length J) (map (drow dist J) J)) as [H1 H2]; [destruct J; [congruence|discriminate]|apply rows_len|]. rewrite map_length in H1. fold (candidate dist J) in *. split; auto.
    intros j v w Hj Hv Hw C. apply (H2 (drow dist J j)); [apply in_map; auto|]. rewrite (nth_indep _ [] (drow dist J 0)) by (now rewrite map_length). rewrite map_nth.
    eapply dlex_deq; [exact C|apply (distances_unique dist J j); auto; apply drow_distances|apply (distances_unique dist J (nth (candidate dist J) J 0)); auto; apply drow_distances].
  Qed.
  Lemma spea_drop_spec r : forall J, NoDup J -> r <= length J -> truncated dist r J (spea_drop dist r J) /\ NoDup (spea_drop dist r J) /\ incl (spea_drop dist r J) J /\ length (spea_drop dist r J) = length J - r.
  Proof.
    induction r as [|r IH]; intros J HN Hr; cbn [spea_drop]; [split; [constructor|split; [auto|split; [apply incl_refl|lia]]]|].
    assert (HJ : J <> []) by (intros ->; cbn in Hr; lia). destruct (candidate_spec J HJ) as [Hk HC]. set (k := candidate dist J) in *. pose proof (delete_length J k Hk) as HL. pose proof (delete_perm J k 0 Hk) as HP. pose proof (delete_NoDup J k HN) as HN'.
    destruct (IH (delete_at J k) HN' ltac:(lia)) as (I1 & I2 & I3 & I4). split; [|split; [auto|split; [intros x Hx; apply I3 in Hx; eapply delete_In; eauto|lia]]].
    apply (Permutation_NoDup HP) in HN as HN2. inversion HN2 as [|? ? Hni _]; subst.
    apply trunc_step with (nth k J 0) (delete_at J k); auto; [apply nth_In; auto|]. intros x Hx. split; [|apply delete_In]. intros Hin. apply (Permutation_in _ HP) in Hin. destruct Hin as [E|Hin]; [congruence|auto].
  Qed.
End Sel.

Definition sort_ok (asort : list Q -> list nat) : Prop := forall keys, is_argsort qlt 0%Q keys (asort keys).
(** C81: exactly [n] members; if the non-dominated ones fit, all of them survive, together with the fittest others, so that with a solution all its dominators survive;
    otherwise only non-dominated ones survive, those left after the truncation *)
Theorem C81_selection : forall m F dist asort n, rect m F -> mat_ok F -> (forall i j x, dist i j = Some x -> (0 <= x)%Q) -> sort_ok asort -> n <= length F ->
  let S := spea2_do dist asort F n in let fit := fitness dist (calc_domination_matrix F None f_zero) (length F) in
  selects (length F) n S /\ exists nd, lists (length F) (non_dominated F) nd /\
    (length nd <= n -> (forall i, non_dominated F i -> In i S) /\ (forall i j, In i S -> j < length F -> ~ In j S -> (fit i <= fit j)%Q) /\ (forall i j, In i S -> j < length F -> row_dom F j i -> In j S)) /\
    (n <= length nd -> (forall i, In i S -> non_dominated F i) /\ truncated dist (length nd - n) nd S).
Proof.
  intros m F dist asort n HR HM Hd HA Hle S fit. unfold spea2_do in S.
  set (M := calc_domination_matrix F None f_zero) in *. set (nd := where_ (fun i => forallb (fun j => (0 <=? entry M i j)%Z) (seq 0 (length F))) (length F)) in *.
  set (rem := where_ (fun i => negb (existsb (Nat.eqb i) nd)) (length F)) in *.
  assert (Hnd : forall i, In i nd <-> non_dominated F i) by (intros i; apply (nd_In m F HR HM)). assert (NN : NoDup nd) by apply NoDup_where.
  assert (HL : lists (length F) (non_dominated F) nd) by (split; auto; intros i; rewrite Hnd; unfold non_dominated; tauto).
  assert (Hrem : forall i, In i rem <-> i < length F /\ ~ In i nd).
  { intros i. unfold rem. rewrite In_where, negb_true_iff, <- not_true_iff_false, existsb_exists. split; intros [H1 H2]; split; auto; intros C; apply H2; [exists i; split; auto; apply Nat.eqb_refl|destruct C as (x & Hx & E); apply Nat.eqb_eq in E; now subst]. }
  assert (NR : NoDup rem) by apply NoDup_where.
  assert (LR : length nd + length rem = length F).
  { rewrite <- app_length, <- (seq_length (length F) 0). apply Permutation_length, NoDup_Permutation; [|apply seq_NoDup|].
    - apply NoDup_app_iff. repeat split; auto. intros x H1 H2. apply Hrem in H2. tauto.
    - intros x. rewrite in_app_iff, in_seq, Hrem. assert (In x nd -> x < length F) by (intros H; apply Hnd in H; apply H). destruct (in_dec Nat.eq_dec x nd); intuition lia. }
  destruct (Nat.ltb_spec (length nd) n) as [Hlt|Hge].
  - destruct (HA (map (fitness dist M (length F)) rem)) as [HPm HS]. set (P := asort _) in *. rewrite map_length in HPm.
    assert (LP : length P = length rem) by (now rewrite (Permutation_length HPm), seq_length). assert (PB : forall p, In p P -> p < length rem) by (intros p Hp; apply (perm_seq_In _ _ p HPm) in Hp; auto).
    assert (GP : Permutation (gather 0 rem P) rem) by (apply gather_perm; auto).
    set (k := n - length nd) in *.
    assert (HSel : selects (length F) n S).
    { unfold S. split; [|split].
      - apply NoDup_app_iff. repeat split; auto; [apply NoDup_firstn, (Permutation_NoDup (Permutation_sym GP)), NR|]. intros x H1 H2. apply firstn_In in H2. apply (Permutation_in _ GP), Hrem in H2. tauto.
      - intros x Hx. apply in_app_iff in Hx. destruct Hx as [Hx|Hx]; [apply Hnd in Hx; apply Hx|]. apply firstn_In in Hx. apply (Permutation_in _ GP), Hrem in Hx. tauto.
      - rewrite app_length, firstn_length, length_gather. lia. }
    split; [exact HSel|]. exists nd. split; [exact HL|]. split; [|intros; lia]. intros _.
    assert (C1 : forall i, non_dominated F i -> In i S) by (intros i Hi; unfold S; apply in_or_app; left; now apply Hnd).
    assert (C2 : forall i j, In i S -> j < length F -> ~ In j S -> (fit i <= fit j)%Q).
    { intros i j Hi Hj Hnj. assert (Hjr : In j rem) by (apply Hrem; split; auto; intros C; apply Hnj, C1, Hnd, C).
      unfold S in Hi. apply in_app_iff in Hi. destruct Hi as [Hi|Hi].
      - apply Hnd in Hi. assert (Hfi := proj2 (proj1 (C81_fitness m F dist i HR HM Hd (proj1 Hi))) Hi). fold M in Hfi. fold fit in Hfi.
        destruct (Qlt_le_dec (fit j) 1) as [L|L]; [exfalso; apply (C81_fitness m F dist j HR HM Hd Hj) in L; apply Hnj, C1, L|lra].
      - apply (In_firstn_nth _ _ _ 0) in Hi as (p & Hp1 & Hp2 & <-). apply (Permutation_in _ (Permutation_sym GP)) in Hjr. apply (In_nth _ _ 0) in Hjr as (q & Hq & <-). rewrite length_gather in *.
        destruct (Nat.lt_ge_cases q k) as [Hqk|Hqk].
        + exfalso. apply Hnj. unfold S. apply in_or_app. right. apply (In_firstn_nth _ _ _ 0). exists q. rewrite length_gather. auto.
        + rewrite !nth_gather by lia. specialize (HS p q ltac:(lia) Hq). apply qlt_false in HS.
          assert (E : forall p, In p P -> nth p (map (fitness dist M (length F)) rem) 0%Q = fit (nth p rem 0)).
          { intros p' Hp'. rewrite (nth_indep _ 0%Q (fit 0)) by (rewrite map_length; auto). apply (map_nth fit). }
          rewrite !E in HS by (apply nth_In; lia). exact HS. }
    split; [exact C1|]. split; [exact C2|]. intros i j Hi Hj HD. destruct (in_dec Nat.eq_dec j S) as [|Hnj]; auto. exfalso. pose proof (C2 i j Hi Hj Hnj) as L.
    assert (Hi' : i < length F) by (apply HSel; auto). pose proof (proj2 (C81_fitness m F dist i HR HM Hd Hi') j Hj HD) as L2. fold M in L2. fold fit in L2. lra.
  - destruct (spea_drop_spec dist (length nd - n) nd NN ltac:(lia)) as (T1 & T2 & T3 & T4). fold S in T1, T2, T3, T4.
    split; [split; [auto|split; [intros i Hi; apply T3, Hnd in Hi; apply Hi|lia]]|]. exists nd. split; [exact HL|]. split.
    + intros Hle2. assert (E : length nd = n) by lia. assert (ES : S = nd) by (unfold S; rewrite E, Nat.sub_diag; reflexivity). rewrite ES. split; [intros i; apply Hnd|].
      assert (C2 : forall i j, In i nd -> j < length F -> ~ In j nd -> (fit i <= fit j)%Q).
      { intros i j Hi Hj Hnj. apply Hnd in Hi. assert (Hfi := proj2 (proj1 (C81_fitness m F dist i HR HM Hd (proj1 Hi))) Hi). fold M in Hfi. fold fit in Hfi.
        destruct (Qlt_le_dec (fit j) 1) as [L|L]; [exfalso; apply (C81_fitness m F dist j HR HM Hd Hj) in L; apply Hnj, Hnd, L|lra]. }
      split; [exact C2|]. intros i j Hi Hj HD. apply Hnd in Hi. exfalso. exact (proj2 Hi j Hj HD).
    + intros _. split; [intros i Hi; apply Hnd, T3, Hi|exact T1].
Qed.
Print Assumptions C81_selection.
(** each solution removed by the truncation has a neighbour at the least distance found among the remaining ones *)
Theorem C81_closest : forall dist J, (forall i j, i <> j -> dist i j <> None) -> NoDup J -> 2 <= length J ->
  let i := nth (candidate dist J) J 0 in exists i', In i' J /\ i' <> i /\ forall j j', In j J -> In j' J -> j <> j' -> dle (dist i i') (dist j j').
Proof.
  intros dist J Hf HN HJ i. assert (Hne : J <> []) by (intros ->; cbn in HJ; lia). destruct (candidate_spec dist J Hne) as [Hk HC]. fold i in HC.
  pose proof (drow_distances dist J i) as Hv. assert (Lv : length (drow dist J i) = length J) by (unfold drow; rewrite (Permutation_length (osort_perm _)), map_length; auto).
  assert (Head : forall j j', In j J -> In j' J -> j <> j' -> dle (nth 0 (drow dist J i) None) (dist j j')).
  { intros j j' Hj Hj' Hne'. pose proof (drow_distances dist J j) as Hw. specialize (HC j _ _ Hj Hv Hw). apply dle_trans with (nth 0 (drow dist J j) None).
    - assert (Lw : length (drow dist J j) = length J) by (unfold drow; rewrite (Permutation_length (osort_perm _)), map_length; auto). destruct (drow dist J i) as [|x v], (drow dist J j) as [|y w]; cbn in *; try lia. destruct (dle_dec x y) as [|L]; auto. exfalso. apply HC, dlex_here. exact L.
    - destruct Hw as [P1 S1]. assert (HI : In (dist j j') (drow dist J j)). { apply (Permutation_in _ (Permutation_sym P1)). apply in_map_iff. exists j'. split; auto. destruct (Nat.eqb_spec j j'); congruence. }
      apply (In_nth _ _ None) in HI as (q & Hq & <-). destruct q as [|q]; [apply dle_refl|apply S1; lia]. }
  destruct J as [|a [|b J']] eqn:EJ; [cbn in HJ; lia|cbn in HJ; lia|]. rewrite <- EJ in *. assert (Hab : a <> b) by (rewrite EJ in HN; inversion HN as [|? ? Hn _]; subst; intros ->; apply Hn; cbn; auto).
  assert (Ha : In a J) by (rewrite EJ; cbn; auto). assert (Hb : In b J) by (rewrite EJ; cbn; auto). pose proof (Head a b Ha Hb Hab) as H0.
  assert (HI : In (nth 0 (drow dist J i) None) (drow dist J i)) by (apply nth_In; lia). apply (Permutation_in _ (proj1 Hv)) in HI. apply in_map_iff in HI as (i' & E & Hi').
  destruct (Nat.eqb_spec i i') as [Ei|Ei].
  - exfalso. rewrite <- E in H0. specialize (Hf a b Hab). destruct (dist a b); [exact H0|congruence].
  - exists i'. split; auto. split; auto. intros j j' Hj Hj' Hne'. rewrite E. auto.
Qed.
Print Assumptions C81_closest.
(** within Survival.do: feasible solutions before infeasible ones *)
Theorem C81_survival : forall (A : Type) (d : A) cv feas obj asort dist sorter m hc ns (pop : list A),
  asort_ok asort -> sort_ok sorter -> (forall p i j x, dist p i j = Some x -> (0 <= x)%Q) -> Forall (fun a => row_ok m (obj a)) pop ->
  let n := Nat.min (match ns with None => length pop | Some n => n end) (length pop) in
  let S := survival_do d cv feas asort (spea2_inner obj dist sorter) true hc ns pop in
  selects (length pop) n S /\
  (hc = true ->
    (forall i j, In i S -> feas (nth i pop d) = false -> j < length pop -> feas (nth j pop d) = true -> In j S) /\
    (forall i j, In i S -> feas (nth i pop d) = false -> j < length pop -> feas (nth j pop d) = false -> ~ In j S -> fltb (cv (nth j pop d)) (cv (nth i pop d)) = false)).
Proof.
  intros A d cv feas obj asort dist sorter m hc ns pop Ha Hs Hd Hw. cbv zeta.
  destruct (survival_do_spec d cv feas asort Ha (fun a => row_ok m (obj a)) (spea2_inner obj dist sorter) true hc ns pop) as [H1 H2]; auto.
  intros p n Hne Hwf Hle. unfold spea2_inner. destruct (P_Survival3.rows_ok m obj p Hwf) as [R1 R2].
  destruct (C81_selection m (map obj p) (dist p) sorter n) as [R _]; auto; [intros; eapply Hd; eauto|now rewrite map_length|]. now rewrite map_length in R at 1.
Qed.
