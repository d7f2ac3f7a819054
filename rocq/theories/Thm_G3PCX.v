(** * C92 (continued): G3PCX *)
From Coq Require Import List Arith Bool Lia Permutation.
From Verif Require Import Flt ListAux NpSort M_NDS M_Survival M_Optimum M_BRKGA S_Pareto S_NDS S_Survival S_Optimum P_Dominator P_Optimum P_Perm Thm_Optimum Thm_GA Thm_ES Thm_BRKGA.
Import ListNotations.
Local Open Scope nat_scope.

Section Assign.
  Context {A : Type} (d : A).
  Lemma assign_length rnd : forall (pop vals : list A), length (assign_at pop rnd vals) = length pop.
  Proof. induction rnd as [|i rnd IH]; intros pop [|v vals]; cbn [assign_at]; auto. now rewrite IH, length_upd. Qed.
  Lemma assign_other rnd : forall (pop vals : list A) j, ~ In j rnd -> nth j (assign_at pop rnd vals) d = nth j pop d.
  Proof. induction rnd as [|i rnd IH]; intros pop [|v vals] j Hj; cbn [assign_at]; auto. rewrite IH by (simpl in Hj; tauto). apply nth_upd_neq. simpl in Hj. intros ->. tauto. Qed.
  Lemma assign_at_nth rnd : forall (pop vals : list A) p, NoDup rnd -> (forall i, In i rnd -> i < length pop) -> length vals = length rnd -> p < length rnd ->
    nth (nth p rnd 0) (assign_at pop rnd vals) d = nth p vals d.
  Proof.
    induction rnd as [|i rnd IH]; intros pop [|v vals] p HN HB HL Hp; cbn [assign_at length] in *; try lia. inversion HN as [|? ? Hi HN']; subst. destruct p as [|p]; cbn [nth].
    - rewrite assign_other by auto. apply nth_upd_eq. apply HB; simpl; auto.
    - apply IH; auto; try lia. intros j Hj. rewrite length_upd. apply HB; simpl; auto.
  Qed.
  Lemma assign_perm rnd (pop vals : list A) : NoDup rnd -> (forall i, In i rnd -> i < length pop) -> length vals = length rnd ->
    exists others, Permutation pop (gather d pop rnd ++ others) /\ Permutation (assign_at pop rnd vals) (vals ++ others).
  Proof.
    intros HN HB HL. set (O := filter (fun i => negb (existsb (Nat.eqb i) rnd)) (seq 0 (length pop))). exists (gather d pop O).
    assert (HO : forall i, In i O <-> i < length pop /\ ~ In i rnd).
    { intros i. unfold O. rewrite filter_In, in_seq, negb_true_iff. split.
      - intros [H1 H2]. split; [lia|]. intros Hi. assert (E : existsb (Nat.eqb i) rnd = true) by (apply existsb_exists; exists i; split; [auto|apply Nat.eqb_refl]). congruence.
      - intros [H1 H2]. split; [lia|]. destruct (existsb (Nat.eqb i) rnd) eqn:E; auto. apply existsb_exists in E as (j & Hj & Ej). apply Nat.eqb_eq in Ej as <-. contradiction. }
    assert (HP : Permutation (seq 0 (length pop)) (rnd ++ O)).
    { apply NoDup_Permutation; [apply seq_NoDup| |].
      - apply NoDup_app_iff. split; auto. split; [apply NoDup_filter, seq_NoDup|]. intros i H1 H2. apply HO in H2. tauto.
      - intros i. rewrite in_seq, in_app_iff, HO. split; [intros H; destruct (in_dec Nat.eq_dec i rnd); auto; right; split; [lia|auto]|]. intros [H|H]; [specialize (HB i H); lia|lia]. }
    assert (G : forall l : list A, length l = length pop -> Permutation l (gather d l rnd ++ gather d l O)).
    { intros l Hl. rewrite <- (gather_seq d l) at 1. rewrite Hl. unfold gather. rewrite <- map_app. now apply Permutation_map. }
    split; [now apply G|]. rewrite (G (assign_at pop rnd vals) (assign_length _ _ _)). apply Permutation_app.
    - replace (gather d (assign_at pop rnd vals) rnd) with vals; [apply Permutation_refl|]. apply nth_ext with d d; [now rewrite length_gather|]. intros p Hp. rewrite nth_gather by lia. symmetry. apply assign_at_nth; auto. lia.
    - replace (gather d (assign_at pop rnd vals) O) with (gather d pop O); [apply Permutation_refl|]. unfold gather. apply map_ext_in. intros i Hi. symmetry. apply assign_other. now apply HO.
  Qed.
End Assign.

Section G3.
  Context {A : Type} (d : A) (obj : A -> list flt) (cv : A -> flt) (feas : A -> bool) (asort : list flt -> list nat) (lex : list (flt * flt) -> list nat) (hc : bool).
  Notation ok := (ind_ok obj cv 1).
  Notation leq := (leq obj cv).
  Notation better := (better_than obj cv feas).
  Notation isb := (is_better0 obj cv feas).

  (** is_better decides "strictly better" *)
  Lemma isb_iff a b : ok a -> ok b -> (isb a b = true <-> better a b).
  Proof.
    intros [[Ha1 Ha2] _] [[Hb1 Hb2] _]. unfold is_better0, better_than. rewrite (dominates_single (obj a) (obj b)) by auto.
    destruct (feas a), (feas b); cbn [negb andb]; destruct (fltb (cv a) (cv b)); destruct (fltb (nth 0 (obj a) f_nan) (nth 0 (obj b) f_nan)); intuition congruence.
  Qed.
  Lemma better_irr a : ok a -> ~ better a a.
  Proof. intros Ha [[H1 H2]|[(H1 & H2 & H3)|(H1 & H2 & H3)]]; [congruence|now apply dominates_irrefl in H3|now rewrite flt_irrefl in H3]. Qed.
  Lemma better_asym a b : ok a -> ok b -> better a b -> ~ better b a.
  Proof.
    intros Ha Hb [[H1 H2]|[(H1 & H2 & H3)|(H1 & H2 & H3)]] [[K1 K2]|[(K1 & K2 & K3)|(K1 & K2 & K3)]]; try congruence.
    - exact (dominates_irrefl _ (dominates_trans _ _ _ H3 K3)).
    - rewrite (flt_asym _ _ H3) in K3. discriminate.
  Qed.
  (** not beaten by *)
  Definition nb (b x : A) : Prop := ~ better x b.
  Lemma nb_trans a b c : ok a -> ok b -> ok c -> nb a b -> nb b c -> nb a c.
  Proof. intros Ha Hb Hc H1 H2 H3. destruct (better_weak2 obj cv feas c b a Hc Hb Ha H3) as [K|K]; auto. Qed.

  Lemma g3_swap_perm pop i : 0 < length pop -> i < length pop -> Permutation pop (g3_swap d obj cv feas pop i) .
  Proof.
    intros H0 Hi. unfold g3_swap. destruct (isb (nth i pop d) (nth 0 pop d)); auto. destruct pop as [|p pop]; [simpl in H0; lia|]. destruct i as [|i]; cbn [nth upd]; auto.
    simpl in Hi. assert (Hl : i < length pop) by lia. clear - Hl. revert i Hl p. induction pop as [|q pop IH]; intros [|i] Hl p; cbn [nth upd] in *; try (simpl in Hl; lia).
    - apply perm_swap.
    - simpl in Hl. rewrite perm_swap. rewrite (IH i ltac:(lia) p). apply perm_swap.
  Qed.
  Lemma g3_swap_nth pop i j : 0 < length pop -> i < length pop ->
    nth j (g3_swap d obj cv feas pop i) d = if isb (nth i pop d) (nth 0 pop d) then (if j =? i then nth 0 pop d else if j =? 0 then nth i pop d else nth j pop d) else nth j pop d.
  Proof.
    intros H0 Hi. unfold g3_swap. destruct (isb (nth i pop d) (nth 0 pop d)); auto. rewrite nth_upd, length_upd. replace (i <? length pop) with true by (symmetry; now apply Nat.ltb_lt). rewrite andb_true_r.
    destruct (j =? i); auto. rewrite nth_upd. replace (0 <? length pop) with true by (symmetry; now apply Nat.ltb_lt). rewrite andb_true_r. auto.
  Qed.
  (** the swap loop moves the best of the visited positions to the front *)
  Lemma swap_loop rnd : forall pop done, NoDup (done ++ rnd) -> pop <> [] -> Forall ok pop -> (forall i, In i (done ++ rnd) -> i < length pop) ->
    (forall i, In i done -> nb (nth 0 pop d) (nth i pop d)) ->
    let out := fold_left (g3_swap d obj cv feas) rnd pop in
    Permutation pop out /\ nb (nth 0 out d) (nth 0 pop d) /\ (forall i, In i (done ++ rnd) -> nb (nth 0 out d) (nth i out d)) /\ (forall i, In i rnd -> nb (nth 0 out d) (nth i pop d)) /\ (forall j, j <> 0 -> ~ In j rnd -> nth j out d = nth j pop d).
  Proof.
    induction rnd as [|i rnd IH]; intros pop done HN Hne HO HB HD; cbn [fold_left].
    { rewrite app_nil_r. split; auto. assert (H0 : In (nth 0 pop d) pop) by (apply nth_In; destruct pop; [congruence|simpl; lia]). rewrite Forall_forall in HO. split; [now apply better_irr, HO|]. split; auto. split; auto. intros j []. }
    assert (H0 : 0 < length pop) by (destruct pop; [congruence|simpl; lia]).
    assert (Hi : i < length pop) by (apply HB, in_or_app; simpl; auto).
    set (pop' := g3_swap d obj cv feas pop i). pose proof (g3_swap_perm pop i H0 Hi) as HP. fold pop' in HP.
    assert (HO' : Forall ok pop') by (apply Forall_forall; intros x Hx; rewrite Forall_forall in HO; apply HO, (Permutation_in _ (Permutation_sym HP)), Hx).
    assert (Hok : forall j, j < length pop -> ok (nth j pop d)) by (intros j Hj; rewrite Forall_forall in HO; apply HO, nth_In, Hj).
    assert (HL' : length pop' = length pop) by (symmetry; now apply Permutation_length).
    assert (H0' : nth 0 pop' d = if isb (nth i pop d) (nth 0 pop d) then nth i pop d else nth 0 pop d).
    { unfold pop'. rewrite g3_swap_nth by auto. destruct (isb (nth i pop d) (nth 0 pop d)) eqn:E; auto. destruct (Nat.eqb_spec 0 i) as [<-|]; auto. }
    assert (Hup : nb (nth 0 pop' d) (nth 0 pop d)).
    { rewrite H0'. destruct (isb (nth i pop d) (nth 0 pop d)) eqn:E; [|now apply better_irr, Hok]. apply isb_iff in E; auto. apply better_asym; auto. }
    assert (Hnb : ~ In i (done ++ rnd)) by (apply NoDup_remove_2 in HN; auto).
    destruct (IH pop' (done ++ [i])) as (I1 & I2 & I3 & I5 & I4); auto.
    { now rewrite <- app_assoc. }
    { intros E. rewrite E in HL'. simpl in HL'. lia. }
    { intros j Hj. rewrite HL'. apply HB. rewrite <- app_assoc in Hj. exact Hj. }
    { intros j Hj. apply in_app_or in Hj as [Hj|[<-|[]]].
      - assert (Hji : j <> i) by (intros ->; apply Hnb, in_or_app; auto). assert (Hjl : j < length pop) by (apply HB, in_or_app; auto).
        destruct (Nat.eq_dec j 0) as [->|Hj0]; [apply better_irr; rewrite H0'; destruct (isb (nth i pop d) (nth 0 pop d)); auto|].
        assert (Ej : nth j pop' d = nth j pop d).
        { unfold pop'. rewrite g3_swap_nth by auto. destruct (isb (nth i pop d) (nth 0 pop d)); auto. destruct (Nat.eqb_spec j i) as [|_]; [contradiction|]. destruct (Nat.eqb_spec j 0); [contradiction|auto]. }
        rewrite Ej. apply nb_trans with (nth 0 pop d); auto. rewrite H0'; destruct (isb (nth i pop d) (nth 0 pop d)); auto.
      - rewrite H0'. unfold pop'. rewrite g3_swap_nth by auto. destruct (isb (nth i pop d) (nth 0 pop d)) eqn:E.
        + rewrite Nat.eqb_refl. rewrite H0' in Hup. exact Hup.
        + intros HB'. apply isb_iff in HB'; auto. congruence. }
    split; [eapply perm_trans; eauto|].
    assert (Hof : ok (nth 0 (fold_left (g3_swap d obj cv feas) rnd pop') d)).
    { assert (In (nth 0 (fold_left (g3_swap d obj cv feas) rnd pop') d) pop').
      { apply (Permutation_in _ (Permutation_sym I1)), nth_In. rewrite <- (Permutation_length I1), HL'. auto. }
      rewrite Forall_forall in HO'. auto. }
    assert (Ho0 : ok (nth 0 pop' d)) by (rewrite Forall_forall in HO'; apply HO', nth_In; lia).
    assert (Hff : nb (nth 0 (fold_left (g3_swap d obj cv feas) rnd pop') d) (nth 0 pop d)) by (apply nb_trans with (nth 0 pop' d); auto).
    split; [exact Hff|]. split; [|split].
    - intros j Hj. apply I3. rewrite <- app_assoc. exact Hj.
    - intros j [<-|Hj].
      + apply nb_trans with (nth 0 pop' d); auto. rewrite H0'. destruct (isb (nth i pop d) (nth 0 pop d)) eqn:E; [now apply better_irr, Hok|]. intros HB'. apply isb_iff in HB'; auto. congruence.
      + destruct (Nat.eq_dec j 0) as [Ej0|Hj0]; [rewrite Ej0; exact Hff|]. assert (Ej : nth j pop' d = nth j pop d).
        { unfold pop'. rewrite g3_swap_nth by auto. destruct (isb (nth i pop d) (nth 0 pop d)); auto. destruct (Nat.eqb_spec j i) as [Eji|_]; [exfalso; apply Hnb; rewrite <- Eji; apply in_or_app; auto|].
          destruct (Nat.eqb_spec j 0); [contradiction|auto]. }
        rewrite <- Ej. now apply I5.
    - intros j Hj Hjr. simpl in Hjr. rewrite I4 by tauto. unfold pop'. rewrite g3_swap_nth by auto. destruct (isb (nth i pop d) (nth 0 pop d)); auto.
      destruct (Nat.eqb_spec j i) as [->|]; [tauto|]. destruct (Nat.eqb_spec j 0); [contradiction|auto].
  Qed.

  (** one loop: the population keeps its size, loses only members of the pool, and its first member is not beaten by any member of the pool *)
  Lemma g3_step pop rnd off : lex_ok lex -> (forall x, In x (pop ++ off) -> ok x /\ cv_consistent cv feas x) -> NoDup rnd -> rnd <> [] -> (forall i, In i rnd -> i < length pop) ->
    (forall x, In x pop -> nb (nth 0 pop d) x) ->
    let out := g3_update d obj cv feas asort lex hc pop rnd off in
    (exists lost, Permutation (pop ++ off) (out ++ lost)) /\ length out = length pop /\ forall x, In x (pop ++ off) -> nb (nth 0 out d) x.
  Proof.
    intros HL Hok HN Hrne HB H0 out. set (family := gather d pop rnd ++ off).
    assert (Hfam : incl family (pop ++ off)).
    { intros x Hx. apply in_app_or in Hx as [Hx|Hx]; apply in_or_app; auto. left. apply in_map_iff in Hx as (i & <- & Hi). apply nth_In; auto. }
    assert (HOf : Forall ok family) by (apply Forall_forall; intros x Hx; apply Hok, Hfam, Hx).
    destruct (fit_sorted d obj cv feas asort lex hc family HL HOf) as (s & Hps & Hs & Hn).
    assert (Hlf : length family = length rnd + length off) by (unfold family; now rewrite app_length, length_gather).
    assert (Hls : length s = length rnd + length off) by (now rewrite <- (Permutation_length Hps)).
    unfold out, g3_update. fold family. rewrite Hn. set (vals := firstn (length rnd) s).
    assert (Hlv : length vals = length rnd) by (unfold vals; rewrite firstn_length; lia).
    destruct (assign_perm d rnd pop vals HN HB Hlv) as (others & P1 & P2).
    set (pop1 := assign_at pop rnd vals) in *. assert (HL1 : length pop1 = length pop) by apply assign_length.
    assert (Hpool : Permutation (pop ++ off) (pop1 ++ skipn (length rnd) s)).
    { rewrite P1, P2. rewrite <- !app_assoc. transitivity (others ++ gather d pop rnd ++ off).
      - rewrite !app_assoc. apply Permutation_app_tail, Permutation_app_comm.
      - change (gather d pop rnd ++ off) with family. rewrite Hps. rewrite <- (firstn_skipn (length rnd) s) at 1. fold vals. rewrite !app_assoc. apply Permutation_app_tail, Permutation_app_comm. }
    assert (HO1 : forall x, In x pop1 -> ok x /\ cv_consistent cv feas x) by (intros x Hx; apply Hok, (Permutation_in _ (Permutation_sym Hpool)), in_or_app; auto).
    assert (Hne : pop1 <> []) by (destruct rnd as [|i rnd]; [congruence|]; intros E; rewrite E in HL1; specialize (HB i (or_introl eq_refl)); simpl in HL1; lia).
    destruct (swap_loop rnd pop1 []) as (I1 & I2 & _ & I3 & I4); auto; try (now apply Forall_forall; intros; apply HO1).
    { intros i Hi. rewrite HL1. now apply HB. }
    { intros i []. }
    set (fin := fold_left (g3_swap d obj cv feas) rnd pop1) in *.
    split; [exists (skipn (length rnd) s); rewrite Hpool; now apply Permutation_app_tail|]. split; [rewrite <- (Permutation_length I1); auto|].
    assert (Hl0 : 0 < length pop1) by (destruct pop1; [congruence|simpl; lia]).
    assert (Hf0 : In (nth 0 fin d) pop1) by (apply (Permutation_in _ (Permutation_sym I1)), nth_In; rewrite <- (Permutation_length I1); auto).
    assert (HEr : exists r0 rnd', rnd = r0 :: rnd') by (destruct rnd as [|r0 rnd']; [congruence|eauto]). destruct HEr as (r0 & rnd' & Er). assert (Hr0 : In r0 rnd) by (rewrite Er; simpl; auto).
    assert (HEs : exists b s', s = b :: s') by (destruct s as [|b s']; [rewrite Er in Hls; simpl in Hls; lia|eauto]). destruct HEs as (b & s' & Es).
    assert (Hbin : In b family) by (apply (Permutation_in _ (Permutation_sym Hps)); rewrite Es; simpl; auto).
    assert (Hbf : forall x, In x family -> nb b x).
    { intros x Hx. apply leq_not_better; try (apply Hok, Hfam; auto).
      apply (Permutation_in _ Hps) in Hx. rewrite Es in Hx, Hs. destruct Hx as [<-|Hx]; [apply leq_refl; apply Hok, Hfam; auto|]. apply (In_nth _ _ d) in Hx as (q & Hq & <-). apply (Hs 0 (S q)). simpl; lia. }
    assert (Hb1 : nth r0 pop1 d = b).
    { assert (E := assign_at_nth d rnd pop vals 0 HN HB Hlv). replace (nth 0 rnd 0) with r0 in E by (now rewrite Er). fold pop1 in E. rewrite E by (rewrite Er; simpl; lia). unfold vals. rewrite Er, Es. reflexivity. }
    assert (Hfb : nb (nth 0 fin d) b) by (rewrite <- Hb1; auto).
    assert (Hff : forall x, In x family -> nb (nth 0 fin d) x).
    { intros x Hx. apply nb_trans with b; auto; [now apply HO1|now apply Hok, Hfam|now apply Hok, Hfam]. }
    intros x Hx. apply in_app_or in Hx as [Hx|Hx]; [|apply Hff, in_or_app; auto].
    assert (Hp0 : In (nth 0 pop d) pop) by (apply nth_In; rewrite <- HL1; auto).
    apply nb_trans with (nth 0 pop d); auto; [now apply HO1|apply Hok, in_or_app; auto|apply Hok, in_or_app; auto|].
    destruct (in_dec Nat.eq_dec 0 rnd) as [H0r|H0r].
    - apply Hff, in_or_app. left. apply in_map_iff. exists 0. auto.
    - unfold pop1 in I2. rewrite assign_other in I2 by auto. exact I2.
  Qed.
End G3.

(** C92: the population of G3PCX keeps its size and consists of evaluated solutions; its first member, the reported optimum, is beaten by nothing evaluated so far (in any round) *)
Theorem C92_g3pcx : forall (A : Type) (d : A) obj cv feas asort lex hc (init : list A) loops,
  lex_ok lex -> init <> [] -> (forall x, In x (init ++ concat (map snd loops)) -> ind_ok obj cv 1 x /\ cv_consistent cv feas x) ->
  (forall l, In l loops -> NoDup (fst l) /\ fst l <> [] /\ forall i, In i (fst l) -> i < length init) ->
  let final := g3_run d obj cv feas asort lex hc init loops in
  length final = length init /\ (exists lost, Permutation (init ++ concat (map snd loops)) (final ++ lost)) /\
  best obj cv feas (init ++ concat (map snd loops)) (g3_opt d final) /\ In (g3_opt d final) final.
Proof.
  intros A d obj cv feas asort lex hc init loops HL Hne Hok HV final.
  assert (Run : forall loops pop seen lost, (forall l, In l loops -> NoDup (fst l) /\ fst l <> [] /\ forall i, In i (fst l) -> i < length pop) ->
    (forall x, In x (seen ++ concat (map snd loops)) -> ind_ok obj cv 1 x /\ cv_consistent cv feas x) -> Permutation seen (pop ++ lost) -> pop <> [] -> (forall x, In x seen -> nb obj cv feas (nth 0 pop d) x) ->
    let fin := fold_left (fun pop l => g3_update d obj cv feas asort lex hc pop (fst l) (snd l)) loops pop in
    length fin = length pop /\ (exists lost', Permutation (seen ++ concat (map snd loops)) (fin ++ lost')) /\ forall x, In x (seen ++ concat (map snd loops)) -> nb obj cv feas (nth 0 fin d) x).
  { clear - HL. induction loops as [|[rnd off] loops IH]; intros pop seen lost HV Hok HP Hne H0; cbn [fold_left map concat fst snd].
    { rewrite app_nil_r. split; auto. split; eauto. }
    destruct (HV (rnd, off) (or_introl eq_refl)) as (V1 & V2 & V3). cbn [fst] in *.
    assert (Hin : incl (pop ++ off) (seen ++ off)).
    { intros x Hx. apply in_app_or in Hx as [Hx|Hx]; apply in_or_app; auto. left. apply (Permutation_in _ (Permutation_sym HP)), in_or_app; auto. }
    cbn [map concat snd] in Hok. rewrite app_assoc in *.
    destruct (g3_step d obj cv feas asort lex hc pop rnd off) as ((l1 & S1) & S2 & S3); auto.
    { intros x Hx. apply Hok, in_or_app. left. auto. }
    { intros x Hx. apply H0, (Permutation_in _ (Permutation_sym HP)), in_or_app; auto. }
    set (pop' := g3_update d obj cv feas asort lex hc pop rnd off) in *.
    assert (Hne' : pop' <> []) by (intros E; rewrite E in S2; destruct pop; [congruence|discriminate]).
    destruct (IH pop' (seen ++ off) (l1 ++ lost)) as (K1 & K2 & K3); auto.
    { intros l Hl. destruct (HV l (or_intror Hl)) as (? & ? & ?). rewrite S2. auto. }
    { rewrite HP. rewrite app_assoc, <- S1. rewrite <- !app_assoc. apply Permutation_app_head, Permutation_app_comm. }
    { intros x Hx. apply in_app_or in Hx as [Hx|Hx]; [|apply S3, in_or_app; auto].
      assert (Hp0 : In (nth 0 pop d) pop) by (apply nth_In; destruct pop; [congruence|simpl; lia]).
      assert (Hq0 : In (nth 0 pop' d) (pop ++ off)) by (apply (Permutation_in _ (Permutation_sym S1)), in_or_app; left; apply nth_In; destruct pop'; [congruence|simpl; lia]).
      apply nb_trans with (nth 0 pop d); auto; try (apply Hok, in_or_app; left; apply in_or_app; auto; fail).
      - apply Hok, in_or_app. left. auto.
      - apply Hok, in_or_app. left. apply Hin, in_or_app. auto.
      - apply S3, in_or_app; auto. }
    rewrite K1, S2. split; auto. }
  destruct (fit_sorted d obj cv feas asort lex hc init HL) as (s & Hps & Hs & Hn); [apply Forall_forall; intros x Hx; apply Hok, in_or_app; auto|].
  assert (Ei : g3_init d obj cv feas asort lex hc init = s) by (unfold g3_init; rewrite Hn, (Permutation_length Hps); apply firstn_all).
  assert (Hsne : s <> []) by (intros ->; apply Permutation_sym, Permutation_nil in Hps; congruence).
  destruct (Run loops s init []) as (K1 & K2 & K3); auto.
  { intros l Hl. rewrite <- (Permutation_length Hps). auto. }
  { now rewrite app_nil_r. }
  { intros x Hx. destruct s as [|b s']; [congruence|]. cbn [nth]. assert (Hb : In b init) by (apply (Permutation_in _ (Permutation_sym Hps)); simpl; auto).
    apply leq_not_better; try (apply Hok, in_or_app; auto). apply (Permutation_in _ Hps) in Hx. destruct Hx as [<-|Hx]; [apply leq_refl; apply Hok, in_or_app; auto|].
    apply (In_nth _ _ d) in Hx as (q & Hq & <-). apply (Hs 0 (S q)). simpl; lia. }
  unfold final, g3_run. rewrite Ei in *. set (fin := fold_left _ loops s) in *. rewrite (Permutation_length Hps). split; auto. split; auto.
  assert (Hin : In (g3_opt d fin) fin) by (apply nth_In; rewrite K1; destruct s; [congruence|simpl; lia]).
  split; auto. split; auto. destruct K2 as (lost & K2). apply (Permutation_in _ (Permutation_sym K2)), in_or_app; auto.
Qed.
Print Assumptions C92_g3pcx.

(** C92: is_better (eps = 0) is exactly "strictly better" *)
Theorem C92_is_better : forall (A : Type) obj cv feas (a b : A), ind_ok obj cv 1 a -> ind_ok obj cv 1 b -> (is_better0 obj cv feas a b = true <-> better_than obj cv feas a b).
Proof. intros. now apply isb_iff. Qed.
Print Assumptions C92_is_better.

(** C92: an iteration evaluates at most pop_size and more than pop_size - n_offsprings offspring; with n_offsprings > pop_size iterations evaluate nothing at all *)
Theorem C92_loops : forall pop_size n_off, 1 <= n_off ->
  g3_loops pop_size n_off * n_off <= pop_size < g3_loops pop_size n_off * n_off + n_off /\ (g3_loops pop_size n_off = 0 <-> pop_size < n_off).
Proof.
  intros p n Hn. unfold g3_loops. pose proof (Nat.div_mod p n ltac:(lia)) as E. pose proof (Nat.mod_upper_bound p n ltac:(lia)) as B. split; [nia|]. apply Nat.div_small_iff. lia.
Qed.
Print Assumptions C92_loops.

Definition g_init : list dind := [(1, [5], 0); (2, [4], 2); (3, [9], 0); (4, [6], 0)].
Definition g_loops : list (list nat * list dind) := [([2; 1], [(5, [4], 0); (6, [7], 0)]); ([0; 3], [(7, [3], 0); (8, [4], 0)])].
Example C92_g3_case : (forall l, In l g_loops -> NoDup (fst l) /\ fst l <> [] /\ forall i, In i (fst l) -> i < length g_init) /\
  g3_init dd d_obj d_cv d_feas np_argsort np_lex true g_init = [(1, [5], 0); (4, [6], 0); (3, [9], 0); (2, [4], 2)] /\
  g3_run dd d_obj d_cv d_feas np_argsort np_lex true g_init g_loops = [(7, [3], 0); (4, [6], 0); (1, [5], 0); (5, [4], 0)].
Proof.
  split; [|split; vm_compute; reflexivity]. intros l [<-|[<-|[]]]; cbn [fst]; (split; [repeat constructor; simpl; intuition lia|]; split; [discriminate|]; intros i Hi; simpl in *; intuition lia).
Qed.
