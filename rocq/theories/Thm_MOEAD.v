(** * C66: MOEA/D *)
From Coq Require Import List Arith Bool ZArith QArith Lia Lqa Permutation.
From Verif Require Import ListAux P_Perm M_Individual M_Survival M_Decomp S_Decomp Thm_Decomp M_Norm S_Norm Thm_Norm M_MOEAD S_MOEAD.
Import ListNotations.
Local Open Scope nat_scope.

Lemma Qlt_b_iff a b : Qlt_b a b = true <-> (a < b)%Q.
Proof. unfold Qlt_b. rewrite negb_true_iff. split; intros H. - apply Qnot_le_lt. intros C. apply Qle_bool_iff in C. congruence. - destruct (Qle_bool b a) eqn:E; auto. apply Qle_bool_iff in E. lra. Qed.

(** ** neighbourhoods *)
Theorem C66_neighbours : forall D order n_neighbors n k,
  length order = n -> (forall i, i < n -> is_argsort Qlt_b 0%Q (nth i D []) (nth i order [])) -> (forall i, i < n -> length (nth i D []) = n) -> k < n ->
  let N := nth k (neighbors order n_neighbors) [] in
  let dist j := nth j (nth k D []) 0%Q in
  length N = Nat.min n_neighbors n /\ NoDup N /\ (forall j, In j N -> j < n) /\
  (forall i j, In i N -> j < n -> ~ In j N -> (dist i <= dist j)%Q) /\
  (1 <= n_neighbors -> (dist k == 0)%Q -> (forall j, j < n -> j <> k -> (0 < dist j)%Q) -> In k N).
Proof.
  intros D order nn n k HL HA HR Hk N dist.
  assert (EN : N = firstn nn (nth k order [])).
  { unfold N, neighbors. rewrite (nth_indep _ [] (firstn nn [])) by (rewrite map_length; lia). apply map_nth. }
  destruct (HA k Hk) as [HP HS]. rewrite HR in HP by auto. set (o := nth k order []) in *.
  assert (Lo : length o = n) by (rewrite (Permutation_length HP), seq_length; auto).
  assert (NDo : NoDup o) by (eapply perm_seq_NoDup; eauto).
  assert (B : forall j, In j N -> j < n).
  { intros j Hj. rewrite EN in Hj. apply (perm_seq_In o n j HP). rewrite <- (firstn_skipn nn o). apply in_app_iff. auto. }
  assert (HB : forall i j, In i N -> j < n -> ~ In j N -> (dist i <= dist j)%Q).
  { intros i j Hi Hj Hn. rewrite EN in Hi, Hn. apply (perm_seq_In o n j HP) in Hj. rewrite <- (firstn_skipn nn o) in Hj. apply in_app_iff in Hj as [Hj|Hj]; [contradiction|].
    apply (In_nth _ _ 0) in Hi as (p & Hp & <-). apply (In_nth _ _ 0) in Hj as (q & Hq & <-). rewrite firstn_length in Hp. rewrite skipn_length in Hq.
    rewrite nth_firstn, nth_skipn by lia.
    destruct (Qlt_le_dec (dist (nth (nn + q) o 0)) (dist (nth p o 0))) as [C|C]; auto. exfalso.
    specialize (HS p (nn + q)). assert (HS' := HS ltac:(lia) ltac:(lia)). apply Qlt_b_iff in C. unfold dist in C. congruence. }
  assert (ND : NoDup N). { rewrite EN. rewrite <- (firstn_skipn nn o) in NDo. apply NoDup_app_iff in NDo. tauto. }
  assert (LN : length N = Nat.min nn n) by (rewrite EN, firstn_length; lia).
  repeat (split; [auto; fail|]). intros H1 H0 Hpos. destruct (in_dec Nat.eq_dec k N) as [|C]; auto. exfalso.
  destruct N as [|i N'] eqn:E; [cbn in LN; lia|]. assert (Hi : i < n) by (apply B; cbn; auto).
  assert (i <> k) by (intros ->; apply C; cbn; auto). specialize (HB i k (or_introl eq_refl) Hk C). specialize (Hpos i Hi H). lra.
Qed.
Print Assumptions C66_neighbours.

(** ** one replacement *)
Lemma fold_upd_nth {A} (off d : A) J : forall pop i, (forall j, In j J -> j < length pop) -> i < length pop ->
  nth i (fold_left (fun p i => upd p i off) J pop) d = if existsb (Nat.eqb i) J then off else nth i pop d.
Proof.
  induction J as [|j J IH]; intros pop i HJ Hi; auto. cbn [fold_left existsb]. rewrite IH.
  - destruct (existsb (Nat.eqb i) J) eqn:E; [now rewrite orb_true_r|]. rewrite orb_false_r. destruct (Nat.eqb_spec i j) as [->|Hij].
    + apply nth_upd_eq. apply HJ. cbn. auto.
    + apply nth_upd_neq. auto.
  - intros k Hk. rewrite length_upd. apply HJ. cbn. auto.
  - rewrite length_upd. auto.
Qed.
Lemma fold_upd_length {A} (off : A) J : forall pop, length (fold_left (fun p i => upd p i off) J pop) = length pop.
Proof. induction J; intros; cbn [fold_left]; auto. rewrite IHJ. apply length_upd. Qed.

Section Repl.
  Variables (sc : scal) (rnd : Q -> Q) (eps : Q) (m : nat) (W : list (list Q)) (nb : list (list nat)).
  Notation val := (value sc rnd eps).

  Lemma decomposed ideal F Wn : 2 <= m -> length F = length Wn ->
    (exists v, decomp_do sc rnd eps TAuto (A2 m F) (A2 m Wn) TAuto (Some ideal) None = Some (D1 v) /\ length Wn <> 1 /\ length v = length Wn /\
               forall i, i < length Wn -> nth i v 0%Q = val ideal (nth i F []) (nth i Wn [])) \/
    (exists x, decomp_do sc rnd eps TAuto (A2 m F) (A2 m Wn) TAuto (Some ideal) None = Some (D2 [[x]]) /\ length Wn = 1 /\ x = val ideal (nth 0 F []) (nth 0 Wn [])).
  Proof.
    intros Hm HL. rewrite C47_auto by auto. cbn [rows_of].
    pose proof (C47_shapes sc rnd eps TAuto (A2 m F) (A2 m Wn) (Some ideal) None (map (fun x => rnd (x - eps)%Q) ideal)) as HS.
    assert (HR : reference_point rnd eps (cols_of (A2 m F)) (Some ideal) None (map (fun x => rnd (x - eps)%Q) ideal)).
    { split; [discriminate|]. split; [|discriminate]. intros _ z E. injection E as <-. auto. }
    specialize (HS HR). cbn [rows_of cols_of] in HS. destruct HS as (H1 & H2 & _ & _).
    rewrite HL. destruct (Nat.eqb_spec (length Wn) 1) as [E1|E1]; cbn [negb andb].
    - rewrite andb_false_r. right. destruct H1 as (M & E & LM & RM & HM). destruct M as [|r [|]]; cbn in LM; try lia. apply Forall_inv in RM. rewrite E1 in RM.
      destruct r as [|x [|]]; cbn in RM; try lia. exists x. split; [exact E|]. split; auto. specialize (HM 0 0 ltac:(lia) ltac:(lia)). cbn [nth] in HM. exact HM.
    - rewrite Nat.eqb_refl. cbn [andb]. left. destruct (H2 HL) as (v & E & LV & HV). exists v. split; [exact E|]. split; auto. split; [lia|]. intros i Hi. apply HV. lia.
  Qed.
  Lemma decomposed_off ideal f Wn : 2 <= m ->
    (exists v, decomp_do sc rnd eps TAuto (A2 m [f]) (A2 m Wn) TAuto (Some ideal) None = Some (D1 v) /\ length Wn <> 1 /\ length v = length Wn /\
               forall i, i < length Wn -> nth i v 0%Q = val ideal f (nth i Wn [])) \/
    (exists x, decomp_do sc rnd eps TAuto (A2 m [f]) (A2 m Wn) TAuto (Some ideal) None = Some (D2 [[x]]) /\ length Wn = 1 /\ x = val ideal f (nth 0 Wn [])).
  Proof.
    intros Hm. destruct (Nat.eqb_spec (length Wn) 1) as [E1|E1].
    - destruct (decomposed ideal [f] Wn Hm) as [(v & _ & C & _)|H]; [cbn; lia|lia|]. right. exact H.
    - rewrite C47_auto by auto. cbn [rows_of length].
      pose proof (C47_shapes sc rnd eps TAuto (A2 m [f]) (A2 m Wn) (Some ideal) None (map (fun x => rnd (x - eps)%Q) ideal)) as HS.
      assert (HR : reference_point rnd eps (cols_of (A2 m [f])) (Some ideal) None (map (fun x => rnd (x - eps)%Q) ideal)).
      { split; [discriminate|]. split; [|discriminate]. intros _ z E. injection E as <-. auto. }
      specialize (HS HR). cbn [rows_of cols_of length] in HS. destruct HS as (_ & _ & H3 & _).
      apply Nat.eqb_neq in E1 as E2. rewrite E2. cbn [Nat.eqb negb andb]. left. destruct (H3 eq_refl) as (v & E & LV & HV). exists v. auto.
  Qed.

  (** the slots whose solution is replaced are exactly the neighbours for whose subproblem the offspring is strictly better *)
  Lemma replace_spec ideal k off pop : 2 <= m -> NoDup (nth k nb []) -> (forall j, In j (nth k nb []) -> j < length pop) ->
    exists pop', replace sc rnd eps m W nb ideal k off pop = Some pop' /\ length pop' = length pop /\
      forall i, i < length pop ->
        (In i (nth k nb []) /\ (val ideal (m_f off) (nth i W []) < val ideal (m_f (nth i pop mind0)) (nth i W []))%Q -> nth i pop' mind0 = off) /\
        (~ (In i (nth k nb []) /\ (val ideal (m_f off) (nth i W []) < val ideal (m_f (nth i pop mind0)) (nth i W []))%Q) -> nth i pop' mind0 = nth i pop mind0).
  Proof.
    intros Hm HN HB. set (N := nth k nb []) in *. unfold replace. fold N.
    assert (LW : length (gather [] W N) = length N) by apply length_gather.
    assert (LF : length (map m_f (gather mind0 pop N)) = length N) by (rewrite map_length; apply length_gather).
    assert (exists J, (exists o f, decomp_do sc rnd eps TAuto (A2 m [m_f off]) (A2 m (gather [] W N)) TAuto (Some ideal) None = Some o /\
                        decomp_do sc rnd eps TAuto (A2 m (map m_f (gather mind0 pop N))) (A2 m (gather [] W N)) TAuto (Some ideal) None = Some f /\ where_less o f = Some J) /\
              (forall p, In p J <-> p < length N /\ (val ideal (m_f off) (nth (nth p N 0%nat) W []) < val ideal (m_f (nth (nth p N 0%nat) pop mind0)) (nth (nth p N 0%nat) W []))%Q)) as (J & (o & f & -> & -> & ->) & HJ).
    { assert (NF : forall p, p < length N -> nth p (map m_f (gather mind0 pop N)) [] = m_f (nth (nth p N 0) pop mind0)).
      { intros p Hp. rewrite (nth_indep _ [] (m_f mind0)) by lia. rewrite map_nth. now rewrite nth_gather. }
      destruct (decomposed_off ideal (m_f off) (gather [] W N) Hm) as [(v & E1 & HL1 & Lv & Hv)|(x & E1 & HL1 & Hx)];
      destruct (decomposed ideal (map m_f (gather mind0 pop N)) (gather [] W N) Hm ltac:(congruence)) as [(u & E2 & HL2 & Lu & Hu)|(y & E2 & HL2 & Hy)]; try contradiction.
      - eexists. split; [exists (D1 v), (D1 u); repeat split; auto; cbn [where_less]; reflexivity|]. rewrite LW in *. intros p. rewrite In_where, Lu, Qlt_b_iff. split; intros [Hp H]; split; auto.
        + rewrite Hv, Hu in H by auto. rewrite NF in H by auto. now rewrite nth_gather in H by auto.
        + rewrite Hv, Hu by auto. rewrite NF by auto. now rewrite nth_gather by auto.
      - exists (if Qlt_b x y then [0] else []). split; [exists (D2 [[x]]), (D2 [[y]]); repeat split; auto; cbn; destruct (Qlt_b x y); reflexivity|].
        rewrite LW in *. rewrite NF in Hy by lia. rewrite nth_gather in Hx, Hy by lia. intros p. destruct (Qlt_b x y) eqn:E.
        + apply Qlt_b_iff in E. split.
          * intros [<-|[]]. split; [lia|]. rewrite <- Hx, <- Hy. auto.
          * intros [Hp _]. left. lia.
        + split; [intros []|]. intros [Hp H]. assert (p = 0) by lia. subst p. rewrite <- Hx, <- Hy in H. apply Qlt_b_iff in H. congruence. }
    eexists. split; [reflexivity|]. split; [apply fold_upd_length|].
    assert (HG : forall i, In i (gather 0 N J) <-> In i N /\ (val ideal (m_f off) (nth i W []) < val ideal (m_f (nth i pop mind0)) (nth i W []))%Q).
    { intros i. unfold gather. rewrite in_map_iff. split.
      - intros (p & <- & Hp). apply HJ in Hp as [Hp H]. split; auto. now apply nth_In.
      - intros [Hi H]. apply (In_nth _ _ 0) in Hi as (p & Hp & <-). exists p. split; auto. apply HJ. auto. }
    intros i Hi. rewrite fold_upd_nth; auto; [|intros j Hj; apply HG in Hj; apply HB; tauto].
    destruct (existsb (Nat.eqb i) (gather 0 N J)) eqn:E.
    - apply existsb_exists in E as (j & Hj & Ej). apply Nat.eqb_eq in Ej. subst j. apply HG in Hj. split; auto. contradiction.
    - split; auto. intros H. apply HG in H. exfalso. assert (existsb (Nat.eqb i) (gather 0 N J) = true); [|congruence].
      apply existsb_exists. exists i. split; auto. apply Nat.eqb_refl.
  Qed.
End Repl.

Theorem C66_replace : forall sc rnd eps m W nb ideal k off pop, 2 <= m ->
  NoDup (nth k nb []) -> (forall j, In j (nth k nb []) -> j < length pop) ->
  let better i := (value sc rnd eps ideal (m_f off) (nth i W []) < value sc rnd eps ideal (m_f (nth i pop mind0)) (nth i W []))%Q in
  exists pop', replace sc rnd eps m W nb ideal k off pop = Some pop' /\ length pop' = length pop /\
    forall i, i < length pop ->
      (In i (nth k nb []) /\ better i -> nth i pop' mind0 = off) /\
      (~ (In i (nth k nb []) /\ better i) -> nth i pop' mind0 = nth i pop mind0) /\
      (value sc rnd eps ideal (m_f (nth i pop' mind0)) (nth i W []) <= value sc rnd eps ideal (m_f (nth i pop mind0)) (nth i W []))%Q.
Proof.
  intros sc rnd eps m W nb ideal k off pop Hm HN HB better. destruct (replace_spec sc rnd eps m W nb ideal k off pop Hm HN HB) as (pop' & E & L & H).
  exists pop'. split; auto. split; auto. intros i Hi. destruct (H i Hi) as [H1 H2]. split; auto. split; auto.
  destruct (in_dec Nat.eq_dec i (nth k nb [])) as [Hin|Hout].
  - destruct (Qlt_le_dec (value sc rnd eps ideal (m_f off) (nth i W [])) (value sc rnd eps ideal (m_f (nth i pop mind0)) (nth i W []))) as [C|C].
    + rewrite H1 by auto. lra.
    + rewrite H2 by (intros [_ X]; lra). lra.
  - rewrite H2 by tauto. lra.
Qed.
Print Assumptions C66_replace.

(** the hypotheses are met: three directions on a line, two neighbours each *)
Example C66_neighbours_ex : let D := [[0; 1; 2]; [1; 0; 1]; [2; 1; 0]]%Q in let order := map (argsort Qlt_b 0%Q) D in
  length order = 3 /\ neighbors order 2 = [[0; 1]; [1; 0]; [2; 1]].
Proof. split; vm_compute; reflexivity. Qed.
Example C66_replace_ex : option_map (map m_id) (replace (tchebicheff (fun x => x)) (fun x => x) 0%Q 2 [[1; 0]; [0; 1]; [1; 1]]%Q [[0; 2]; [1]; [2; 1]] [0; 0]%Q 2 {| m_id := 9; m_f := [3; 3]%Q |}
  [{| m_id := 0; m_f := [9; 9]%Q |}; {| m_id := 1; m_f := [8; 2]%Q |}; {| m_id := 2; m_f := [5; 1]%Q |}]) = Some [0; 1; 9].
Proof. vm_compute. reflexivity. Qed.
