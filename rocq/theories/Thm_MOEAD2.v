(** * C66: MOEA/D, whole runs *)
From Coq Require Import List Arith Bool ZArith QArith Lia Lqa Permutation.
From Verif Require Import ListAux P_Perm P_Cross M_Individual M_Survival M_Decomp S_Decomp Thm_Decomp M_Norm S_Norm Thm_Norm M_MOEAD S_MOEAD Thm_MOEAD.
Import ListNotations.
Local Open Scope nat_scope.

Section Run.
  Variables (sc : scal) (rnd : Q -> Q) (eps : Q) (m : nat) (W : list (list Q)) (nb : list (list nat)) (pop0 : list mind).
  Notation n := (length pop0).
  Hypothesis Hm : 2 <= m.
  Hypothesis Hn : 1 <= n.
  Hypothesis Hnb : forall k, k < n -> NoDup (nth k nb []) /\ forall j, In j (nth k nb []) -> j < n.
  Notation val := (value sc rnd eps).
  Definition objs (tr : list (nat * mind)) : list (list Q) := map m_f pop0 ++ map (fun ko => m_f (snd ko)) tr.

  Definition swept (tr : list (nat * mind)) (st : mst) : Prop :=
    exists ss pre, (forall s, In s ss -> Permutation s (seq 0 n)) /\ map fst tr = concat ss ++ pre /\ s_iter st = 2 + length ss /\
      match s_cur st with Some k => Permutation (pre ++ k :: s_todo st) (seq 0 n) | None => pre = [] end.
  Definition inv (tr : list (nat * mind)) (st : mst) : Prop :=
    length (s_pop st) = n /\ (forall x, In x (s_pop st) -> In x pop0 \/ In x (map snd tr)) /\
    (length (s_ideal st) = m /\ forall j, j < m -> least j (objs tr) (nth j (s_ideal st) 0%Q)) /\ swept tr st.

  Lemma inv_init : inv [] (moead_init m pop0).
  Proof.
    split; [reflexivity|]. split; [auto|]. split.
    - cbn [s_ideal moead_init]. split; [unfold col_min; now rewrite map_length, seq_length|]. intros j Hj. unfold objs. rewrite app_nil_r. apply col_min_least; auto. intros C. apply map_eq_nil in C. rewrite C in Hn. cbn in Hn. lia.
    - exists [], []. cbn. repeat split; auto. intros s [].
  Qed.
  Lemma infill_inv p tr st : Permutation p (seq 0 n) -> inv tr st -> inv tr (moead_infill p st) /\ s_cur (moead_infill p st) <> None /\ s_pop (moead_infill p st) = s_pop st /\ s_ideal (moead_infill p st) = s_ideal st.
  Proof.
    intros Hp HI. unfold moead_infill. destruct (s_cur st) eqn:E; [split; [exact HI|split; [congruence|auto]]|].
    destruct p as [|k p]; [apply Permutation_length in Hp; rewrite seq_length in Hp; cbn in Hp; lia|].
    cbn [s_cur s_pop s_ideal]. split; [|split; [discriminate|auto]].
    destruct HI as (A1 & A2 & A3 & ss & pre & H1 & H2 & H3 & H4). rewrite E in H4. cbn in H4. subst pre. split; [exact A1|]. split; [exact A2|]. split; [exact A3|].
    exists ss, []. cbn. auto.
  Qed.
  Lemma next_inv p off tr st : Permutation p (seq 0 n) -> inv tr st -> exists k st', moead_next sc rnd eps m W nb p off st = Some (k, st') /\ k < n /\ inv (tr ++ [(k, off)]) st' /\
    (forall j, j < m -> (nth j (s_ideal st') 0 <= nth j (s_ideal st) 0)%Q) /\
    forall i, i < n -> (val (s_ideal st') (m_f (nth i (s_pop st') mind0)) (nth i W []) <= val (s_ideal st') (m_f (nth i (s_pop st) mind0)) (nth i W []))%Q /\
                       (In i (nth k nb []) -> (val (s_ideal st') (m_f (nth i (s_pop st') mind0)) (nth i W []) <= val (s_ideal st') (m_f off) (nth i W []))%Q).
  Proof.
    intros Hp HI. destruct (infill_inv p tr st Hp HI) as (HI' & HC & EP & EI). unfold moead_next. set (s := moead_infill p st) in *. rewrite <- EP, <- EI.
    destruct (s_cur s) as [k|] eqn:Ek; [|congruence]. destruct HI' as (L & HM & (LI & HID) & ss & pre & HS & HT & Hit & Hcur). rewrite Ek in Hcur.
    assert (Hk : k < n). { apply (perm_seq_In _ n k Hcur). apply in_app_iff. right. left. auto. }
    destruct (Hnb k Hk) as [ND HB]. unfold moead_advance. rewrite Ek. set (ideal := col_min m [s_ideal s; m_f off]).
    destruct (C66_replace sc rnd eps m W nb ideal k off (s_pop s) Hm ND) as (pop' & E & LP & HR); [rewrite L; auto|]. cbn zeta. rewrite E.
    assert (HIN : forall x, In x pop' -> In x pop0 \/ In x (map snd (tr ++ [(k, off)]))).
    { intros x Hx. rewrite map_app, in_app_iff. cbn. apply (In_nth _ _ mind0) in Hx as (i & Hi & <-). rewrite LP in Hi. destruct (HR i Hi) as (R1 & R2 & _).
      destruct (in_dec Nat.eq_dec i (nth k nb [])) as [Hin|Hout].
      - destruct (Qlt_le_dec (val ideal (m_f off) (nth i W [])) (val ideal (m_f (nth i (s_pop s) mind0)) (nth i W []))) as [C|C].
        + rewrite R1 by auto. auto.
        + rewrite R2 by (intros [_ X]; lra). destruct (HM (nth i (s_pop s) mind0)); auto. now apply nth_In.
      - rewrite R2 by tauto. destruct (HM (nth i (s_pop s) mind0)); auto. now apply nth_In. }
    assert (HID' : length ideal = m /\ forall j, j < m -> least j (objs (tr ++ [(k, off)])) (nth j ideal 0%Q)).
    { split; [unfold ideal, col_min; now rewrite map_length, seq_length|]. intros j Hj. unfold objs. rewrite map_app, app_assoc. eapply least_cons; [apply HID; auto|]. apply col_min_least; auto. discriminate. }
    assert (HLE : forall j, j < m -> (nth j ideal 0 <= nth j (s_ideal s) 0)%Q).
    { intros j Hj. unfold ideal. destruct (col_min_least m [s_ideal s; m_f off] j) as [_ X]; [discriminate|auto|]. apply X. cbn. auto. }
    assert (HV : forall i, i < n -> (val ideal (m_f (nth i pop' mind0)) (nth i W []) <= val ideal (m_f (nth i (s_pop s) mind0)) (nth i W []))%Q /\
                       (In i (nth k nb []) -> (val ideal (m_f (nth i pop' mind0)) (nth i W []) <= val ideal (m_f off) (nth i W []))%Q)).
    { intros i Hi. destruct (HR i ltac:(lia)) as (R1 & R2 & R3). split; auto. intros Hin.
      destruct (Qlt_le_dec (val ideal (m_f off) (nth i W [])) (val ideal (m_f (nth i (s_pop s) mind0)) (nth i W []))) as [C|C].
      - rewrite R1 by auto. lra.
      - rewrite R2 by (intros [_ X]; lra). lra. }
    destruct (s_todo s) as [|k' todo] eqn:Et.
    - exists k. eexists. split; [reflexivity|]. split; auto. cbn [s_pop s_ideal]. split; [|split; auto]. unfold inv. cbn [s_pop s_ideal]. split; [congruence|]. split; auto. split; auto.
      exists (ss ++ [pre ++ [k]]), []. cbn [s_iter s_cur]. rewrite map_app, HT, concat_app. cbn [map fst concat]. rewrite !app_nil_r, <- app_assoc. repeat split; auto.
      + intros s0 Hs0. apply in_app_iff in Hs0 as [Hs0|[<-|[]]]; auto.
      + rewrite app_length. cbn. lia.
    - exists k. eexists. split; [reflexivity|]. split; auto. cbn [s_pop s_ideal]. split; [|split; auto]. unfold inv. cbn [s_pop s_ideal]. split; [congruence|]. split; auto. split; auto.
      exists ss, (pre ++ [k]). cbn [s_iter s_cur s_todo]. rewrite map_app, HT. cbn [map fst]. rewrite <- !app_assoc. repeat split; auto.
  Qed.
  Lemma run_inv evs : Forall (fun e => Permutation (fst e) (seq 0 n)) evs -> forall tr0 st0, inv tr0 st0 ->
    exists tr st, moead_run sc rnd eps m W nb evs st0 = Some (tr, st) /\ length tr = length evs /\ map snd tr = map snd evs /\ inv (tr0 ++ tr) st.
  Proof.
    induction evs as [|[p off] evs IH]; intros HE tr0 st0 HI.
    - exists [], st0. cbn. rewrite app_nil_r. auto.
    - apply Forall_cons_iff in HE as [Hp HE]. destruct (next_inv p off tr0 st0 Hp HI) as (k & st1 & E & _ & HI1 & _). destruct (IH HE _ _ HI1) as (tr & st & E2 & L & M & HI2).
      exists ((k, off) :: tr), st. cbn [moead_run]. rewrite E, E2. rewrite <- app_assoc in HI2. cbn [app length map snd] in *. split; [reflexivity|]. split; [congruence|]. split; [congruence|exact HI2].
  Qed.
End Run.
  Lemma count_sweeps {A} (pop0 : list A) ss k : let n := length pop0 in (forall s, In s ss -> Permutation s (seq 0 n)) -> k < n -> count_occ Nat.eq_dec (concat ss) k = length ss /\ length (concat ss) = length ss * n.
  Proof.
    intros n H Hk. induction ss as [|s ss IH]; [auto|]. cbn [concat]. rewrite count_occ_app, app_length. destruct IH as [I1 I2]; [intros; apply H; cbn; auto|]. rewrite I1, I2.
    assert (Hs : Permutation s (seq 0 n)) by (apply H; cbn; auto). rewrite (Permutation_length Hs), seq_length.
    assert (count_occ Nat.eq_dec s k = 1); [|cbn; lia]. apply NoDup_count_occ'; [eapply perm_seq_NoDup; eauto|]. eapply perm_seq_In; eauto.
  Qed.

(** every run, whatever the offspring: nothing fails, the size is kept, every member has been evaluated, the ideal point is the component-wise
    minimum of everything evaluated, every subproblem is treated once per sweep and the iteration counter counts the sweeps *)
Theorem C66_run : forall sc rnd eps m W nb pop0 evs, 2 <= m -> pop0 <> [] ->
  let n := length pop0 in
  (forall k, k < n -> NoDup (nth k nb []) /\ forall j, In j (nth k nb []) -> j < n) ->
  Forall (fun e => Permutation (fst e) (seq 0 n)) evs ->
  exists tr st, moead_run sc rnd eps m W nb evs (moead_init m pop0) = Some (tr, st) /\
    map snd tr = map snd evs /\ length (s_pop st) = n /\
    (forall x, In x (s_pop st) -> In x (pop0 ++ map snd evs)) /\
    (forall j, j < m -> least j (map m_f (pop0 ++ map snd evs)) (nth j (s_ideal st) 0%Q)) /\
    s_iter st = 2 + length evs / n /\
    (forall k, k < n -> length evs / n <= count_occ Nat.eq_dec (map fst tr) k <= length evs / n + (if length evs mod n =? 0 then 0 else 1)).
Proof.
  intros sc rnd eps m W nb pop0 evs Hm H0 n Hnb HE. assert (Hn : 1 <= length pop0) by (destruct pop0; [congruence|cbn; lia]).
  destruct (run_inv sc rnd eps m W nb pop0 Hm Hn Hnb evs HE [] (moead_init m pop0) (inv_init m pop0 Hm Hn)) as (tr & st & E & L & M & (LP & HM & (_ & HI) & ss & pre & HS & HT & Hit & Hcur)).
  cbn [app] in *. exists tr, st. split; auto. split; auto. split; auto. split; [|split; [|]].
  - intros x Hx. rewrite in_app_iff, <- M. auto.
  - intros j Hj. specialize (HI j Hj). unfold objs in HI. rewrite map_app, <- M, map_map. exact HI.
  - assert (Hpre : length pre < n).
    { destruct (s_cur st) as [k|]; [|subst pre; cbn; unfold n; lia]. apply Permutation_length in Hcur. rewrite seq_length, app_length in Hcur. cbn in Hcur. unfold n. lia. }
    assert (Hlen : length evs = length ss * n + length pre).
    { rewrite <- L, <- (map_length fst), HT, app_length. destruct (count_sweeps pop0 ss 0 HS ltac:(lia)) as [_ ->]. reflexivity. }
    assert (Hdiv : length evs / n = length ss). { rewrite Hlen, Nat.mul_comm. symmetry. apply (Nat.div_unique _ n (length ss) (length pre)); auto. }
    assert (Hmod : length evs mod n = length pre). { rewrite Hlen, Nat.mul_comm. symmetry. apply (Nat.mod_unique _ n (length ss) (length pre)); auto. }
    split; [congruence|]. intros k Hk. rewrite HT, count_occ_app. destruct (count_sweeps pop0 ss k HS Hk) as [-> _]. rewrite Hdiv, Hmod. split; [lia|].
    assert (count_occ Nat.eq_dec pre k <= (if length pre =? 0 then 0 else 1)); [|lia].
    destruct (Nat.eqb_spec (length pre) 0) as [E0|E0]; [apply length_zero_iff_nil in E0; subst pre; auto|].
    destruct (s_cur st) as [k0|]; [|subst pre; cbn in E0; lia].
    apply perm_seq_NoDup in Hcur. apply NoDup_app_iff in Hcur as (ND & _). apply NoDup_count_occ with (decA := Nat.eq_dec). exact ND.
Qed.
Print Assumptions C66_run.

(** no step makes any subproblem worse, measured at the ideal point the step uses; the neighbours of the treated subproblem are at
    least as good as the offspring *)
Theorem C66_step : forall sc rnd eps m W nb pop0 evs p off, 2 <= m -> pop0 <> [] ->
  let n := length pop0 in
  (forall k, k < n -> NoDup (nth k nb []) /\ forall j, In j (nth k nb []) -> j < n) ->
  Forall (fun e => Permutation (fst e) (seq 0 n)) evs -> Permutation p (seq 0 n) ->
  forall tr st, moead_run sc rnd eps m W nb evs (moead_init m pop0) = Some (tr, st) ->
  exists k st', moead_next sc rnd eps m W nb p off st = Some (k, st') /\
    (forall j, j < m -> (nth j (s_ideal st') 0 <= nth j (s_ideal st) 0)%Q) /\
    forall i, i < n -> let v f := value sc rnd eps (s_ideal st') f (nth i W []) in
      (v (m_f (nth i (s_pop st') mind0)) <= v (m_f (nth i (s_pop st) mind0)))%Q /\
      (In i (nth k nb []) -> (v (m_f (nth i (s_pop st') mind0)) <= v (m_f off))%Q).
Proof.
  intros sc rnd eps m W nb pop0 evs p off Hm H0 n Hnb HE Hp tr st HR. assert (Hn : 1 <= length pop0) by (destruct pop0; [congruence|cbn; lia]).
  destruct (run_inv sc rnd eps m W nb pop0 Hm Hn Hnb evs HE [] (moead_init m pop0) (inv_init m pop0 Hm Hn)) as (tr' & st' & E & _ & _ & HI). rewrite HR in E. injection E as <- <-.
  destruct (next_inv sc rnd eps m W nb pop0 Hm Hn Hnb p off _ st Hp HI) as (k & st1 & E & Hk & _ & H1 & H2). exists k, st1. auto.
Qed.
Print Assumptions C66_step.

(** a scalarisation which does not look at the ideal point (the weighted sum): over the whole run every subproblem holds a solution at least as
    good as its initial one and as every offspring made in a neighbourhood it belongs to *)
Theorem C66_best_so_far : forall sc rnd eps m W nb pop0 evs, (forall u u' f w, sc u f w = sc u' f w) -> 2 <= m -> pop0 <> [] ->
  let n := length pop0 in
  (forall k, k < n -> NoDup (nth k nb []) /\ forall j, In j (nth k nb []) -> j < n) ->
  Forall (fun e => Permutation (fst e) (seq 0 n)) evs ->
  forall tr st, moead_run sc rnd eps m W nb evs (moead_init m pop0) = Some (tr, st) ->
  forall i, i < n -> let v f := sc [] f (nth i W []) in
    (v (m_f (nth i (s_pop st) mind0)) <= v (m_f (nth i pop0 mind0)))%Q /\
    forall k off, In (k, off) tr -> In i (nth k nb []) -> (v (m_f (nth i (s_pop st) mind0)) <= v (m_f off))%Q.
Proof.
  intros sc rnd eps m W nb pop0 evs HU Hm H0 n Hnb HE. assert (Hn : 1 <= length pop0) by (destruct pop0; [congruence|cbn; lia]).
  assert (G : forall evs, Forall (fun e => Permutation (fst e) (seq 0 n)) evs -> forall tr0 st0 tr st, inv m pop0 tr0 st0 -> moead_run sc rnd eps m W nb evs st0 = Some (tr, st) ->
    forall i, i < n -> let v f := sc [] f (nth i W []) in
    (v (m_f (nth i (s_pop st) mind0)) <= v (m_f (nth i (s_pop st0) mind0)))%Q /\
    forall k off, In (k, off) tr -> In i (nth k nb []) -> (v (m_f (nth i (s_pop st) mind0)) <= v (m_f off))%Q).
  { clear evs HE. induction evs as [|[p off] evs IH]; intros HE tr0 st0 tr st HI HR i Hi v.
    - cbn in HR. injection HR as <- <-. split; [lra|]. intros k off [].
    - apply Forall_cons_iff in HE as [Hp HE]. destruct (next_inv sc rnd eps m W nb pop0 Hm Hn Hnb p off tr0 st0 Hp HI) as (k & st1 & E & _ & HI1 & _ & HV).
      cbn [moead_run] in HR. rewrite E in HR. destruct (moead_run sc rnd eps m W nb evs st1) as [[tr1 st2]|] eqn:ER; [|discriminate]. injection HR as <- <-.
      assert (B := IH HE _ _ _ _ HI1 ER i Hi). cbv zeta in B. destruct B as [B1 B2]. destruct (HV i Hi) as [V1 V2].
      assert (EV : forall ideal f, value sc rnd eps ideal f (nth i W []) = v f) by (intros; apply HU). rewrite !EV in V1. rewrite !EV in V2. unfold v in *. split; [lra|].
      intros k' off' [Ek|Hin] Hnbi; [|eapply B2; eauto]. injection Ek as <- <-. specialize (V2 Hnbi). lra. }
  intros tr st HR i Hi. apply (G evs HE [] (moead_init m pop0) tr st (inv_init m pop0 Hm Hn) HR i Hi).
Qed.
Print Assumptions C66_best_so_far.
Definition tree2 := SNode (SLeaf 0) (SLeaf 1).
(** the weighted sum is such a scalarisation, and a run with it *)
Example C66_best_so_far_ex :
  let sc := weighted_sum (fun x => x) tree2 in
  (forall u u' f w, sc u f w = sc u' f w) /\
  option_map (fun r => (map fst (fst r), map m_id (s_pop (snd r)), s_iter (snd r)))
    (moead_run sc (fun x => x) 0 2 [[1; 0]; [0; 1]]%Q [[0; 1]; [1; 0]] [([1; 0], {| m_id := 7; m_f := [1; 9]%Q |}); ([], {| m_id := 8; m_f := [3; 1]%Q |})]
       (moead_init 2 [{| m_id := 0; m_f := [5; 5]%Q |}; {| m_id := 1; m_f := [4; 6]%Q |}])) = Some ([1; 0], [7; 8], 3).
Proof. split; [reflexivity|vm_compute; reflexivity]. Qed.

(** with a scalarisation measured from the ideal point the subproblem can lose its best solution: the claim for a whole run is false for
    the Tchebicheff scalarisation (one subproblem, two offspring) *)
Theorem C66_best_so_far_refuted :
  ~ (forall W nb pop0 evs tr st, pop0 <> [] -> (forall k, k < length pop0 -> NoDup (nth k nb []) /\ forall j, In j (nth k nb []) -> j < length pop0) ->
       Forall (fun e => Permutation (fst e) (seq 0 (length pop0))) evs ->
       moead_run (tchebicheff (fun x => x)) (fun x => x) 0 2 W nb evs (moead_init 2 pop0) = Some (tr, st) ->
       forall i, i < length pop0 -> let v f := value (tchebicheff (fun x => x)) (fun x => x) 0 (s_ideal st) f (nth i W []) in
       (v (m_f (nth i (s_pop st) mind0)) <= v (m_f (nth i pop0 mind0)))%Q).
Proof.
  intros H. set (f := {| m_id := 0; m_f := [10; 0]%Q |}). set (g := {| m_id := 1; m_f := [0; 9]%Q |}). set (h := {| m_id := 2; m_f := [100; -20]%Q |}).
  destruct (moead_run (tchebicheff (fun x => x)) (fun x => x) 0 2 [[1; 1]]%Q [[0]] [([0], g); ([0], h)] (moead_init 2 [f])) as [[tr st]|] eqn:E; [|vm_compute in E; discriminate].
  specialize (H [[1; 1]]%Q [[0]] [f] [([0], g); ([0], h)] tr st). vm_compute in E. injection E as <- <-.
  assert (C : (value (tchebicheff (fun x => x)) (fun x => x) 0 [0; -20]%Q [0; 9]%Q [1; 1]%Q <= value (tchebicheff (fun x => x)) (fun x => x) 0 [0; -20]%Q [10; 0]%Q [1; 1]%Q)%Q).
  { apply (H ltac:(discriminate)) with (i := 0); [| | |cbn; lia].
    - intros [|k] Hk; [|cbn in Hk; lia]. cbn. split; [repeat constructor; auto|]. intros j [<-|[]]. lia.
    - repeat constructor.
    - vm_compute. reflexivity. }
  vm_compute in C. apply C. reflexivity.
Qed.
Print Assumptions C66_best_so_far_refuted.

(** ** selection of the parents *)
Theorem C66_parents : forall prob draw choice perm n_pop n_parents neigh,
  (forall k l c s, choice k l c = Some s -> length s = c /\ NoDup s /\ forall x, In x s -> In x l) ->
  (forall k l c, NoDup l -> c <= length l -> choice k l c <> None) ->
  (forall k, Permutation (perm k n_pop) (seq 0 n_pop)) -> n_parents <= n_pop ->
  (forall l, In l neigh -> NoDup l /\ n_parents <= length l /\ forall x, In x l -> x < n_pop) ->
  let R := nb_select prob draw choice perm n_pop n_parents neigh in
  length R = length neigh /\
  forall k, k < length neigh -> exists s, nth k R None = Some s /\ length s = n_parents /\ NoDup s /\ (forall x, In x s -> x < n_pop) /\
    ((draw k < prob k)%Q -> forall x, In x s -> In x (nth k neigh [])).
Proof.
  intros prob draw choice perm n_pop n_parents neigh HC HN HP Hle Hng R. unfold R, nb_select. split; [now rewrite map_length, seq_length|].
  intros k Hk. rewrite nth_map_seq0 by auto. destruct (Hng (nth k neigh []) (nth_In _ _ Hk)) as (ND & L & B).
  destruct (Qlt_b (draw k) (prob k)) eqn:E.
  - destruct (choice k (nth k neigh []) n_parents) as [s|] eqn:Es; [|exfalso; eapply HN; eauto]. destruct (HC _ _ _ _ Es) as (A1 & A2 & A3). exists s. repeat split; auto.
  - exists (firstn n_parents (perm k n_pop)). split; auto. pose proof (HP k) as Pk. pose proof (perm_seq_length _ _ Pk) as Lk. pose proof (perm_seq_NoDup _ _ Pk) as NDk.
    split; [rewrite firstn_length; lia|]. split; [rewrite <- (firstn_skipn n_parents (perm k n_pop)) in NDk; apply NoDup_app_iff in NDk; tauto|].
    split; [|intros C; apply Qlt_b_iff in C; congruence]. intros x Hx. apply (perm_seq_In _ _ x Pk). rewrite <- (firstn_skipn n_parents (perm k n_pop)). apply in_app_iff. auto.
Qed.
Print Assumptions C66_parents.

(** ** the parallel variant *)
Lemma layout_length n q : length (crossover_layout n q) = n * q.
Proof.
  unfold crossover_layout. assert (G : forall js, length (concat (map (fun j : nat => map (fun k => (k, j)) (seq 0 n)) js)) = n * length js).
  { induction js; cbn [map concat]; [cbn; lia|]. rewrite app_length, IHjs, map_length, seq_length. cbn. lia. }
  rewrite G, seq_length. auto.
Qed.
Lemma layout_nth n q p : p < n * q -> nth p (crossover_layout n q) (0, 0) = (p mod n, p / n).
Proof.
  unfold crossover_layout. assert (G : forall len a p, p < n * len -> nth p (concat (map (fun j => map (fun k => (k, j)) (seq 0 n)) (seq a len))) (0, 0) = (p mod n, a + p / n)).
  { induction len as [|len IH]; intros a p0 Hp; [lia|]. cbn [seq map concat]. assert (Hn : n <> 0) by lia. destruct (lt_dec p0 n) as [H|H].
    - rewrite app_nth1 by (rewrite map_length, seq_length; auto). rewrite nth_map_seq0 by auto. rewrite Nat.mod_small, Nat.div_small by auto. f_equal. lia.
    - rewrite app_nth2 by (rewrite map_length, seq_length; lia). rewrite map_length, seq_length. rewrite IH by lia.
      assert (E1 : p0 mod n = (p0 - n) mod n) by (replace p0 with ((p0 - n) + 1 * n) at 1 by lia; apply Nat.mod_add; auto).
      assert (E2 : p0 / n = (p0 - n) / n + 1) by (replace p0 with ((p0 - n) + 1 * n) at 1 by lia; apply Nat.div_add; auto).
      rewrite E1, E2. f_equal. lia. }
  intros Hp. rewrite G by auto. reflexivity.
Qed.

(** "select a random offspring from each mating": the offspring matched with the k-th subproblem is a child of the k-th mating.  True of
    crossovers with one child, false otherwise *)
Theorem C66_parallel_actual : forall n q pick, (forall k, k < n -> pick k < q) ->
  length (parallel_pick n q pick) = n /\
  forall k, k < n -> nth k (parallel_pick n q pick) (0, 0) = ((k * q + pick k) mod n, (k * q + pick k) / n).
Proof.
  intros n q pick Hp. unfold parallel_pick. split; [rewrite length_map2, length_reshape, seq_length; lia|]. intros k Hk.
  rewrite (nth_map2 _ _ _ k (0, 0) 0 []) by (rewrite ?length_reshape, ?seq_length; auto). rewrite seq_nth by auto. cbn [Nat.add].
  assert (k * q + pick k < n * q). { specialize (Hp k Hk). assert (S k * q <= n * q) by (apply Nat.mul_le_mono_r; lia). lia. }
  rewrite nth_reshape by (auto). rewrite layout_nth by lia. reflexivity.
Qed.
Print Assumptions C66_parallel_actual.
Theorem C66_parallel_one_child : forall n pick, (forall k, k < n -> pick k < 1) -> forall k, k < n -> fst (nth k (parallel_pick n 1 pick) (0, 0)) = k.
Proof.
  intros n pick Hp k Hk. rewrite (proj2 (C66_parallel_actual n 1 pick Hp)) by auto. specialize (Hp k Hk). cbn [fst]. rewrite Nat.mul_1_r. replace (pick k) with 0 by lia. rewrite Nat.add_0_r. now apply Nat.mod_small.
Qed.
Print Assumptions C66_parallel_one_child.
Theorem C66_parallel_refuted : ~ (forall n q pick, (forall k, k < n -> pick k < q) -> forall k, k < n -> fst (nth k (parallel_pick n q pick) (0, 0)) = k).
Proof. intros H. specialize (H 3 2 (fun _ => 0)). assert (C := H ltac:(cbn; lia) 1 ltac:(lia)). vm_compute in C. discriminate. Qed.
Print Assumptions C66_parallel_refuted.

(** the parallel variant keeps the invariants: size, evaluated members, ideal point, and no subproblem gets worse at the new ideal point *)
Theorem C66_parallel : forall sc rnd eps m W nb infills pop ideal, 2 <= m ->
  (forall k, k < length pop -> NoDup (nth k nb []) /\ forall j, In j (nth k nb []) -> j < length pop) ->
  (forall ko, In ko infills -> fst ko < length pop) ->
  exists pop' ideal', parallel_advance sc rnd eps m W nb infills (pop, ideal) = Some (pop', ideal') /\ length pop' = length pop /\
    (forall x, In x pop' -> In x (pop ++ map snd infills)) /\
    (forall j, j < m -> least j (ideal :: map (fun ko => m_f (snd ko)) infills) (nth j ideal' 0%Q)) /\
    forall i, i < length pop -> let v f := value sc rnd eps ideal' f (nth i W []) in
      (v (m_f (nth i pop' mind0)) <= v (m_f (nth i pop mind0)))%Q /\
      forall ko, In ko infills -> In i (nth (fst ko) nb []) -> (v (m_f (nth i pop' mind0)) <= v (m_f (snd ko)))%Q.
Proof.
  intros sc rnd eps m W nb infills pop ideal Hm Hnb Hk. unfold parallel_advance. cbn [fst snd]. set (ideal' := col_min m (ideal :: _)).
  assert (G : forall l p, (forall ko, In ko l -> fst ko < length pop) -> length p = length pop ->
    exists p', replace_all sc rnd eps m W nb ideal' l p = Some p' /\ length p' = length pop /\ (forall x, In x p' -> In x (p ++ map snd l)) /\
      forall i, i < length pop -> let v f := value sc rnd eps ideal' f (nth i W []) in
        (v (m_f (nth i p' mind0)) <= v (m_f (nth i p mind0)))%Q /\
        forall ko, In ko l -> In i (nth (fst ko) nb []) -> (v (m_f (nth i p' mind0)) <= v (m_f (snd ko)))%Q).
  { induction l as [|[k off] l IH]; intros p Hl Lp.
    - exists p. cbn. rewrite app_nil_r. split; auto. split; auto. split; auto. intros i Hi. split; [lra|]. intros ko [].
    - assert (Hk0 : k < length pop) by (apply (Hl (k, off)); cbn; auto). destruct (Hnb k Hk0) as [ND HB].
      destruct (C66_replace sc rnd eps m W nb ideal' k off p Hm ND) as (p1 & E & L1 & H1); [rewrite Lp; auto|].
      destruct (IH p1) as (p2 & E2 & L2 & M2 & H2); [intros; apply Hl; cbn; auto|congruence|]. exists p2. cbn [replace_all]. rewrite E. split; auto. split; auto. split.
      + intros x Hx. apply M2 in Hx. rewrite in_app_iff in *. cbn. destruct Hx as [Hx|Hx]; auto. apply (In_nth _ _ mind0) in Hx as (i & Hi & <-). rewrite L1 in Hi. destruct (H1 i Hi) as (R1 & R2 & _).
        destruct (in_dec Nat.eq_dec i (nth k nb [])) as [Hin|Hout].
        * destruct (Qlt_le_dec (value sc rnd eps ideal' (m_f off) (nth i W [])) (value sc rnd eps ideal' (m_f (nth i p mind0)) (nth i W []))) as [C|C].
          -- rewrite R1 by auto. auto.
          -- rewrite R2 by (intros [_ X]; lra). left. now apply nth_In.
        * rewrite R2 by tauto. left. now apply nth_In.
      + intros i Hi. destruct (H2 i Hi) as [V1 V2]. destruct (H1 i ltac:(lia)) as (R1 & R2 & R3). split; [eapply Qle_trans; eauto|].
        intros ko [<-|Hin] Hn2; [|apply V2; auto]. cbn [fst snd] in *. destruct (Qlt_le_dec (value sc rnd eps ideal' (m_f off) (nth i W [])) (value sc rnd eps ideal' (m_f (nth i p mind0)) (nth i W []))) as [C|C].
        * rewrite R1 in V1 by auto. exact V1.
        * eapply Qle_trans; [exact V1|]. eapply Qle_trans; [exact R3|exact C]. }
  destruct (G infills pop Hk eq_refl) as (p' & E & L & M & H). exists p', ideal'. rewrite E. split; auto. split; auto. split; auto. split; auto.
  intros j Hj. apply col_min_least; auto. discriminate.
Qed.
Print Assumptions C66_parallel.
