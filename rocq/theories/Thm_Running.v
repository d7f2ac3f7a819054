(** * C114: the running metric *)
From Coq Require Import List Arith Bool QArith Qabs ZArith Lia Lqa.
From Verif Require Import ListAux M_Termination M_Default P_Termination Thm_Termination Thm_Default2 M_Running.
Import ListNotations.
Local Open Scope nat_scope.

(** ** specification: which generations are kept, and what is compared *)
Fixpoint somes {A} (l : list (option A)) : list A := match l with [] => [] | Some x :: l => x :: somes l | None :: l => somes l end.
Definition recent {A} (period : option nat) (l : list A) : list A := match period with None => l | Some s => skipn (length l - s) l end.
Definition gen_ok (m : nat) (F : list (list Q)) : Prop := F <> [] /\ forall r, In r F -> length r = m.
(** the ideal and nadir point compared: the nadir of an objective that is constant in its generation is raised by 1e-16 (rounded) *)
Definition ideal_at (F : list (list Q)) (j : nat) (v : Q) : Prop := col_least F j v.
Definition nadir_at (bump : Q -> Q) (F : list (list Q)) (j : nat) (v : Q) : Prop :=
  exists lo hi, col_least F j lo /\ col_greatest F j hi /\ ((lo < hi)%Q /\ v = hi \/ (lo == hi)%Q /\ v = bump hi).
(** what differences of an objective are divided by: the range in the current generation, or if it is constant 1 provided raising has no effect, otherwise 0 *)
Definition divisor (bump : Q -> Q) (F : list (list Q)) (j : nat) (r : Q) : Prop :=
  exists lo hi, col_least F j lo /\ col_greatest F j hi /\
    ((lo < hi)%Q /\ r == hi - lo \/ (lo == hi)%Q /\ (bump hi == hi)%Q /\ r == 1 \/ (lo == hi)%Q /\ (hi < bump hi)%Q /\ r == 0)%Q.
(** the greatest of |a_j - b_j| / r_j *)
Definition greatest_ratio (m : nat) (a b r : nat -> Q) (v : Q) : Prop :=
  (exists j, j < m /\ (v == Qabs ((a j - b j) / r j))%Q) /\ forall j, j < m -> (Qabs ((a j - b j) / r j) <= v)%Q.
(** the verdict on two points *)
Definition delta_spec (m : nat) (a b r : nat -> Q) (v : num) : Prop :=
  match v with
  | Num v => (forall j, j < m -> ~ (r j == 0)%Q) /\ greatest_ratio m a b r v
  | NaN => exists j, j < m /\ (r j == 0)%Q /\ (a j == b j)%Q
  | PInf => (exists j, j < m /\ (r j == 0)%Q) /\ forall j, j < m -> (r j == 0)%Q -> ~ (a j == b j)%Q
  end.

(** ** the history *)
Lemma somes_app {A} (l l' : list (option A)) : somes (l ++ l') = somes l ++ somes l'.
Proof. induction l as [|[x|] l IH]; cbn; auto. now rewrite IH. Qed.
Lemma recent_fold {A} period (l : list A) : fold_left (window_append period) l [] = recent period l.
Proof. destruct period; cbn; [apply window_fold|apply C36_window_unbounded]. Qed.
Lemma recent_snoc {A} period (l : list A) x : window_append period (recent period l) x = recent period (l ++ [x]).
Proof. now rewrite <- !recent_fold, fold_left_app. Qed.
Lemma recent_map {A B} (f : A -> B) period l : map f (recent period l) = recent period (map f l).
Proof. destruct period; cbn; auto. now rewrite map_length, skipn_map. Qed.
Lemma recent_last {A} period (l : list A) x : period <> Some 0 -> exists l', recent period (l ++ [x]) = l' ++ [x].
Proof.
  destruct period as [[|s]|]; cbn; intros H; [congruence| |now exists l]. rewrite app_length. cbn [length]. exists (skipn (length l + 1 - S s) l).
  rewrite skipn_app. f_equal. replace (length l + 1 - S s - length l) with 0 by lia. reflexivity.
Qed.
Lemma recent_In {A} period (l : list A) x : In x (recent period l) -> In x l.
Proof. destruct period; cbn; auto. intros H. rewrite <- (firstn_skipn (length l - n) l). apply in_or_app. now right. Qed.
Section H.
  Context {V : Type}.
  Variables (bump : Q -> Q) (ind : list (list Q) -> list (list Q) -> V).
  Lemma rm_nones period s r : Forall (fun o => o = None) r -> fold_left (rm_update bump ind period) r s = s.
  Proof. induction 1 as [|o r Ho _ IH]; cbn; auto. subst o. exact IH. Qed.
  Lemma rm_hist period os : rm_history (rm_run bump ind period os) = map (rm_entry bump) (recent period (somes os)).
  Proof.
    induction os as [|[F|] os IH] using rev_ind; [destruct period; reflexivity| |].
    - unfold rm_run in *. rewrite fold_left_app. cbn [fold_left rm_update rm_history]. rewrite IH, somes_app. cbn [somes]. rewrite !recent_map, recent_snoc, map_app. reflexivity.
    - unfold rm_run in *. rewrite fold_left_app. cbn [fold_left rm_update]. rewrite IH, somes_app. cbn [somes]. now rewrite app_nil_r.
  Qed.
  Lemma rm_result period os F r : Forall (fun o => o = None) r -> let w := recent period (somes os ++ [F]) in let e := rm_entry bump F in
    rm_out (rm_run bump ind period (os ++ Some F :: r)) =
    Some (rm_deltas bump e_ideal (rm_norm bump F) (map (rm_entry bump) w), rm_deltas bump e_nadir (rm_norm bump F) (map (rm_entry bump) w),
          map (fun G => ind (map (normalize_row (e_ideal e) (e_nadir e)) F) (map (normalize_row (e_ideal e) (e_nadir e)) G)) w).
  Proof.
    intros Hr w e. unfold rm_run. rewrite fold_left_app. cbn [fold_left]. rewrite rm_nones by auto.
    change (fold_left (rm_update bump ind period) os rm_new) with (rm_run bump ind period os). cbn [rm_update rm_out].
    rewrite rm_hist. assert (E : window_append period (map (rm_entry bump) (recent period (somes os))) (rm_entry bump F) = map (rm_entry bump) w).
    { unfold w. rewrite !recent_map, recent_snoc, map_app. reflexivity. }
    rewrite E, !map_map. reflexivity.
  Qed.
End H.

(** C114: after every update with an optimum the three lists have one entry for each of the last [period] generations, and the changes of ideal and nadir end with 0 *)
Theorem C114_window : forall V bump (ind : _ -> _ -> V) period os F r, period <> Some 0 -> Forall (fun o => o = None) r ->
  let w := recent period (somes os ++ [F]) in
  exists di dn df, rm_out (rm_run bump ind period (os ++ Some F :: r)) = Some (di, dn, df) /\
    length di = length w /\ length dn = length w /\ length df = length w /\ last di NaN = Num 0 /\ last dn NaN = Num 0.
Proof.
  intros V bump ind period os F r Hp Hr w. eexists _, _, _. split; [now apply rm_result|]. fold w.
  assert (HL : forall get norm, length (rm_deltas bump get norm (map (rm_entry bump) w)) = length w).
  { intros get norm. unfold rm_deltas. rewrite app_length, map_length, seq_length, map_length. cbn [length]. destruct (recent_last period (somes os) F Hp) as [l' E].
    unfold w. rewrite E, app_length. cbn [length]. lia. }
  repeat split; auto; [now rewrite map_length| |]; unfold rm_deltas; apply last_last.
Qed.

(** ** the deltas *)
Lemma num_max_fold l : forall x, (fold_left num_max l x = NaN <-> In NaN (x :: l)) /\
  (fold_left num_max l x = PInf <-> In PInf (x :: l) /\ ~ In NaN (x :: l)) /\
  forall v, fold_left num_max l x = Num v -> In (Num v) (x :: l) /\ forall y, In y (x :: l) -> exists q, y = Num q /\ (q <= v)%Q.
Proof.
  induction l as [|y l IH]; intros x.
  - cbn. split; [|split].
    + split; [auto|intros [H|[]]; auto].
    + split; [intros H; split; [auto|]|intros [[H|[]] _]; auto]. intros [E|[]]. congruence.
    + intros v H. split; auto. intros y [<-|[]]. exists v. split; auto. lra.
  - cbn [fold_left]. destruct (IH (num_max x y)) as (I1 & I2 & I3). split; [|split].
    + rewrite I1. cbn. destruct x, y; cbn; intuition congruence.
    + rewrite I2. cbn. destruct x, y; cbn; intuition congruence.
    + intros v H. destruct (I3 v H) as [J1 J2]. split.
      * destruct J1 as [E|E]; [|right; now right]. destruct x as [a| |], y as [b| |]; cbn in E; try discriminate.
        destruct (Qle_bool b a) eqn:Eb; injection E as E; subst; [now left|right; now left].
      * assert (HN : exists q, num_max x y = Num q /\ (q <= v)%Q) by (apply J2; now left). destruct HN as (q & Hq & Hv).
        intros z [<-|[<-|Hz]]; [| |apply J2; now right]; destruct x as [a| |], y as [b| |]; cbn in Hq; try discriminate; eexists; (split; [reflexivity|]);
          destruct (Qle_bool b a) eqn:Eb; injection Hq as Hq; rewrite <- Hq in Hv; auto;
          [assert (~ (b <= a)%Q) by (intros K; apply Qle_bool_iff in K; congruence); lra|apply Qle_bool_iff in Eb; lra].
Qed.

Lemma delta_norm_spec m a b r : 1 <= m -> length a = m -> length b = m -> length r = m ->
  delta_spec m (fun j => nth j a 0%Q) (fun j => nth j b 0%Q) (fun j => nth j r 0%Q) (delta_norm a b r).
Proof.
  intros Hm Ha Hb Hr. unfold delta_norm. set (L := map2 num_div (map2 Qminus a b) r).
  assert (HD : length (map2 Qminus a b) = m) by (rewrite length_map2; lia).
  assert (HL : length L = m) by (unfold L; rewrite length_map2; lia).
  assert (HN : forall j, j < m -> nth j L NaN = num_div (nth j a 0 - nth j b 0)%Q (nth j r 0%Q)).
  { intros j Hj. unfold L. rewrite (nth_map2 _ _ _ _ _ 0%Q 0%Q) by lia. now rewrite (nth_map2 _ _ _ _ _ 0%Q 0%Q) by lia. }
  assert (HI : forall v, In v L <-> exists j, j < m /\ v = num_div (nth j a 0 - nth j b 0)%Q (nth j r 0%Q)).
  { intros v. split.
    - intros H. apply (In_nth _ _ NaN) in H as (j & Hj & <-). exists j. split; [lia|apply HN; lia].
    - intros (j & Hj & ->). rewrite <- HN by auto. apply nth_In. lia. }
  destruct L as [|x l] eqn:EL; [cbn in HL; lia|]. destruct (num_max_fold l x) as (I1 & I2 & I3).
  assert (HZ : forall j, num_div (nth j a 0 - nth j b 0)%Q (nth j r 0%Q) = NaN <-> (nth j r 0 == 0)%Q /\ (nth j a 0 == nth j b 0)%Q).
  { intros j. unfold num_div. destruct (Qeq_bool (nth j r 0%Q) 0%Q) eqn:E1; [destruct (Qeq_bool (nth j a 0 - nth j b 0)%Q 0%Q) eqn:E2|].
    - apply Qeq_bool_iff in E1, E2. split; auto. intros _. split; auto. lra.
    - apply Qeq_bool_iff in E1. apply Qeq_bool_neq in E2. split; [discriminate|]. intros [_ H]. exfalso. apply E2. lra.
    - apply Qeq_bool_neq in E1. split; [discriminate|]. intros [H _]. tauto. }
  assert (HP : forall j, num_div (nth j a 0 - nth j b 0)%Q (nth j r 0%Q) = PInf -> (nth j r 0 == 0)%Q).
  { intros j. unfold num_div. destruct (Qeq_bool (nth j r 0%Q) 0%Q) eqn:E1; [intros _; now apply Qeq_bool_iff|discriminate]. }
  assert (HQ : forall j q, num_div (nth j a 0 - nth j b 0)%Q (nth j r 0%Q) = Num q -> ~ (nth j r 0 == 0)%Q /\ q = Qabs ((nth j a 0 - nth j b 0) / nth j r 0)%Q).
  { intros j q. unfold num_div. destruct (Qeq_bool (nth j r 0%Q) 0%Q) eqn:E1; [destruct (Qeq_bool (nth j a 0 - nth j b 0)%Q 0%Q); discriminate|].
    apply Qeq_bool_neq in E1. intros [= <-]. auto. }
  destruct (fold_left num_max l x) as [v| |] eqn:EF; cbn [delta_spec].
  - destruct (I3 v eq_refl) as [J1 J2]. split.
    + intros j Hj. destruct (J2 (num_div (nth j a 0 - nth j b 0)%Q (nth j r 0%Q))) as (q & Hq & _); [apply HI; eauto|]. now apply HQ in Hq.
    + split.
      * apply HI in J1 as (j & Hj & E). exists j. split; auto. symmetry in E. apply HQ in E as [_ ->]. lra.
      * intros j Hj. destruct (J2 (num_div (nth j a 0 - nth j b 0)%Q (nth j r 0%Q))) as (q & Hq & Hv); [apply HI; eauto|]. apply HQ in Hq as [_ ->]. exact Hv.
  - destruct I2 as [I2 _]. destruct (I2 eq_refl) as [J1 J2]. split.
    + apply HI in J1 as (j & Hj & E). exists j. split; auto.
    + intros j Hj Hz He. apply J2. apply HI. exists j. split; auto. symmetry. apply HZ. auto.
  - destruct I1 as [I1 _]. specialize (I1 eq_refl). apply HI in I1 as (j & Hj & E). exists j. split; auto. symmetry in E. now apply HZ in E.
Qed.
Lemma delta_spec_ext m a b r a' b' r' v : (forall j, j < m -> (a j == a' j)%Q) -> (forall j, j < m -> (b j == b' j)%Q) -> (forall j, j < m -> (r j == r' j)%Q) ->
  delta_spec m a b r v -> delta_spec m a' b' r' v.
Proof.
  intros Ha Hb Hr. assert (E : forall j, j < m -> (Qabs ((a j - b j) / r j) == Qabs ((a' j - b' j) / r' j))%Q) by (intros j Hj; now rewrite (Ha j Hj), (Hb j Hj), (Hr j Hj)).
  destruct v as [v| |]; cbn.
  - intros (H1 & (j & Hj & H2) & H3). split; [intros i Hi; rewrite <- (Hr i Hi); auto|]. split; [exists j; split; auto; rewrite <- (E j Hj); auto|].
    intros i Hi. rewrite <- (E i Hi). auto.
  - intros ((j & Hj & H1) & H2). split; [exists j; split; auto; rewrite <- (Hr j Hj); auto|]. intros i Hi. rewrite <- (Hr i Hi), <- (Ha i Hi), <- (Hb i Hi). auto.
  - intros (j & Hj & H1 & H2). exists j. rewrite <- (Hr j Hj), <- (Ha j Hj), <- (Hb j Hj). auto.
Qed.
Lemma least_unique F j a b : col_least F j a -> col_least F j b -> (a == b)%Q.
Proof. intros [(r & Hr & E) H] [(r' & Hr' & E') H']. pose proof (H r' Hr'). pose proof (H' r Hr). rewrite E' in *. rewrite E in *. lra. Qed.
Lemma greatest_unique F j a b : col_greatest F j a -> col_greatest F j b -> (a == b)%Q.
Proof. intros [(r & Hr & E) H] [(r' & Hr' & E') H']. pose proof (H r' Hr'). pose proof (H' r Hr). rewrite E' in *. rewrite E in *. lra. Qed.
Section D.
  Variable bump : Q -> Q.
  Hypothesis bump_up : forall v, (v <= bump v)%Q.
  Hypothesis bump_proper : forall v v', (v == v')%Q -> (bump v == bump v')%Q.
  Lemma entry_spec m F : gen_ok m F -> length (e_ideal (rm_entry bump F)) = m /\ length (e_nadir (rm_entry bump F)) = m /\ length (rm_norm bump F) = m /\
    forall j, j < m -> ideal_at F j (nth j (e_ideal (rm_entry bump F)) 0%Q) /\ nadir_at bump F j (nth j (e_nadir (rm_entry bump F)) 0%Q) /\
      divisor bump F j (nth j (rm_norm bump F) 0%Q).
  Proof.
    intros [HN HL]. destruct (col_min_spec m F HN HL) as [L1 S1], (col_max_spec m F HN HL) as [L2 S2]. cbn [rm_entry e_ideal e_nadir].
    assert (L3 : length (map2 (fun a b => if Qeq_bool a b then bump b else b) (col_min F) (col_max F)) = m) by (rewrite length_map2; lia).
    split; [auto|]. split; [auto|]. split; [unfold rm_norm; cbv zeta; cbn [rm_entry e_ideal e_nadir]; rewrite !length_map2; lia|].
    intros j Hj. specialize (S1 j Hj). specialize (S2 j Hj). split; [auto|].
    assert (HLE : (nth j (col_min F) 0 <= nth j (col_max F) 0)%Q). { destruct S1 as [(r & Hr & E) _]. rewrite <- E. now apply S2. }
    assert (EN : nth j (map2 (fun a b => if Qeq_bool a b then bump b else b) (col_min F) (col_max F)) 0%Q =
                 if Qeq_bool (nth j (col_min F) 0%Q) (nth j (col_max F) 0%Q) then bump (nth j (col_max F) 0%Q) else nth j (col_max F) 0%Q)
      by (now rewrite (nth_map2 _ _ _ _ _ 0%Q 0%Q) by lia).
    assert (ED : nth j (rm_norm bump F) 0%Q = if Qeq_bool (nth j (col_min F) 0%Q) (nth j (map2 (fun a b => if Qeq_bool a b then bump b else b) (col_min F) (col_max F)) 0%Q) then 1%Q
                 else (nth j (col_max F) 0 - nth j (col_min F) 0)%Q).
    { unfold rm_norm. cbv zeta. cbn [rm_entry e_ideal e_nadir]. rewrite (nth_map2 _ _ _ _ _ 0%Q false) by (rewrite ?length_map2; lia).
      rewrite (nth_map2 Qeq_bool _ _ _ _ 0%Q 0%Q) by (rewrite ?length_map2; lia). now rewrite (nth_map2 Qminus _ _ _ _ 0%Q 0%Q) by lia. }
    rewrite EN in *. clear EN. set (lo := nth j (col_min F) 0%Q) in *. set (hi := nth j (col_max F) 0%Q) in *.
    split; exists lo, hi; (split; [auto|]); (split; [auto|]); [|rewrite ED]; destruct (Qeq_bool lo hi) eqn:E.
    - right. apply Qeq_bool_iff in E. auto.
    - left. apply Qeq_bool_neq in E. split; auto. apply Qle_lteq in HLE as [?|?]; [auto|tauto].
    - apply Qeq_bool_iff in E. right. destruct (Qeq_bool lo (bump hi)) eqn:E2; [left|right].
      + apply Qeq_bool_iff in E2. split; [auto|]. split; lra.
      + apply Qeq_bool_neq in E2. split; [auto|]. split; [|lra]. pose proof (bump_up hi) as B. apply Qle_lteq in B as [?|B]; [auto|]. exfalso. apply E2. lra.
    - rewrite E. left. apply Qeq_bool_neq in E. split; [|lra]. apply Qle_lteq in HLE as [?|?]; [auto|tauto].
  Qed.
  Lemma nadir_unique F j a b : nadir_at bump F j a -> nadir_at bump F j b -> (a == b)%Q.
  Proof.
    intros (lo & hi & H1 & H2 & H3) (lo' & hi' & H1' & H2' & H3'). pose proof (least_unique _ _ _ _ H1 H1'). pose proof (greatest_unique _ _ _ _ H2 H2').
    destruct H3 as [[? ->]|[? ->]], H3' as [[? ->]|[? ->]]; auto; exfalso; lra.
  Qed.
  Lemma divisor_unique F j a b : divisor bump F j a -> divisor bump F j b -> (a == b)%Q.
  Proof.
    intros (lo & hi & H1 & H2 & H3) (lo' & hi' & H1' & H2' & H3'). pose proof (least_unique _ _ _ _ H1 H1') as U1. pose proof (greatest_unique _ _ _ _ H2 H2') as U2. pose proof (bump_proper _ _ U2) as U3.
    destruct H3 as [[? ?]|[[? [? ?]]|[? [? ?]]]], H3' as [[? ?]|[[? [? ?]]|[? [? ?]]]]; lra.
  Qed.
End D.

Lemma nth_map_sq {A} (f : nat -> A) s n k d : k < n -> nth k (map f (seq s n)) d = f (s + k).
Proof. intros H. rewrite (nth_indep _ d (f 0)) by (now rewrite map_length, seq_length). now rewrite map_nth, seq_nth. Qed.
(** C114: every entry but the last is the greatest change of the ideal (nadir) point between two successive kept generations, relative to the range of the
    current generation; if an objective of the current generation is constant and raising its nadir by 1e-16 takes effect, it is a division by zero: infinity,
    or NaN as soon as such an objective did not change *)
Theorem C114_deltas : forall V bump (ind : _ -> _ -> V) period os F r m, (forall v, (v <= bump v)%Q) -> (forall v v', (v == v')%Q -> (bump v == bump v')%Q) ->
  period <> Some 0 -> Forall (fun o => o = None) r -> 1 <= m ->
  let w := recent period (somes os ++ [F]) in Forall (gen_ok m) w ->
  exists di dn df, rm_out (rm_run bump ind period (os ++ Some F :: r)) = Some (di, dn, df) /\
    forall k range, S k < length w -> (forall j, j < m -> divisor bump F j (range j)) ->
      (forall a b, (forall j, j < m -> ideal_at (nth (S k) w []) j (a j) /\ ideal_at (nth k w []) j (b j)) -> delta_spec m a b range (nth k di NaN)) /\
      (forall a b, (forall j, j < m -> nadir_at bump (nth (S k) w []) j (a j) /\ nadir_at bump (nth k w []) j (b j)) -> delta_spec m a b range (nth k dn NaN)).
Proof.
  intros V bump ind period os F r m HB1 HB2 Hp Hr Hm w HW. eexists _, _, _. split; [now apply rm_result|]. fold w. intros k range Hk HR.
  assert (HF : gen_ok m F). { destruct (recent_last period (somes os) F Hp) as [l' E]. fold w in E. rewrite E in HW. apply Forall_app in HW as [_ HW]. now apply Forall_inv in HW. }
  destruct (entry_spec bump HB1 m F HF) as (_ & _ & LN & SN).
  assert (HG : forall i, i < length w -> gen_ok m (nth i w [])). { intros i Hi. rewrite Forall_forall in HW. apply HW. now apply nth_In. }
  assert (EN : forall get, nth k (rm_deltas bump get (rm_norm bump F) (map (rm_entry bump) w)) NaN =
               delta_norm (get (rm_entry bump (nth (S k) w []))) (get (rm_entry bump (nth k w []))) (rm_norm bump F)).
  { intros get. unfold rm_deltas. rewrite app_nth1 by (rewrite map_length, seq_length, map_length; lia).
    rewrite nth_map_sq by (rewrite map_length; lia). replace (1 + k - 1) with k by lia. replace (1 + k) with (S k) by lia. now rewrite !map_nth. }
  destruct (entry_spec bump HB1 m _ (HG (S k) Hk)) as (L1 & L1' & _ & S1). destruct (entry_spec bump HB1 m _ (HG k ltac:(lia))) as (L2 & L2' & _ & S2).
  split; intros a b Hab; rewrite EN.
  - eapply delta_spec_ext; [..|apply delta_norm_spec; auto]; intros j Hj; cbv beta.
    + apply (least_unique (nth (S k) w []) j); [now apply S1|now apply Hab].
    + apply (least_unique (nth k w []) j); [now apply S2|now apply Hab].
    + apply (divisor_unique bump HB2 F j); [now apply SN|now apply HR].
  - eapply delta_spec_ext; [..|apply delta_norm_spec; auto]; intros j Hj; cbv beta.
    + apply (nadir_unique bump HB2 (nth (S k) w []) j); [now apply S1|now apply Hab].
    + apply (nadir_unique bump HB2 (nth k w []) j); [now apply S2|now apply Hab].
    + apply (divisor_unique bump HB2 F j); [now apply SN|now apply HR].
Qed.
(** such a run: two objectives, the second constant (0.5) in the last generation and the one before: NaN *)
Example C114_deltas_ex : let bump v := if Qle_bool (Qabs v) 1 then (v + (1 # 10 ^ 16))%Q else v in
  rm_out (rm_run bump (fun _ _ => tt) (Some 2) [Some [[3%Q; 1%Q]]; None; Some [[2%Q; (1 # 2)%Q]]; Some [[0%Q; (1 # 2)%Q]; [1%Q; (1 # 2)%Q]]]) =
    Some ([NaN; Num 0], [NaN; Num 0], [tt; tt]) /\
  Forall (gen_ok 2) (recent (Some 2) [[[3%Q; 1%Q]]; [[2%Q; (1 # 2)%Q]]; [[0%Q; (1 # 2)%Q]; [1%Q; (1 # 2)%Q]]]).
Proof. split; [vm_compute; reflexivity|]. cbn. apply Forall_cons; [|apply Forall_cons; [|apply Forall_nil]]; (split; [discriminate|]); intros r H; repeat (destruct H as [<-|H]; [reflexivity|]); destruct H. Qed.
(** ** normalisation *)
Lemma nrow_nth bump F m f : gen_ok m F -> length f = m -> let e := rm_entry bump F in length (normalize_row (e_ideal e) (e_nadir e) f) = m /\
  forall j, j < m -> let lo := nth j (e_ideal e) 0%Q in let hi := nth j (e_nadir e) 0%Q in
    nth j (normalize_row (e_ideal e) (e_nadir e) f) 0%Q = if Qeq_bool lo hi then (nth j f 0 - lo)%Q else ((nth j f 0 - lo) / (hi - lo))%Q.
Proof.
  intros HF Hf e. destruct HF as [HN HL]. destruct (col_min_spec m F HN HL) as [L1 _], (col_max_spec m F HN HL) as [L2 _].
  assert (L3 : length (e_ideal e) = m) by exact L1. assert (L4 : length (e_nadir e) = m) by (unfold e; cbn [rm_entry e_nadir]; rewrite length_map2; lia).
  split; [unfold normalize_row; rewrite length_map2, combine_length; lia|]. intros j Hj. cbv zeta. unfold normalize_row.
  rewrite (nth_map2 _ _ _ _ _ 0%Q (0%Q, 0%Q)) by (rewrite ?combine_length; lia). rewrite combine_nth by lia. reflexivity.
Qed.
