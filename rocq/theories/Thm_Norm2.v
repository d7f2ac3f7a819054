(** * Theorems C62 (normalisation to [0, 1]) and C63 (normalised problem) *)
From Coq Require Import List Arith Bool ZArith QArith Lia Lqa.
From Verif Require Import ListAux M_Individual M_Survival M_RefDirs2 M_Norm S_Crowding S_Decomp S_Norm Thm_RefDirs2 Thm_Decomp Thm_Crowding Thm_Norm.
Import ListNotations.
Local Open Scope Q_scope.

Definition entry (X : list (list Q)) (i j : nat) : Q := nth j (nth i X []) 0.
(** the constructor accepts the bounds iff no lower bound exceeds its upper bound *)
Definition bounds_ok (xl xu : list (option Q)) : Prop :=
  length xl = length xu /\ forall j a b, nth j xl None = Some a -> nth j xu None = Some b -> a <= b.
Lemma zto_init_spec xl : forall xu, length xl = length xu ->
  (bounds_ok xl xu <-> exists bs, zto_init xl xu = Some bs) /\
  forall bs, zto_init xl xu = Some bs -> length bs = length xl /\ forall j, (j < length xl)%nat -> zto_init1 (nth j xl None) (nth j xu None) = Some (nth j bs (None, None)).
Proof.
  induction xl as [|a xl IH]; intros [|b xu] HL; try discriminate; cbn [zto_init].
  - split; [split; [intros _; eauto|intros _; split; auto; intros j x y H; destruct j; discriminate]|]. intros bs H. injection H as <-. split; auto. intros j Hj. simpl in Hj. lia.
  - injection HL as HL. destruct (IH xu HL) as [IH1 IH2].
    assert (HB : bounds_ok (a :: xl) (b :: xu) <-> (exists v, zto_init1 a b = Some v) /\ bounds_ok xl xu).
    { split.
      - intros [_ H]. split.
        + specialize (H 0%nat). simpl in H. unfold zto_init1. destruct a as [a|], b as [b|]; eauto. specialize (H a b eq_refl eq_refl).
          destruct (Qeq_bool a b); eauto. apply Qle_bool_iff in H. rewrite H. eauto.
        + split; auto. intros j. exact (H (S j)).
      - intros [[v Hv] [_ H]]. split; [simpl; lia|]. intros [|j]; [|exact (H j)]. simpl. intros x y -> ->. unfold zto_init1 in Hv.
        destruct (Qeq_bool x y) eqn:E; [apply Qeq_bool_iff in E; lra|]. destruct (Qle_bool x y) eqn:E2; [now apply Qle_bool_iff|discriminate]. }
    split.
    + rewrite HB, IH1. split.
      * intros [[v ->] [r ->]]. eauto.
      * intros [bs H]. destruct (zto_init1 a b); [|discriminate]. destruct (zto_init xl xu); [|discriminate]. eauto.
    + intros bs H. destruct (zto_init1 a b) as [v|] eqn:Ev; [|discriminate]. destruct (zto_init xl xu) as [r|] eqn:Er; [|discriminate]. injection H as <-.
      destruct (IH2 r eq_refl) as [H1 H2]. split; [simpl; lia|]. intros [|j] Hj; simpl; [auto|]. apply H2. simpl in Hj. lia.
Qed.
Lemma entry_map (f : bnd -> Q -> Q) bs X i j : (i < length X)%nat -> (j < length bs)%nat -> (j < length (nth i X []))%nat ->
  entry (map (fun r => map2 f bs r) X) i j = f (nth j bs (None, None)) (entry X i j).
Proof.
  intros Hi Hj Hr. unfold entry. rewrite (nth_indep _ [] ((fun r => map2 f bs r) [])) by (rewrite map_length; auto).
  rewrite (map_nth (fun r => map2 f bs r)). apply map2_nth; auto.
Qed.
Lemma map_row_length (f : bnd -> Q -> Q) bs X i : (i < length X)%nat -> length (nth i (map (fun r => map2 f bs r) X) []) = Nat.min (length bs) (length (nth i X [])).
Proof.
  intros Hi. rewrite (nth_indep _ [] ((fun r => map2 f bs r) [])) by (rewrite map_length; auto). rewrite (map_nth (fun r => map2 f bs r)). apply length_map2.
Qed.
Lemma F2_of_nth a : forall b, length a = length b -> (forall j, (j < length a)%nat -> nth j a 0 == nth j b 0) -> Forall2 Qeq a b.
Proof.
  induction a as [|x a IH]; intros [|y b] HL H; try discriminate; constructor.
  - apply (H 0%nat). simpl. lia.
  - apply IH; [simpl in HL; lia|]. intros j Hj. apply (H (S j)). simpl. lia.
Qed.
Definition rows (m : nat) (X : list (list Q)) : Prop := forall r, In r X -> length r = m.
Lemma rows_nth m X i : rows m X -> (i < length X)%nat -> length (nth i X []) = m.
Proof. intros H Hi. apply H, nth_In; auto. Qed.

(** C62: the constructor fails exactly when some lower bound exceeds its upper bound *)
Theorem C62_accepts : forall is_int m X xl xu, length xl = length xu ->
  (exists N, normalize is_int m X (Some xl) (Some xu) = Some N) <-> (forall j a b, nth j xl None = Some a -> nth j xu None = Some b -> a <= b).
Proof.
  intros is_int m X xl xu HL. unfold normalize. destruct (zto_init_spec xl xu HL) as [[A B] _]. split.
  - intros [N HN]. destruct (zto_init xl xu) as [bs|] eqn:E; [|discriminate]. destruct B as [_ B]; eauto.
  - intros H. destruct A as [bs ->]; [split; auto|]. eauto.
Qed.
Print Assumptions C62_accepts.

(** C62: on floating-point arrays the two directions are inverse, for any mixture of missing and equal bounds *)
Theorem C62_inverse : forall m xl xu X, length xl = m -> length xu = m -> rows m X -> bounds_ok xl xu ->
  exists N D, normalize false m X (Some xl) (Some xu) = Some N /\ denormalize false X xl xu = Some D /\
    (exists B, denormalize false N xl xu = Some B /\ length B = length X /\ forall i j, (i < length X)%nat -> (j < m)%nat -> entry B i j == entry X i j) /\
    (exists B, normalize false m D (Some xl) (Some xu) = Some B /\ length B = length X /\ forall i j, (i < length X)%nat -> (j < m)%nat -> entry B i j == entry X i j).
Proof.
  intros m xl xu X Hl Hu HX HB. destruct (zto_init_spec xl xu) as [[A _] C]; [lia|]. destruct (A HB) as [bs Hbs]. destruct (C bs Hbs) as [L1 Hb].
  unfold normalize, denormalize. rewrite Hbs. do 2 eexists. split; [reflexivity|]. split; [reflexivity|].
  assert (HE : forall b x, (exists l u, zto_init1 l u = Some b) -> zto_backward1 b (zto_forward1 b x) == x /\ zto_forward1 b (zto_backward1 b x) == x).
  { intros [[l|] [u|]] x (l' & u' & E); cbn [zto_forward1 zto_backward1].
    - assert (~ u - l == 0).
      { unfold zto_init1 in E. destruct l' as [l'|], u' as [u'|]; try (injection E as E; discriminate).
        destruct (Qeq_bool l' u') eqn:Ee; [discriminate|]. destruct (Qle_bool l' u'); [|discriminate]. injection E as <- <-.
        apply Qeq_bool_neq in Ee. intros Z. apply Ee. lra. }
      split; field; auto.
    - split; lra.
    - split; lra.
    - split; lra. }
  split; eexists; (split; [reflexivity|]); unfold zto_forward, zto_backward; (split; [rewrite !map_length; auto|]); intros i j Hi Hj;
    pose proof (rows_nth m X i HX Hi) as Hr;
    (rewrite entry_map; [|rewrite map_length; lia|lia|rewrite map_row_length by auto; lia]); (rewrite entry_map by lia); cbn [store andb]; apply HE; do 2 eexists; apply Hb; lia.
Qed.
Print Assumptions C62_inverse.

(** C62: a variable with both bounds, lower < upper: in bounds iff the normalised value is in [0, 1]; the bounds go to 0 and 1; order is kept *)
Theorem C62_range : forall m xl xu X N j l u, length xl = m -> length xu = m -> rows m X -> (j < m)%nat ->
  normalize false m X (Some xl) (Some xu) = Some N -> nth j xl None = Some l -> nth j xu None = Some u -> l < u ->
  forall i, (i < length X)%nat ->
    (l <= entry X i j <= u <-> 0 <= entry N i j <= 1) /\
    (entry X i j == l <-> entry N i j == 0) /\ (entry X i j == u <-> entry N i j == 1) /\
    forall i', (i' < length X)%nat -> (entry X i j < entry X i' j <-> entry N i j < entry N i' j).
Proof.
  intros m xl xu X N j l u Hl Hu HX Hj HN El Eu Hlu i Hi. unfold normalize in HN. destruct (zto_init xl xu) as [bs|] eqn:Eb; [|discriminate]. injection HN as <-.
  destruct (zto_init_spec xl xu) as [_ C]; [lia|]. destruct (C bs Eb) as [L1 Hb]. specialize (Hb j ltac:(lia)). rewrite El, Eu in Hb. cbn [zto_init1] in Hb.
  destruct (Qeq_bool l u) eqn:E1; [apply Qeq_bool_iff in E1; lra|]. destruct (Qle_bool l u); [|discriminate]. injection Hb as Hb.
  assert (HV : forall k, (k < length X)%nat -> entry (zto_forward false bs X) k j = (entry X k j - l) / (u - l)).
  { intros k Hk. unfold zto_forward. pose proof (rows_nth m X k HX Hk). rewrite entry_map by lia. rewrite <- Hb. reflexivity. }
  rewrite HV by auto. assert (Hd : 0 < u - l) by lra.
  assert (HM : forall x, (x - l) / (u - l) * (u - l) == x - l) by (intros; field; lra).
  pose proof (HM (entry X i j)) as Hi0. set (v := (entry X i j - l) / (u - l)) in *.
  assert (T0 : 0 <= v <-> 0 <= v * (u - l)). { split; intros H; [apply Qmult_le_0_compat; lra|]. apply Qmult_le_r with (z := u - l); auto. lra. }
  assert (T1 : v <= 1 <-> v * (u - l) <= 1 * (u - l)). { symmetry. apply Qmult_le_r; auto. }
  assert (T2 : forall c, v == c <-> v * (u - l) == c * (u - l)). { intros c. symmetry. apply Qmult_inj_r. lra. }
  split; [|split; [|split]].
  - rewrite T0, T1. split; intros; lra.
  - rewrite T2. split; intros; lra.
  - rewrite T2. split; intros; lra.
  - intros i' Hi'. rewrite HV by auto. pose proof (HM (entry X i' j)) as Hi1. set (w := (entry X i' j - l) / (u - l)) in *.
    rewrite <- (Qmult_lt_r v w (u - l)) by auto. split; intros; lra.
Qed.
Print Assumptions C62_range.

(** C62: normalisation with bounds taken from the data never fails; the result lies in [0, 1]; 0 is attained in every column and 1 in every
    column that is not constant *)
Theorem C62_estimated : forall m X, table m X -> exists N, normalize false m X None None = Some N /\ length N = length X /\
  forall j, (j < m)%nat -> (forall i, (i < length X)%nat -> 0 <= entry N i j <= 1) /\ (exists i, (i < length X)%nat /\ entry N i j == 0) /\
    ((exists i i', (i < length X)%nat /\ (i' < length X)%nat /\ ~ entry X i j == entry X i' j) -> exists i, (i < length X)%nat /\ entry N i j == 1) /\
    ((forall i i', (i < length X)%nat -> (i' < length X)%nat -> entry X i j == entry X i' j) -> forall i, (i < length X)%nat -> entry N i j == 0).
Proof.
  intros m X [HX HR]. unfold normalize.
  assert (HL : forall j, (j < m)%nat -> nth j (map Some (col_min m X)) None = Some (nth j (col_min m X) 0)).
  { intros j Hj. rewrite (nth_indep _ None (Some 0)) by (rewrite map_length, col_min_length; auto). apply (map_nth (@Some Q)). }
  assert (HU : forall j, (j < m)%nat -> nth j (map Some (col_max m X)) None = Some (nth j (col_max m X) 0)).
  { intros j Hj. rewrite (nth_indep _ None (Some 0)) by (rewrite map_length, col_max_length; auto). apply (map_nth (@Some Q)). }
  destruct (zto_init_spec (map Some (col_min m X)) (map Some (col_max m X))) as [[A _] C]; [rewrite !map_length, col_min_length, col_max_length; auto|].
  assert (Hle : forall j, (j < m)%nat -> nth j (col_min m X) 0 <= nth j (col_max m X) 0).
  { intros j Hj. destruct (col_min_least m X j HX Hj) as [(r & Hr & E) _]. rewrite E. destruct (col_max_greatest m X j HX Hj) as [_ G]. auto. }
  destruct A as [bs Hbs].
  { split; [rewrite !map_length, col_min_length, col_max_length; auto|]. intros j a b Ha Hb.
    destruct (Nat.lt_ge_cases j m) as [Hj|Hj]; [|rewrite nth_overflow in Ha by (rewrite map_length, col_min_length; auto); discriminate].
    rewrite HL in Ha by auto. rewrite HU in Hb by auto. injection Ha as <-. injection Hb as <-. auto. }
  rewrite Hbs. eexists. split; [reflexivity|]. destruct (C bs Hbs) as [L1 Hb]. rewrite map_length, col_min_length in L1, Hb.
  split; [unfold zto_forward; now rewrite map_length|]. intros j Hj. specialize (Hb j Hj). rewrite HL, HU in Hb by auto.
  destruct (col_min_least m X j HX Hj) as [(rl & Hrl & El) Gl]. destruct (col_max_greatest m X j HX Hj) as [(ru & Hru & Eu) Gu]. specialize (Hle j Hj).
  set (l := nth j (col_min m X) 0) in *. set (u := nth j (col_max m X) 0) in *.
  apply (In_nth _ _ []) in Hrl as (il & Hil & Eil). apply (In_nth _ _ []) in Hru as (iu & Hiu & Eiu). rewrite <- Eil in El. rewrite <- Eiu in Eu.
  assert (HV : forall k, (k < length X)%nat -> entry (zto_forward false bs X) k j = zto_forward1 (nth j bs (None, None)) (entry X k j)).
  { intros k Hk. unfold zto_forward. pose proof (rows_nth m X k HR Hk). rewrite entry_map by lia. reflexivity. }
  assert (HI : forall k, (k < length X)%nat -> l <= entry X k j <= u) by (intros k Hk; split; [apply Gl|apply Gu]; apply nth_In; auto).
  cbn [zto_init1] in Hb. destruct (Qeq_bool l u) eqn:E1.
  - apply Qeq_bool_iff in E1. injection Hb as Hb. assert (HZ : forall k, (k < length X)%nat -> entry (zto_forward false bs X) k j == 0).
    { intros k Hk. rewrite HV by auto. rewrite <- Hb. cbn [zto_forward1]. specialize (HI k Hk). lra. }
    split; [intros i Hi; specialize (HZ i Hi); lra|]. split; [exists il; auto|]. split; [|auto].
    intros (i & i' & Hi & Hi' & Hne). exfalso. apply Hne. pose proof (HI i Hi). pose proof (HI i' Hi'). lra.
  - apply Qeq_bool_neq in E1. destruct (Qle_bool l u); [|discriminate]. injection Hb as Hb. assert (Hlt : 0 < u - l) by lra.
    assert (HZ : forall k, (k < length X)%nat -> entry (zto_forward false bs X) k j == (entry X k j - l) / (u - l)).
    { intros k Hk. rewrite HV by auto. rewrite <- Hb. reflexivity. }
    split; [|split; [|split]].
    + intros i Hi. rewrite HZ by auto. specialize (HI i Hi). split; [apply Qle_shift_div_l; auto; lra|apply Qle_shift_div_r; auto; lra].
    + exists il. split; auto. rewrite HZ by auto. unfold entry. rewrite <- El. field. lra.
    + intros _. exists iu. split; auto. rewrite HZ by auto. unfold entry. rewrite <- Eu. field. lra.
    + intros H. exfalso. specialize (H il iu Hil Hiu). unfold entry in H. rewrite <- El, <- Eu in H. contradiction.
Qed.
Print Assumptions C62_estimated.

(** C62, refuted: denormalising a number of [0, 1] stays within the bounds - not for a fixed variable (equal bounds) *)
Theorem C62_denormalize : forall m xl xu X D j l u, length xl = m -> length xu = m -> rows m X -> (j < m)%nat ->
  denormalize false X xl xu = Some D -> nth j xl None = Some l -> nth j xu None = Some u ->
  forall i, (i < length X)%nat -> 0 <= entry X i j <= 1 ->
    (l < u -> l <= entry D i j <= u) /\ (l == u -> entry D i j == l + entry X i j).
Proof.
  intros m xl xu X D j l u Hl Hu HX Hj HN El Eu i Hi H01. unfold denormalize in HN. destruct (zto_init xl xu) as [bs|] eqn:Eb; [|discriminate]. injection HN as <-.
  destruct (zto_init_spec xl xu) as [_ C]; [lia|]. destruct (C bs Eb) as [L1 Hb]. specialize (Hb j ltac:(lia)). rewrite El, Eu in Hb. cbn [zto_init1] in Hb.
  unfold zto_backward. pose proof (rows_nth m X i HX Hi). rewrite entry_map by lia. cbn [store andb].
  destruct (Qeq_bool l u) eqn:E1.
  - apply Qeq_bool_iff in E1. injection Hb as Hb. rewrite <- Hb. cbn [zto_backward1]. split; intros; lra.
  - apply Qeq_bool_neq in E1. destruct (Qle_bool l u); [|discriminate]. injection Hb as Hb. rewrite <- Hb. cbn [zto_backward1].
    split; [|intros; contradiction]. intros Hlt. assert (0 <= entry X i j * (u - l)) by (apply Qmult_le_0_compat; lra).
    assert (0 <= (1 - entry X i j) * (u - l)) by (apply Qmult_le_0_compat; lra). split; lra.
Qed.
Print Assumptions C62_denormalize.
Theorem C62_degenerate_refuted : ~ (forall m xl xu X D j l u, length xl = m -> length xu = m -> rows m X -> (j < m)%nat ->
  denormalize false X xl xu = Some D -> nth j xl None = Some l -> nth j xu None = Some u ->
  forall i, (i < length X)%nat -> 0 <= entry X i j <= 1 -> l <= entry D i j <= u).
Proof.
  intros H. specialize (H 1%nat [Some 2] [Some 2] [[1]] [[3]] 0%nat 2 2 eq_refl eq_refl).
  destruct (H ltac:(intros r [<-|[]]; reflexivity) ltac:(auto) eq_refl eq_refl eq_refl 0%nat) as [_ H2]; [simpl; auto|unfold entry; simpl; lra|].
  unfold entry in H2. simpl in H2. lra.
Qed.
Print Assumptions C62_degenerate_refuted.

(** C62, refuted for integer arrays: the inner points are truncated, so neither the round trip nor the order survives *)
Theorem C62_integer_refuted : ~ (forall m xl xu X N, length xl = m -> length xu = m -> rows m X ->
  (forall r x, In r X -> In x r -> exists z : Z, x = inject_Z z) -> normalize true m X (Some xl) (Some xu) = Some N ->
  exists B, denormalize true N xl xu = Some B /\ forall i j, (i < length X)%nat -> (j < m)%nat -> entry B i j == entry X i j).
Proof.
  intros H. destruct (H 1%nat [Some 0] [Some 10] [[5]] [[0]] eq_refl eq_refl) as (B & HB & HH).
  - intros r [<-|[]]. reflexivity.
  - intros r x [<-|[]] [<-|[]]. now exists 5%Z.
  - reflexivity.
  - injection HB as <-. specialize (HH 0%nat 0%nat ltac:(auto) ltac:(auto)). vm_compute in HH. discriminate.
Qed.
Print Assumptions C62_integer_refuted.
(** the integer array of a variable between its bounds comes out as 0 everywhere except at the upper bound *)
Lemma trunc_unit q : 0 <= q -> q < 1 -> trunc q = 0%Z.
Proof. intros H1 H2. unfold trunc. apply Z.quot_small. destruct q as [n d]. unfold Qle, Qlt in *. cbn [Qnum Qden] in *. lia. Qed.
Theorem C62_integer_collapse : forall m xl xu X N j l u, length xl = m -> length xu = m -> rows m X -> (j < m)%nat ->
  normalize true m X (Some xl) (Some xu) = Some N -> nth j xl None = Some l -> nth j xu None = Some u -> l < u ->
  forall i, (i < length X)%nat -> l <= entry X i j -> entry X i j < u -> entry N i j = 0.
Proof.
  intros m xl xu X N j l u Hl Hu HX Hj HN El Eu Hlu i Hi H1 H2. unfold normalize in HN. destruct (zto_init xl xu) as [bs|] eqn:Eb; [|discriminate]. injection HN as <-.
  destruct (zto_init_spec xl xu) as [_ C]; [lia|]. destruct (C bs Eb) as [L1 Hb]. specialize (Hb j ltac:(lia)). rewrite El, Eu in Hb. cbn [zto_init1] in Hb.
  destruct (Qeq_bool l u) eqn:E1; [apply Qeq_bool_iff in E1; lra|]. destruct (Qle_bool l u); [|discriminate]. injection Hb as Hb.
  unfold zto_forward. pose proof (rows_nth m X i HX Hi). rewrite entry_map by lia. rewrite <- Hb. cbn [untouched andb negb store zto_forward1].
  rewrite trunc_unit; [reflexivity| |]; [apply Qle_shift_div_l; lra|apply Qlt_shift_div_r; lra].
Qed.
Print Assumptions C62_integer_collapse.

(** C62: the simple normalisation estimates its bounds on the first call and keeps them for every later call *)
Definition szto0 : szto := {| s_xl := None; s_xu := None; s_estimate := true |}.
Theorem C62_simple : forall m X0 Xs X, table m X0 -> rows m X ->
  let s := fold_left (fun s X => fst (szto_forward m s X)) (X0 :: Xs) szto0 in
  exists l u N, s_xl s = Some l /\ s_xu s = Some u /\ snd (szto_forward m s X) = Some N /\ fst (szto_forward m s X) = s /\ length N = length X /\
    forall j, (j < m)%nat -> least j X0 (nth j l 0) /\ greatest j X0 (nth j u 0) /\
      forall i, (i < length X)%nat ->
        (nth j l 0 < nth j u 0 -> entry N i j == (entry X i j - nth j l 0) / (nth j u 0 - nth j l 0)) /\
        (exists B, szto_backward s N = Some B /\ (nth j l 0 < nth j u 0 -> entry B i j == entry X i j) /\ (nth j l 0 == nth j u 0 -> entry B i j == nth j l 0)).
Proof.
  intros m X0 Xs X HX0 HX s.
  assert (Hs : s = {| s_xl := Some (col_min m X0); s_xu := Some (col_max m X0); s_estimate := true |}).
  { unfold s. cbn [fold_left]. unfold szto_forward at 2. cbn [szto0 s_xl s_xu s_estimate fst]. generalize (col_min m X0) (col_max m X0). clear.
    induction Xs as [|X Xs IH]; intros l u; cbn [fold_left]; [reflexivity|]. apply (IH l u). }
  rewrite Hs. exists (col_min m X0), (col_max m X0). eexists. cbn [s_xl s_xu]. do 2 (split; [reflexivity|]). unfold szto_forward, szto_backward. cbn [s_xl s_xu s_estimate fst snd].
  split; [reflexivity|]. split; [reflexivity|]. split; [now rewrite map_length|]. intros j Hj. destruct HX0 as [HX1 HX2].
  split; [apply col_min_least; auto|]. split; [apply col_max_greatest; auto|]. intros i Hi.
  set (l := col_min m X0). set (u := col_max m X0). assert (Ll : length l = m) by apply col_min_length. assert (Lu : length u = m) by apply col_max_length.
  pose proof (rows_nth m X i HX Hi) as Hr. set (denom := map (fun d => if Qeq_bool d 0 then d + tiny else d) (map2 Qminus u l)).
  assert (Hd : nth j denom 0 = if Qeq_bool (nth j u 0 - nth j l 0) 0 then nth j u 0 - nth j l 0 + tiny else nth j u 0 - nth j l 0).
  { unfold denom. rewrite (nth_indep _ 0 ((fun d => if Qeq_bool d 0 then d + tiny else d) 0)) by (rewrite map_length, length_map2; lia).
    rewrite (map_nth (fun d => if Qeq_bool d 0 then d + tiny else d)). rewrite (map2_nth _ _ _ j 0 0 0) by lia. reflexivity. }
  assert (Ld : length denom = m) by (unfold denom; rewrite map_length, length_map2; lia).
  assert (HN : entry (map (fun r => map2 Qdiv (map2 Qminus r l) denom) X) i j = (entry X i j - nth j l 0) / nth j denom 0).
  { unfold entry. rewrite (nth_indep _ [] ((fun r => map2 Qdiv (map2 Qminus r l) denom) [])) by (rewrite map_length; auto).
    rewrite (map_nth (fun r => map2 Qdiv (map2 Qminus r l) denom)). rewrite (map2_nth _ _ _ j 0 0 0) by (rewrite ?length_map2; lia).
    rewrite (map2_nth _ _ _ j 0 0 0) by lia. reflexivity. }
  split.
  - intros Hlt. rewrite HN, Hd. destruct (Qeq_bool (nth j u 0 - nth j l 0) 0) eqn:E; [apply Qeq_bool_iff in E; lra|reflexivity].
  - eexists. split; [reflexivity|]. set (N := map (fun r => map2 Qdiv (map2 Qminus r l) denom) X) in *.
    assert (HLi : length (nth i N []) = m).
    { unfold N. rewrite (nth_indep _ [] ((fun r => map2 Qdiv (map2 Qminus r l) denom) [])) by (rewrite map_length; auto).
      rewrite (map_nth (fun r => map2 Qdiv (map2 Qminus r l) denom)). rewrite !length_map2. lia. }
    assert (HB : entry (map (fun r => map2 Qplus (map2 Qmult r (map2 Qminus u l)) l) N) i j = entry N i j * (nth j u 0 - nth j l 0) + nth j l 0).
    { unfold entry. rewrite (nth_indep _ [] ((fun r => map2 Qplus (map2 Qmult r (map2 Qminus u l)) l) [])) by (unfold N; rewrite !map_length; auto).
      rewrite (map_nth (fun r => map2 Qplus (map2 Qmult r (map2 Qminus u l)) l)). rewrite (map2_nth _ _ _ j 0 0 0) by (rewrite ?length_map2; lia).
      rewrite (map2_nth _ _ _ j 0 0 0) by (rewrite ?length_map2; lia). rewrite (map2_nth _ _ _ j 0 0 0) by lia. reflexivity. }
    rewrite HB. split.
    + intros Hlt. rewrite HN, Hd. destruct (Qeq_bool (nth j u 0 - nth j l 0) 0) eqn:E; [apply Qeq_bool_iff in E; lra|]. field. lra.
    + intros Heq. assert (E : nth j u 0 - nth j l 0 == 0) by lra. rewrite E. lra.
Qed.
Print Assumptions C62_simple.

(** C62: the ideal point of the objective-space normalisation: smallest values over all feasible solutions ever seen; the other one over all
    solutions ever seen *)
Definition osn0 : osn := {| o_ideal := None; o_infeas_ideal := None |}.
Definition all_seen (ps : list (list (list Q * bool))) : list (list Q) := map fst (concat ps).
Definition feas_seen (ps : list (list (list Q * bool))) : list (list Q) := map fst (filter snd (concat ps)).
Lemma find_ideal_least m F X c j : F <> [] -> (j < m)%nat -> length c = m -> least j X (nth j c 0) -> least j (X ++ F) (nth j (find_ideal m F (Some c)) 0).
Proof.
  intros HF Hj Hc HX. cbn [find_ideal]. rewrite (map2_nth _ _ _ j 0 0 0) by (rewrite ?col_min_length; lia).
  apply least_cons with (c := c); auto. destruct (col_min_least m F j HF Hj) as [(r & Hr & Er) G]. unfold qmin.
  destruct (Qle_bool (nth j c 0) (nth j (col_min m F) 0)) eqn:E.
  - apply Qle_bool_iff in E. split; [exists c; simpl; auto|]. intros x [<-|Hx]; [lra|]. specialize (G x Hx). lra.
  - apply Qle_bool_false in E. split; [exists r; simpl; auto|]. intros x [<-|Hx]; [lra|auto].
Qed.
Theorem C62_ideal : forall m ps, Forall (fun p => p <> []) ps ->
  let s := fold_left (osn_update m) ps osn0 in
  (ps <> [] -> exists v, o_infeas_ideal s = Some v /\ length v = m /\ forall j, (j < m)%nat -> least j (all_seen ps) (nth j v 0)) /\
  (feas_seen ps = [] -> o_ideal s = None) /\
  (feas_seen ps <> [] -> exists v, o_ideal s = Some v /\ length v = m /\ forall j, (j < m)%nat -> least j (feas_seen ps) (nth j v 0)).
Proof.
  intros m ps. induction ps as [|p ps IH] using rev_ind; intros HF s.
  - split; [congruence|]. split; [reflexivity|]. intros X. exfalso. apply X. reflexivity.
  - apply Forall_app in HF as [HF Hp]. inversion Hp as [|? ? Hp' _]; subst. destruct (IH HF) as (I1 & I2 & I3). clear IH.
    unfold s. rewrite fold_left_app. cbn [fold_left]. set (s0 := fold_left (osn_update m) ps osn0) in *.
    assert (EA : all_seen (ps ++ [p]) = all_seen ps ++ map fst p) by (unfold all_seen; rewrite concat_app, map_app; simpl; now rewrite app_nil_r).
    assert (EF : feas_seen (ps ++ [p]) = feas_seen ps ++ map fst (filter snd p)).
    { unfold feas_seen. rewrite concat_app. simpl. rewrite app_nil_r, filter_app, map_app. reflexivity. }
    unfold osn_update. cbn [o_ideal o_infeas_ideal]. split; [|split].
    + intros _. eexists. split; [reflexivity|]. assert (Hm : map fst p <> []) by (destruct p; [congruence|discriminate]).
      destruct ps as [|p0 ps'] eqn:Eps.
      * cbn [fold_left app] in *. split; [apply col_min_length|]. intros j Hj. rewrite EA. cbn [all_seen concat map app]. apply col_min_least; auto.
      * rewrite <- Eps in *. destruct I1 as (v & Ev & Lv & Hv); [rewrite Eps; discriminate|]. rewrite Ev. split; [cbn [find_ideal]; rewrite length_map2, col_min_length; lia|].
        intros j Hj. rewrite EA. apply find_ideal_least; auto.
    + intros H. rewrite EF in H. apply app_eq_nil in H as [H1 H2]. apply map_eq_nil in H2. destruct (existsb snd p) eqn:Ex; [|auto].
      apply existsb_exists in Ex as (x & Hx & Fx). assert (In x (filter snd p)) by (apply filter_In; auto). rewrite H2 in H. destruct H.
    + intros H. destruct (existsb snd p) eqn:Ex.
      * eexists. split; [reflexivity|]. assert (Hm : map fst (filter snd p) <> []).
        { apply existsb_exists in Ex as (x & Hx & Fx). assert (Hi : In x (filter snd p)) by (apply filter_In; auto). destruct (filter snd p); [destruct Hi|discriminate]. }
        destruct (feas_seen ps) as [|a b] eqn:Efs.
        -- rewrite (I2 eq_refl). cbn [find_ideal]. split; [apply col_min_length|]. intros j Hj. rewrite EF. cbn [app]. apply col_min_least; auto.
        -- destruct I3 as (v & Ev & Lv & Hv); [discriminate|]. rewrite Ev. split; [cbn [find_ideal]; rewrite length_map2, col_min_length; lia|].
           intros j Hj. rewrite EF. apply find_ideal_least; auto.
      * assert (Hf : filter snd p = []). { destruct (filter snd p) as [|x q] eqn:E; auto. assert (In x (filter snd p)) by (rewrite E; simpl; auto). apply filter_In in H0 as [H0 H1].
          assert (existsb snd p = true) by (apply existsb_exists; eauto). congruence. }
        rewrite EF, Hf in *. cbn [map] in *. rewrite app_nil_r in *. apply I3; auto.
Qed.
Print Assumptions C62_ideal.

Lemma C62_case :
  normalize false 3 [[1; 4; 7]; [3; 4; 9]; [2; 4; 0]] None None = Some [[0 # 2; 0; 7 # 9]; [2 # 2; 0; 9 # 9]; [1 # 2; 0; 0 # 9]] /\
  bounds_ok [Some 1; None; Some 3; None] [Some 5; Some 2; Some 3; None] /\
  o_ideal (fold_left (osn_update 2) [[([1; 5], true); ([0; 0], false)]; [([2; 2], true)]] osn0) = Some [1; 2].
Proof.
  split; [reflexivity|]. split; [|reflexivity]. split; [reflexivity|]. intros j a b Ha Hb.
  destruct j as [|[|[|[|j]]]]; simpl in Ha, Hb; try discriminate; try (injection Ha as <-; injection Hb as <-; discriminate). destruct j; discriminate.
Qed.

(** ** C63: evaluating the normalised problem at y in [0, 1]^n should evaluate the original problem at the denormalised point *)
Definition denormalised (xl xu x : list Q) : list Q := map (fun j => nth j xl 0 + nth j x 0 * (nth j xu 0 - nth j xl 0)) (seq 0 (length x)).
Definition normalised (xl xu x : list Q) : list Q := map (fun j => (nth j x 0 - nth j xl 0) / (nth j xu 0 - nth j xl 0)) (seq 0 (length x)).
Theorem C63_refuted : ~ (forall (eval : list Q -> Q) xl xu x, length xl = length x -> length xu = length x ->
  (forall j, (j < length x)%nat -> nth j xl 0 < nth j xu 0) -> (forall j, (j < length x)%nat -> 0 <= nth j x 0 <= 1) ->
  exists v, zero_to_one_eval eval (map Some xl) (map Some xu) x = Some v /\ v == eval (denormalised xl xu x)).
Proof.
  intros H. destruct (H (fun x => nth 0 x 0) [2] [4] [1 # 2] eq_refl eq_refl) as (v & Hv & E).
  - intros [|j] Hj; simpl in *; [lra|lia].
  - intros [|j] Hj; simpl in *; [lra|lia].
  - cbn in Hv. injection Hv as <-. vm_compute in E. discriminate.
Qed.
Print Assumptions C63_refuted.
(** what the code does: it evaluates the original problem at the normalised point, for every problem whose value depends only on the numbers *)
Theorem C63_actual : forall (eval : list Q -> Q) xl xu x, (forall a b, Forall2 Qeq a b -> eval a == eval b) -> length xl = length x -> length xu = length x ->
  (forall j, (j < length x)%nat -> nth j xl 0 < nth j xu 0) ->
  exists v, zero_to_one_eval eval (map Some xl) (map Some xu) x = Some v /\ v == eval (normalised xl xu x).
Proof.
  intros eval xl xu x Hext Hl Hu Hlt. unfold zero_to_one_eval.
  assert (HS : forall l j, (j < length l)%nat -> nth j (map (@Some Q) l) None = Some (nth j l 0)).
  { intros l j Hj. rewrite (nth_indep _ None (Some 0)) by (rewrite map_length; auto). apply (map_nth (@Some Q)). }
  destruct (zto_init_spec (map Some xl) (map Some xu)) as [[A _] C]; [rewrite !map_length; lia|].
  destruct A as [bs Hbs].
  { split; [rewrite !map_length; lia|]. intros j a b Ha Hb. destruct (Nat.lt_ge_cases j (length x)) as [Hj|Hj].
    - rewrite HS in Ha, Hb by lia. injection Ha as <-. injection Hb as <-. apply Qlt_le_weak; auto.
    - rewrite nth_overflow in Ha by (rewrite map_length; lia). discriminate. }
  rewrite Hbs. eexists. split; [reflexivity|]. apply Hext. cbn [zto_forward map nth]. destruct (C bs Hbs) as [Lb Hb]. rewrite map_length in Lb, Hb.
  apply F2_of_nth.
  - rewrite length_map2. unfold normalised. rewrite map_length, seq_length. lia.
  - intros j Hj. rewrite length_map2 in Hj. rewrite (map2_nth _ _ _ j 0 ((None, None) : bnd) 0) by lia. unfold normalised. rewrite nth_seq_map by lia. cbn [store andb].
    specialize (Hb j ltac:(lia)). rewrite !HS in Hb by lia. cbn [zto_init1] in Hb. specialize (Hlt j ltac:(lia)).
    destruct (Qeq_bool (nth j xl 0) (nth j xu 0)) eqn:E1; [apply Qeq_bool_iff in E1; lra|]. destruct (Qle_bool _ _); [|discriminate]. injection Hb as <-. reflexivity.
Qed.
Print Assumptions C63_actual.
Lemma C63_case : zero_to_one_eval (fun x => nth 0 x 0 + nth 1 x 0) [Some 0; Some 2] [Some 10; Some 4] [1 # 2; 1] = Some (-18 # 40).
Proof. reflexivity. Qed.
