(** * C118: the energy method keeps the points on the simplex *)
From Coq Require Import List Arith Bool Reals Lra Lia.
From Verif Require Import ListAux M_NSGA3R M_Energy Thm_Energy.
Import ListNotations.
Local Open Scope R_scope.

Definition row_ok (n : nat) (r : row) : Prop :=
  length (cells r) = n /\ rsum (coords r) = 1 /\ (frozen r = false -> Forall (fun v => 0 <= v) (coords r) /\ Forall moment_ok (cells r)) /\ (frozen r = true -> Forall still (cells r)).
Definition evolves (r r' : row) : Prop := frozen r' = frozen r /\ (frozen r = true -> coords r' = coords r).
Lemma len_coords r : length (coords r) = length (cells r).
Proof. apply map_length. Qed.
Lemma coords_with r x : length x = length (cells r) -> coords (with_coords r x) = x.
Proof.
  unfold coords, with_coords. cbn [cells]. generalize (cells r) as l. intros l. revert x. induction l as [|c l IH]; intros [|v x] H; try discriminate; cbn; auto. f_equal. apply IH. now injection H.
Qed.
Lemma still_with r x : length x = length (cells r) -> Forall still (cells r) -> Forall still (cells (with_coords r x)).
Proof.
  unfold with_coords. cbn [cells]. generalize (cells r) as l. intros l. revert x. induction l as [|c l IH]; intros [|v x] H HF; try discriminate; cbn; auto. inversion HF; subst. constructor; [exact H2|]. apply IH; auto.
Qed.
Lemma moment_with r x : length x = length (cells r) -> Forall moment_ok (cells r) -> Forall moment_ok (cells (with_coords r x)).
Proof.
  unfold with_coords. cbn [cells]. generalize (cells r) as l. intros l. revert x. induction l as [|c l IH]; intros [|v x] H HF; try discriminate; cbn; auto. inversion HF; subst. constructor; [exact H2|]. apply IH; auto.
Qed.
Lemma rsum_zero {A} (l : list A) : rsum (map (fun _ => 0) l) = 0.
Proof. unfold rsum. induction l; cbn; lra. Qed.
Lemma rsum_add_map (l : list R) c : rsum (map (fun v => v - c) l) = rsum l - INR (length l) * c.
Proof. unfold rsum. induction l as [|v l IH]; [cbn; lra|]. cbn [map fold_right length]. rewrite IH, S_INR. ring. Qed.
(** the projected gradient sums to zero *)
Lemma project_zero_sum y : rsum (project_zero y) = 0.
Proof. unfold project_zero. destruct y as [|v y]; [reflexivity|]. rewrite rsum_add_map. field. apply not_0_INR. discriminate. Qed.

Lemma still_cells alpha t l : forall g, Forall still l -> Forall (eq 0) g -> length g = length l ->
  map c_x (map2 (adam_cell alpha t) l g) = map c_x l /\ Forall still (map2 (adam_cell alpha t) l g) /\ length (map2 (adam_cell alpha t) l g) = length l.
Proof.
  induction l as [|c l IH]; intros [|v g] HS HG HL; try discriminate; cbn [map map2 length]; auto.
  pose proof (Forall_inv HS) as S1. pose proof (Forall_inv_tail HS) as S2. pose proof (Forall_inv HG) as G1. pose proof (Forall_inv_tail HG) as G2. rewrite <- G1.
  destruct (adam_still alpha t c S1) as [K1 K2]. destruct (IH g S2 G2 ltac:(now injection HL)) as (I1 & I2 & I3). rewrite K1, I1, I3. auto.
Qed.
Lemma moving_cells alpha t l : 0 <= alpha -> (1 <= t)%nat -> forall g, Forall moment_ok l -> length g = length l ->
  Forall moment_ok (map2 (adam_cell alpha t) l g) /\ length (map2 (adam_cell alpha t) l g) = length l /\
  forall k, (k < length l)%nat -> Rabs (nth k (map c_x (map2 (adam_cell alpha t) l g)) 0 - nth k (map c_x l) 0) <= 8 * alpha.
Proof.
  intros Ha Ht. induction l as [|c l IH]; intros [|v g] HS HL; try discriminate; cbn [map map2 length]; [split; auto; split; auto; intros; lia|].
  pose proof (Forall_inv HS) as S1. pose proof (Forall_inv_tail HS) as S2. destruct (IH g S2 ltac:(now injection HL)) as (I1 & I2 & I3).
  split; [constructor; auto; now apply adam_moments|]. split; [lia|]. intros [|k] Hk; cbn [nth]; [apply adam_move; auto|apply I3; lia].
Qed.

Section Loop.
  Variables (o : opts) (n : nat).
  Hypothesis Hn : (n <= 24)%nat.
  Lemma len_gradient X r : length (row_gradient o X r) = length (cells r).
  Proof. unfold row_gradient, project_zero. rewrite map_length. destruct (frozen r); rewrite ?map_length; unfold gradient; rewrite map_length, seq_length; apply len_coords. Qed.
  Lemma frozen_gradient X r : frozen r = true -> Forall (eq 0) (row_gradient o X r).
  Proof.
    intros E. unfold row_gradient. rewrite E. unfold project_zero. rewrite rsum_zero. apply Forall_map, Forall_map, Forall_forall. intros v _. unfold Rdiv. ring.
  Qed.
  Lemma row_step X alpha t r : 0 <= alpha <= 5 / 1000 -> (1 <= t)%nat -> row_ok n r ->
    exists r', finish_row (adam_row alpha t (map (fun g => g / divisor o X) (row_gradient o X r)) r) = Some r' /\ row_ok n r' /\ evolves r r'.
  Proof.
    intros Ha Ht (H1 & H2 & H3 & H4). set (g := map (fun g => g / divisor o X) (row_gradient o X r)). assert (Hg : length g = length (cells r)) by (unfold g; rewrite map_length; apply len_gradient).
    unfold finish_row. cbn [frozen adam_row]. set (ra := adam_row alpha t g r). destruct (frozen r) eqn:EF.
    - assert (G : Forall (eq 0) g) by (unfold g; apply Forall_map; eapply Forall_impl; [|apply (frozen_gradient X r EF)]; cbn; intros v <-; unfold Rdiv; ring).
      assert (K : coords ra = coords r /\ Forall still (cells ra) /\ length (cells ra) = length (cells r)).
      { unfold coords, ra, adam_row. cbn [cells]. now apply still_cells; auto. }
      destruct K as (K1 & K2 & K3). rewrite K1, H2. assert (Ex : map (fun v => v / 1) (coords r) = coords r) by (rewrite <- (map_id (coords r)) at 2; apply map_ext; intros v; field). rewrite Ex.
      eexists. split; [reflexivity|]. assert (EL : length (coords r) = length (cells ra)) by (rewrite K3; apply len_coords). split.
      + split; [unfold with_coords; cbn [cells]; rewrite length_map2, EL, Nat.min_id; congruence|]. rewrite coords_with by auto. split; auto. split; [cbn [frozen with_coords]; unfold ra; cbn; congruence|]. intros _. now apply still_with.
      + split; [reflexivity|]. intros _. now apply coords_with.
    - destruct (H3 eq_refl) as [H5 H6].
      assert (K : Forall moment_ok (cells ra) /\ length (cells ra) = length (cells r) /\ forall k, (k < length (cells r))%nat -> Rabs (nth k (coords ra) 0 - nth k (coords r) 0) <= 8 * alpha).
      { unfold coords, ra, adam_row. cbn [cells]. apply moving_cells; auto; lra. }
      destruct K as (K1 & K2 & K3). destruct (big_coord (coords r)) as (k & Hk & Hb); [split; auto|rewrite len_coords; lia|]. rewrite len_coords in Hk.
      assert (Hpos : exists v, In v (coords ra) /\ 0 < v).
      { exists (nth k (coords ra) 0). split; [apply nth_In; rewrite len_coords; lia|]. specialize (K3 k Hk). apply Rabs_le_between in K3 || idtac. assert (B : - (8 * alpha) <= nth k (coords ra) 0 - nth k (coords r) 0) by (first [lra | revert K3; unfold Rabs; destruct (Rcase_abs _); lra]). lra. }
      destruct (project_spec (coords ra) Hpos) as (y & -> & [Y1 Y2] & Y3). eexists. split; [reflexivity|]. set (z := map (fun v => v / rsum y) y) in *. assert (Hz : length z = length (cells ra)) by (unfold z; rewrite map_length, Y3; apply len_coords). split.
      + split; [unfold with_coords; cbn [cells]; rewrite length_map2, Hz, Nat.min_id; congruence|]. rewrite coords_with by auto. split; auto. split; [intros _; split; auto; now apply moment_with|]. unfold ra. cbn. congruence.
      + split; [unfold ra; cbn; congruence|]. congruence.
  Qed.
  Lemma all_rows_spec (f : row -> option row) (P : row -> row -> Prop) X : Forall (fun r => exists r', f r = Some r' /\ P r r') X -> exists X', all_rows (map f X) = Some X' /\ Forall2 P X X'.
  Proof using. induction 1 as [|r X (r' & E & HP) H (X' & E' & H')]; cbn [map all_rows]; [exists []; auto|]. rewrite E, E'. exists (r' :: X'). auto. Qed.
  Lemma step_ok X alpha t : 0 <= alpha <= 5 / 1000 -> (1 <= t)%nat -> Forall (row_ok n) X -> exists X', step o alpha t X = Some X' /\ Forall2 (fun r r' => row_ok n r' /\ evolves r r') X X'.
  Proof.
    intros Ha Ht HX. unfold step. apply all_rows_spec. eapply Forall_impl; [|exact HX]. intros r Hr. cbn beta. now apply row_step.
  Qed.
  Lemma F2_ok X X' : Forall2 (fun r r' => row_ok n r' /\ evolves r r') X X' -> Forall (row_ok n) X' /\ Forall2 evolves X X'.
  Proof using. induction 1 as [|r r' X X' [H1 H2] H [I1 I2]]; auto. Qed.
  Lemma evolves_trans X Y Z : Forall2 evolves X Y -> Forall2 evolves Y Z -> Forall2 evolves X Z.
  Proof using.
    intros H. revert Z. induction H as [|x y X Y [H1 H2] H IH]; intros Z HZ; inversion HZ as [|? z ? Z' [K1 K2] K3]; subst; constructor; auto. split; [congruence|]. intros E. rewrite K2 by congruence. auto.
  Qed.
  Lemma fresh_ok X : Forall (row_ok n) X -> Forall (row_ok n) (map fresh X) /\ Forall2 evolves X (map fresh X).
  Proof using.
    assert (C : forall r, coords (fresh r) = coords r) by (intros r; unfold fresh, make_row, coords; cbn [cells]; rewrite !map_map; cbn; now rewrite ?map_id).
    induction 1 as [|r X (H1 & H2 & H3 & H4) H [I1 I2]]; cbn [map]; auto. split; constructor; auto; [|split; auto].
    split; [unfold fresh, make_row; cbn [cells]; rewrite map_length, len_coords; auto|]. rewrite C. split; auto. split; intros E; [split; [now apply H3|]|]; unfold fresh, make_row; cbn [cells]; apply Forall_map, Forall_forall; intros v _; unfold moment_ok, still; cbn; split; lra.
  Qed.
  Lemma loop_ok fuel : forall np X alpha t ret obj bad X0, 0 <= alpha <= 5 / 1000 -> Forall (row_ok n) X -> Forall (row_ok n) ret -> Forall2 evolves X0 X -> Forall2 evolves X0 ret ->
    exists out, solve_loop o fuel np X alpha t ret obj bad = Some out /\ Forall (row_ok n) out /\ Forall2 evolves X0 out.
  Proof.
    induction fuel as [|fuel IH]; intros np X alpha t ret obj bad X0 Ha HX HR EX ER; cbn [solve_loop]; [eauto|]. destruct (length X <? 2)%nat; [eauto|].
    destruct (step_ok X alpha (S t) Ha ltac:(lia) HX) as (X' & -> & HX'). apply F2_ok in HX' as [K1 K2]. pose proof (evolves_trans _ _ _ EX K2) as K3.
    set (q := if improves _ _ then _ else _). assert (Hq : Forall (row_ok n) (fst (fst q)) /\ Forall2 evolves X0 (fst (fst q))) by (unfold q; destruct (improves _ _); auto). destruct q as [[ret1 obj1] bad1]. cbn [fst] in Hq. destruct Hq as [Q1 Q2].
    destruct (Rlt_dec _ _); [eauto|]. destruct (restarts o && (n_max_not_improved o <? bad1)%nat); [|apply IH; auto].
    destruct (fresh_ok ret1 Q1) as [F1 F2]. apply IH; auto; [lra|]. eapply evolves_trans; eauto.
  Qed.
End Loop.

Lemma make_ok n f x : length x = n -> rsum x = 1 -> (f = false -> Forall (fun v => 0 <= v) x) -> row_ok n (make_row f x).
Proof.
  intros H1 H2 H3. assert (C : coords (make_row f x) = x) by (unfold make_row, coords; cbn [cells]; rewrite map_map; cbn; apply map_id). split; [cbn; now rewrite map_length|]. rewrite C. split; auto. cbn [frozen make_row].
  split; intros E; [split; [auto|]|]; cbn [cells make_row]; apply Forall_map, Forall_forall; intros v _; unfold moment_ok, still; cbn; split; lra.
Qed.
Lemma coords_make f x : coords (make_row f x) = x.
Proof. unfold make_row, coords; cbn [cells]; rewrite map_map; cbn; apply map_id. Qed.
Definition some_frozen (fe : bool) (x : list R) : bool := fe && edge x.

(** C118: started from points of the simplex (and additional fixed points whose coordinates sum to one), in up to 24 dimensions, for every setting and every number of
    iterations the method ends without an exception and returns points of the simplex, as many as it got; a point with a coordinate below 1e-16 stays
    where it is if edges are frozen.  The one exception about the number: if all points are frozen the additional ones are returned as well *)
Theorem C118_simplex : forall o X F fe n, (1 <= n <= 24)%nat -> Forall (fun x => length x = n /\ on_simplex x) X -> (forall F', F = Some F' -> Forall (fun x => length x = n /\ rsum x = 1) F') ->
  exists Y, solve o X F fe = Some Y /\
    Forall (fun y => length y = n /\ on_simplex y) (firstn (length X) Y) /\
    (forall i, (i < length X)%nat -> fe = true -> (exists v, In v (nth i X []) /\ v < / 10 ^ 16) -> nth i Y [] = nth i X []) /\
    ((exists x, In x X /\ (fe = false \/ Forall (fun v => / 10 ^ 16 <= v) x)) -> length Y = length X) /\
    ((fe = true /\ Forall (fun x => exists v, In v x /\ v < / 10 ^ 16) X) -> Y = X ++ match F with None => [] | Some F' => F' end).
Proof.
  intros o X F fe n Hn HX HF. set (rows := map (fun x => make_row (fe && edge x) x) X ++ match F with None => [] | Some F => map (make_row true) F end).
  assert (Hrows : Forall (row_ok n) rows).
  { apply Forall_app. split.
    - apply Forall_map. eapply Forall_impl; [|exact HX]. intros x (H1 & H2 & H3). apply make_ok; auto.
    - destruct F as [F|]; auto. apply Forall_map. eapply Forall_impl; [|apply (HF F eq_refl)]. intros x (H1 & H2). apply make_ok; auto. discriminate. }
  assert (Hpts : points rows = X ++ match F with None => [] | Some F' => F' end).
  { unfold points, rows. rewrite map_app, map_map. f_equal; [rewrite <- (map_id X) at 2; apply map_ext; intros x; apply coords_make|]. destruct F as [F|]; auto. rewrite map_map. rewrite <- (map_id F) at 2. apply map_ext. intros x. apply coords_make. }
  assert (Hedge : forall x, edge x = true <-> exists v, In v x /\ v < / 10 ^ 16).
  { intros x. unfold edge. rewrite existsb_exists. split; intros (v & Hv & E); exists v; split; auto; destruct (Rlt_dec v (/ 10 ^ 16)); auto; discriminate. }
  (** what the rows become *)
  assert (G : forall out, Forall (row_ok n) out -> Forall2 evolves rows out -> Forall (fun y => length y = n /\ on_simplex y) (firstn (length X) (points out)) /\
              (forall i, (i < length X)%nat -> fe = true -> (exists v, In v (nth i X []) /\ v < / 10 ^ 16) -> nth i (points out) [] = nth i X []) /\ length out = length rows).
  { intros out H1 H2. unfold rows in H2. apply Forall2_app_inv_l in H2 as (out1 & out2 & H2 & H3 & ->).
    assert (HL : length out1 = length X).
    { transitivity (length (map (fun x => make_row (fe && edge x) x) X)); [|apply map_length]. symmetry. clear -H2. induction H2; cbn; auto. }
    apply Forall_app in H1 as [H1 _]. unfold points. rewrite map_app. rewrite firstn_app, map_length, HL, Nat.sub_diag. cbn [firstn]. rewrite app_nil_r. rewrite firstn_all2 by (rewrite map_length; lia).
    assert (K : Forall (fun y => length y = n /\ on_simplex y) (map coords out1) /\ forall i, (i < length X)%nat -> fe && edge (nth i X []) = true -> nth i (map coords out1) [] = nth i X []).
    { clear -H1 H2 HX. revert out1 H1 H2. induction X as [|x X IH]; intros out1 H1 H2; inversion H2 as [|? r ? out1' [E1 E2] H3]; subst; cbn [map]; [split; auto; cbn; intros; lia|].
      inversion HX as [|? ? [L1 [L2 L3]] HX']; subst. inversion H1 as [|? ? (R1 & R2 & R3 & R4) H1']; subst. destruct (IH HX' out1' H1' H3) as [I1 I2]. cbn [frozen make_row] in *. rewrite coords_make in E2.
      split.
      - constructor; auto. split; [rewrite len_coords; auto|]. split; auto. destruct (fe && edge x) eqn:E; [rewrite E2; auto|]. now apply R3.
      - intros [|i] Hi E; cbn [nth] in *; [auto|]. apply I2; auto. cbn in Hi. lia. }
    destruct K as [K1 K2]. split; auto. split.
    - intros i Hi Efe Hv. rewrite app_nth1 by (rewrite map_length; lia). apply K2; auto. rewrite Efe. cbn. now apply Hedge.
    - unfold rows. rewrite !app_length, map_length. f_equal; auto. clear -H3. induction H3; cbn; auto. }
  unfold solve. fold rows. destruct (forallb frozen rows) eqn:EA.
  - exists (points rows). split; auto. assert (Hrefl : Forall2 evolves rows rows) by (clear; induction rows as [|r l IH]; constructor; auto; split; auto). destruct (G rows Hrows Hrefl) as (G1 & G2 & _).
    split; auto. split; auto. split; [|intros _; exact Hpts].
    intros (x & Hx & Hxf). exfalso. rewrite forallb_forall in EA. assert (K : In (make_row (fe && edge x) x) rows) by (unfold rows; apply in_app_iff; left; apply in_map_iff; eauto). apply EA in K. cbn in K. apply andb_true_iff in K as [K1 K2].
    destruct Hxf as [Hxf|Hxf]; [congruence|]. apply Hedge in K2 as (v & Hv & Hlt). rewrite Forall_forall in Hxf. specialize (Hxf v Hv). lra.
  - assert (Hrefl : Forall2 evolves rows rows) by (clear; induction rows as [|r l IH]; constructor; auto; split; auto).
    destruct (loop_ok o n ltac:(lia) (n_max_iter o) (length X) rows (5 / 1000) 0 rows None 0 rows ltac:(lra) Hrows Hrows Hrefl Hrefl) as (out & -> & O1 & O2). destruct (G out O1 O2) as (G1 & G2 & G3).
    exists (firstn (length X) (points out)). split; auto. rewrite firstn_firstn, Nat.min_id. split; auto. assert (HLo : (length X <= length (points out))%nat) by (unfold points; rewrite map_length, G3; unfold rows; rewrite app_length, map_length; lia). split; [|split].
    + intros i Hi Efe Hv. rewrite <- (G2 i Hi Efe Hv). rewrite <- (firstn_skipn (length X) (points out)) at 2. rewrite app_nth1; auto. rewrite firstn_length. lia.
    + intros _. rewrite firstn_length. lia.
    + intros [Efe Hall]. exfalso. assert (K : forallb frozen rows = true); [|congruence]. apply forallb_forall. intros r Hr. unfold rows in Hr. apply in_app_iff in Hr as [Hr|Hr].
      * apply in_map_iff in Hr as (x & <- & Hx). cbn. rewrite Efe. cbn. apply Hedge. rewrite Forall_forall in Hall. auto.
      * destruct F as [F|]; [|destruct Hr]. apply in_map_iff in Hr as (x & <- & _). reflexivity.
Qed.
Print Assumptions C118_simplex.
