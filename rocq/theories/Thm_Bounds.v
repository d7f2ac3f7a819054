(** * C26 and C28: values stay inside the box, rounding. *)
From Coq Require Import List Arith Bool ZArith QArith Qabs Qround Lia Lqa.
From Coq Require Import Floats.SpecFloat.
From Verif Require Import Flt ListAux M_Bounds S_Bounds P_Perm P_Bounds.
Import ListNotations.
Local Open Scope nat_scope.

Lemma clamp_in_box_or_nan x xl xu : fleb xl xu = true -> in_box_or_nan xl xu (clamp x xl xu).
Proof.
  intros H. destruct (isnan x) eqn:E; [right; rewrite clamp_nan; auto|left; apply clamp_box; auto].
Qed.
Lemma set_to_bounds_nth X xl xu i : i < length X ->
  nth i (set_to_bounds_if_outside X (Some xl) (Some xu)) f_nan = clamp (nth i X f_nan) (nth i xl f_nan) (nth i xu f_nan).
Proof.
  intros Hi. unfold set_to_bounds_if_outside. rewrite map_length, seq_length.
  rewrite nth_map_seq0 by auto. rewrite nth_map_seq0 by auto. reflexivity.
Qed.

(** [set_to_bounds_if_outside] and [repair_clamp]: the result has the same length, is in the box at every position where the input is not
    NaN, is NaN where the input is, and is the nearest admissible value (unchanged inside, else the bound that was crossed). *)
Theorem C26_clamp : forall X xl xu, proper_box (length X) xl xu ->
  set_to_bounds_if_outside X (Some xl) (Some xu) = repair_clamp X xl xu /\
  length (repair_clamp X xl xu) = length X /\
  (forall i, i < length X ->
     let x := nth i X f_nan in let l := nth i xl f_nan in let u := nth i xu f_nan in let y := nth i (repair_clamp X xl xu) f_nan in
     (isnan x = true -> y = x) /\ (isnan x = false -> in_box l u y) /\
     (in_box l u x -> y = x) /\ (fltb x l = true -> y = l) /\ (fltb u x = true -> y = u)) /\
  is_out_of_bounds (repair_clamp X xl xu) xl xu = false.
Proof.
  intros X xl xu HB.
  assert (Hn : forall i, i < length X -> nth i (repair_clamp X xl xu) f_nan = clamp (nth i X f_nan) (nth i xl f_nan) (nth i xu f_nan)).
  { intros i Hi. unfold repair_clamp, lift3. rewrite nth_map_seq0 by auto. auto. }
  assert (Hlen : length (repair_clamp X xl xu) = length X) by (unfold repair_clamp, lift3; now rewrite map_length, seq_length).
  split; [|split; [exact Hlen|split]].
  - apply nth_ext with (d := f_nan) (d' := f_nan).
    + rewrite Hlen. unfold set_to_bounds_if_outside. now rewrite !map_length, !seq_length.
    + intros i Hi. unfold set_to_bounds_if_outside in Hi. rewrite !map_length, !seq_length in Hi.
      rewrite set_to_bounds_nth by auto. now rewrite Hn.
  - intros i Hi. cbv zeta. rewrite Hn by auto. pose proof (HB i Hi) as Hb. split; [|split; [|split; [|split]]].
    + intros. apply clamp_nan; auto.
    + intros. apply clamp_box; auto.
    + intros [? ?]. apply clamp_id; auto.
    + intros H. unfold clamp. rewrite H, (fle_not_lt _ _ Hb). auto.
    + intros H. unfold clamp.
      destruct (fltb (nth i X f_nan) (nth i xl f_nan)) eqn:E.
      * exfalso. assert (C := flt_trans _ _ _ H E). apply fle_not_lt in Hb. congruence.
      * now rewrite H.
  - unfold is_out_of_bounds, lift3. rewrite Hlen.
    destruct (existsb _ _) eqn:E; auto. exfalso. apply existsb_exists in E. destruct E as (b & Hb & ->).
    apply in_map_iff in Hb. destruct Hb as (i & Hb & Hi). apply in_seq in Hi. rewrite Hn in Hb by lia.
    destruct (clamp_in_box_or_nan (nth i X f_nan) _ _ (HB i ltac:(lia))) as [[B1 B2]|B].
    + rewrite (fle_not_lt _ _ B1), (fle_not_lt _ _ B2) in Hb. discriminate.
    + destruct (clamp _ _ _); try discriminate. simpl in Hb. destruct (nth i xu f_nan) as [[]|[]| |[] ? ?]; discriminate.
Qed.
Example C26_clamp_case :
  repair_clamp [fz (-3); fz 1; f_nan; fz 9; f_inf] [fz 0; fz 0; fz 0; fz 0; fz 0] [fz 5; fz 5; fz 5; fz 5; fz 5] =
    [fz 0; fz 1; f_nan; fz 5; fz 5] /\
  proper_box 5 [fz 0; fz 0; fz 0; fz 0; fz 0] [fz 5; fz 5; fz 5; fz 5; fz 5].
Proof.
  split; [reflexivity|]. intros i Hi. do 5 (destruct i; [reflexivity|]). lia.
Qed.

(** SBX in binary64, whatever the power function returns: both children are inside the box (or NaN).  If no crossover takes place for the
    variable, children are the parents, if these are inside. *)
Theorem C26_sbx : forall pow p1 p2 xl xu eta eps rand do_cross exch, fleb xl xu = true ->
  in_box_or_nan xl xu (fst (cross_sbx pow p1 p2 xl xu eta eps rand do_cross exch)) /\
  in_box_or_nan xl xu (snd (cross_sbx pow p1 p2 xl xu eta eps rand do_cross exch)) /\
  (in_box xl xu p1 -> in_box xl xu p2 -> do_cross = false \/ feqb xl xu = true \/ fleb (fabs (sub p1 p2)) eps = true ->
   cross_sbx pow p1 p2 xl xu eta eps rand do_cross exch = (p1, p2)).
Proof.
  intros. unfold cross_sbx. split; [|split].
  1-2: match goal with |- context [if ?c then ?a else ?b] => destruct (if c then a else b) as [q1 q2] end; simpl; apply clamp_in_box_or_nan; auto.
  intros [A1 A2] [B1 B2] Hc.
  assert (E : do_cross && negb (fleb (fabs (sub p1 p2)) eps) && negb (feqb xl xu) = false).
  { destruct Hc as [-> | [-> | -> ]]; simpl; auto; rewrite ?andb_false_r; auto. }
  rewrite E. now rewrite !clamp_id.
Qed.
(** a case where the crossover really takes place, with a power function that is wildly wrong *)
Example C26_sbx_case : let pow := fun _ _ => fz 1000 in
  cross_sbx pow (fz 2) (fz 3) (fz 0) (fz 10) (fz 15) f_zero f_half true false = (fz 0, fz 10) /\
  let pow := fun _ _ => fz 1 in
  cross_sbx pow (fz 2) (fz 3) (fz 0) (fz 10) (fz 15) f_zero f_half true true = (fz 3, fz 2).
Proof. vm_compute. auto. Qed.

Theorem C26_pm : forall pow x xl xu eta rand do_mut, fleb xl xu = true ->
  in_box_or_nan xl xu (mut_pm pow x xl xu eta rand do_mut) /\
  (in_box xl xu x -> do_mut = false \/ feqb xl xu = true -> mut_pm pow x xl xu eta rand do_mut = x).
Proof.
  intros. split; [apply clamp_in_box_or_nan; auto|].
  intros [A B] Hc. unfold mut_pm. assert (E : do_mut && negb (feqb xl xu) = false) by (destruct Hc as [-> | -> ]; simpl; auto; apply andb_false_r).
  rewrite E. apply clamp_id; auto.
Qed.
Example C26_pm_case : mut_pm (fun _ _ => fz 2) (fz 2) (fz 0) (fz 10) (fz 15) f_half true = fz 10 /\
  mut_pm (fun _ _ => f_half) (fz 7) (fz 0) (fz 10) (fz 15) f_half true = fz 2.
Proof. vm_compute. auto. Qed.

Theorem C26_inverse_penalty : forall x computed xl xu, length computed = length x -> proper_box (length x) xl xu ->
  let y := inverse_penalty x computed xl xu in
  vec_in_box_or_nan xl xu y /\ (is_out_of_bounds x xl xu = false -> y = x).
Proof.
  intros x cmp xl xu HL HB. cbv zeta. unfold inverse_penalty.
  destruct (is_out_of_bounds x xl xu) eqn:E; simpl; (split; [|congruence || auto]).
  - intros i Hi. unfold repair_clamp, lift3 in *. rewrite map_length, seq_length in Hi. rewrite nth_map_seq0 by auto.
    apply clamp_in_box_or_nan. apply HB. lia.
  - intros i Hi. unfold is_out_of_bounds, lift3 in E.
    assert (Hb : fltb (nth i x f_nan) (nth i xl f_nan) || fltb (nth i xu f_nan) (nth i x f_nan) = false).
    { destruct (_ || _) eqn:E2; auto. rewrite <- E. symmetry. apply existsb_exists. exists true. split; auto.
      apply in_map_iff. exists i. split; auto. apply in_seq. lia. }
    apply orb_false_iff in Hb. destruct Hb as [H1 H2].
    destruct (isnan (nth i x f_nan)) eqn:En; [right; auto|left].
    pose proof (HB i Hi) as Hb. split; apply nlt_le; auto.
    + eapply fle_nonnan_l; eauto.
    + eapply fle_nonnan_r; eauto.
Qed.
Example C26_inverse_penalty_case :
  inverse_penalty [fz (-1); fz 1] [fz 12; fz 1] [fz 0; fz 0] [fz 10; fz 10] = [fz 10; fz 1].
Proof. reflexivity. Qed.

Local Open Scope Q_scope.
(** the repairs in exact arithmetic: inside afterwards, unchanged when inside before *)
Theorem C26_repairs : forall x xl xu,
  (inQ xl xu x -> bounce_back x xl xu = Some x /\ repair_periodic x xl xu = Some x /\ to_bounds x xl xu = x /\
     forall p r1 r2, repair_random_init x p xl xu r1 r2 = x /\ midway x p xl xu = x /\ rand_init x xl xu r1 r2 = x) /\
  (xl < xu -> (exists y, bounce_back x xl xu = Some y /\ inQ xl xu y) /\
              (exists y, repair_periodic x xl xu = Some y /\ inQ xl xu y)) /\
  (xl <= xu -> inQ xl xu (to_bounds x xl xu) /\
               forall r1 r2, unit r1 -> unit r2 -> inQ xl xu (rand_init x xl xu r1 r2)) /\
  (forall p, inQ xl xu p -> inQ xl xu (midway x p xl xu) /\
               forall r1 r2, unit r1 -> unit r2 -> inQ xl xu (repair_random_init x p xl xu r1 r2)).
Proof.
  intros x xl xu. split; [|split; [|split]].
  - intros [H1 H2]. destruct (inside_unchanged x 0 xl xu 0 0 H1 H2) as (A & B & C & D & E & F).
    repeat split; auto; intros; destruct (inside_unchanged x p xl xu r1 r2 H1 H2) as (A' & B' & C' & D' & E' & F'); auto.
  - intros H. split; [destruct (bounce_back_box x xl xu H) as (y & ? & ? & ?)|destruct (periodic_box x xl xu H) as (y & ? & ? & ?)];
      exists y; split; auto; split; auto.
  - intros H. split; [apply to_bounds_box; auto|]. intros r1 r2 [? ?] [? ?]. apply rand_init_box; auto.
  - intros p [H1 H2]. split; [apply midway_box; auto|]. intros r1 r2 [? ?] [? ?]. apply random_init_box; auto.
Qed.
Example C26_repairs_case :
  bounce_back (-(1)) 0 3 = Some (0 + (0 - - (1) - (3 - 0) * inject_Z 0)) /\
  repair_random_init 7 2 0 4 (1#3) (1#2) == 3 /\ midway (-(5)) 2 0 4 == 1.
Proof. vm_compute. auto. Qed.

Lemma np_mod_val a r m : np_mod a r = Some m -> Qeq_bool r 0 = false -> m == a - r * inject_Z (Qfloor (a / r)).
Proof. unfold np_mod. intros H E. rewrite E in H. inversion H. reflexivity. Qed.
(** periodic repair is periodic: it moves the value by a whole number of widths; bouncing back mirrors it at the violated bound, up to widths *)
Theorem C26_periodic_shift : forall x xl xu, xl < xu ->
  (exists y k, repair_periodic x xl xu = Some y /\ y == x + inject_Z k * (xu - xl)) /\
  (x < xl -> exists y k, bounce_back x xl xu = Some y /\ y == (xl + (xl - x)) + inject_Z k * (xu - xl)) /\
  (xu < x -> exists y k, bounce_back x xl xu = Some y /\ y == (xu - (x - xu)) + inject_Z k * (xu - xl)).
Proof.
  intros x xl xu H. unfold repair_periodic, bounce_back. cbv zeta.
  assert (Hz : Qeq_bool (xu - xl) 0 = false). { destruct (Qeq_bool _ 0) eqn:E; auto. apply Qeq_bool_iff in E. lra. }
  split; [|split].
  - destruct (Qltb x xl) eqn:E1; qb.
    + destruct (np_mod_range (xl - x) (xu - xl)) as (m & Hm & M1 & M2); [lra|]. rewrite Hm. simpl.
      destruct (Qltb xu (xu - m)) eqn:E2; qb; [lra|]. exists (xu - m), (1 + Qfloor ((xl - x) / (xu - xl)))%Z. split; auto.
      apply np_mod_val in Hm; [|exact Hz]. rewrite Hm. rewrite inject_Z_plus. change (inject_Z 1) with 1. ring.
    + simpl. destruct (Qltb xu x) eqn:E2; qb.
      * destruct (np_mod_range (x - xu) (xu - xl)) as (m & Hm & M1 & M2); [lra|]. rewrite Hm. simpl.
        exists (xl + m), (- (1 + Qfloor ((x - xu) / (xu - xl))))%Z. split; auto.
        apply np_mod_val in Hm; [|exact Hz]. rewrite Hm. rewrite inject_Z_opp, inject_Z_plus. change (inject_Z 1) with 1. ring.
      * exists x, 0%Z. split; auto. change (inject_Z 0) with 0. ring.
  - intros Hx. rewrite (proj2 (Qltb_iff x xl) Hx).
    destruct (np_mod_range (xl - x) (xu - xl)) as (m & Hm & M1 & M2); [lra|]. rewrite Hm. simpl.
    destruct (Qltb xu (xl + m)) eqn:E2; qb; [lra|]. exists (xl + m), (- Qfloor ((xl - x) / (xu - xl)))%Z. split; auto.
    apply np_mod_val in Hm; [|exact Hz]. rewrite Hm. rewrite inject_Z_opp. ring.
  - intros Hx. rewrite (proj2 (Qltb_false x xl)) by lra. simpl. rewrite (proj2 (Qltb_iff xu x) Hx).
    destruct (np_mod_range (x - xu) (xu - xl)) as (m & Hm & M1 & M2); [lra|]. rewrite Hm. simpl.
    exists (xu - m), (Qfloor ((x - xu) / (xu - xl)))%Z. split; auto.
    apply np_mod_val in Hm; [|exact Hz]. rewrite Hm. ring.
Qed.
Example C26_periodic_shift_case : exists y, repair_periodic 8 0 3 = Some y /\ y == 2. Proof. eexists; split; [vm_compute; reflexivity|reflexivity]. Qed.

(** with xl = xu, a value outside becomes NaN under bouncing back and periodic repair — and NaN passes the assertion
    [len(is_out_of_bounds(X)) == 0] that [BoundsRepair._do] makes *)
Theorem C26_degenerate_refuted : ~ (forall x xl xu, xl <= xu ->
  (exists y, bounce_back x xl xu = Some y /\ inQ xl xu y) /\ (exists y, repair_periodic x xl xu = Some y /\ inQ xl xu y)).
Proof. intros H. destruct (H 0 1 1 ltac:(lra)) as [(y & Hy & _) _]. vm_compute in Hy. discriminate. Qed.
(** exactly: for a fixed variable the two repairs produce NaN for every value that is not the fixed one, and keep the fixed one *)
Theorem C26_degenerate_exact : forall x b,
  (~ x == b -> bounce_back x b b = None /\ repair_periodic x b b = None) /\
  (x == b -> bounce_back x b b = Some x /\ repair_periodic x b b = Some x).
Proof.
  intros x b. assert (Hm : forall a, np_mod a (b - b) = None).
  { intros a. unfold np_mod. assert (E : Qeq_bool (b - b) 0 = true) by (apply Qeq_bool_iff; lra). now rewrite E. }
  unfold bounce_back, repair_periodic. rewrite !Hm. split; intros H.
  - destruct (Qltb x b) eqn:E1; [now cbn|]. cbn [obind]. apply Qltb_false in E1. destruct (Qltb b x) eqn:E2.
    + rewrite !Hm. now cbn.
    + apply Qltb_false in E2. exfalso. apply H. lra.
  - assert (E1 : Qltb x b = false) by (apply Qltb_false; lra). assert (E2 : Qltb b x = false) by (apply Qltb_false; lra).
    rewrite E1. cbn [obind]. now rewrite E2.
Qed.
Theorem C26_degenerate_assert : forall xl xu, is_out_of_bounds [f_nan] [xl] [xu] = false.
Proof. intros xl xu. vm_compute. destruct xu as [[]|[]| |[] ? ?]; reflexivity. Qed.

Theorem C26_gauss : forall x xl xu noise r1 r2 mut, inQ xl xu x -> unit r1 -> unit r2 ->
  inQ xl xu (mut_gauss x xl xu noise r1 r2 mut) /\ (mut = false -> mut_gauss x xl xu noise r1 r2 mut = x).
Proof.
  intros x xl xu noise r1 r2 mut [? ?] [? ?] [? ?]. unfold mut_gauss. split.
  - apply random_init_box; auto.
  - intros ->. apply (inside_unchanged x x xl xu r1 r2); auto.
Qed.
Example C26_gauss_case : mut_gauss 1 0 2 (-(4)) (1#2) 0 true == 1#2. Proof. reflexivity. Qed.

Lemma dex_donor_box n parents xl xu Fss r1 r2 j : (j < n)%nat ->
  (forall j, (j < n)%nat -> inQ (xl j) (xu j) (nth 0 (parents j) 0) /\ unit (r1 j) /\ unit (r2 j)) -> Fss <> [] ->
  inQ (xl j) (xu j) (dex_donor n parents xl xu true Fss r1 r2 j).
Proof.
  intros Hj H HF. unfold dex_donor. destruct Fss as [|F0 Fss]; [congruence|].
  destruct (H j Hj) as ([? ?] & [? ?] & [? ?]). apply random_init_box; auto.
Qed.
(** DEX.do: parents inside a box give offspring inside the box, whatever scale factors F (and dither, jitter) are used and however often the
    donors are recomputed; variables outside the mask are those of the first parent *)
Theorem C26_dex : forall n parents xl xu Fss r1 r2 M, Fss <> [] ->
  (forall j, (j < n)%nat -> inQ (xl j) (xu j) (nth 0 (parents j) 0) /\ unit (r1 j) /\ unit (r2 j)) ->
  let y := dex n parents xl xu true Fss r1 r2 M in
  length y = n /\ forall j, (j < n)%nat -> inQ (xl j) (xu j) (nth j y 0) /\ (nth j M false = false -> nth j y 0 = nth 0 (parents j) 0).
Proof.
  intros n parents xl xu Fss r1 r2 M HF H. cbv zeta. unfold dex. split; [now rewrite map_length, seq_length|].
  intros j Hj. rewrite nth_map_seq0 by auto. destruct (nth j M false).
  - split; [apply dex_donor_box; auto|discriminate].
  - split; auto. apply H; auto.
Qed.
(** the donor formula: first parent plus weighted differences of the pairs *)
Example C26_dex_case :
  map Qred (dex 2 (fun j => [inject_Z (Z.of_nat j + 1); 5; 2]) (fun _ => 0) (fun _ => 3) true [fun _ => [1]; fun _ => [1 # 3]] (fun _ => 1#2) (fun _ => 1#2) [true; false])
   = [2; 2] /\ de_differential [1; 5; 2; 7; 3] [1#2; 1#4] == 1 + (1#2) * (5 - 2) + (1#4) * (7 - 3).
Proof. vm_compute. auto. Qed.
(** without bounds the offspring leaves any box *)
Theorem C26_dex_unbounded : forall p a b F, (forall r1 r2, dex 1 (fun _ => [p; a; b]) (fun _ => 0) (fun _ => 0) false [fun _ => [F]] r1 r2 [true] = [p + (F * (a - b) + 0)]).
Proof. intros. reflexivity. Qed.

(** C28 rounding *)
Theorem C28_rounding : forall q l u, inQ (inject_Z l) (inject_Z u) q -> (l <= around q <= u)%Z.
Proof. intros q l u [H1 H2]. apply around_bounds; auto. Qed.
Theorem C28_integers_unchanged : forall z, around (inject_Z z) = z /\ forall q, inject_Z (around q) == q <-> exists z, q == inject_Z z.
Proof.
  intros z. split; [apply around_Z|]. intros q. split; [exists (around q); now symmetry|].
  intros [k Hk]. unfold around. rewrite (Qcompat_Qfloor _ _ Hk), Qfloor_Z.
  replace (Qltb (q - inject_Z k) (1 # 2)) with true; [symmetry; auto|]. symmetry. apply Qltb_iff. lra.
Qed.
Theorem C28_nearest : forall q, (forall z, Qabs (inject_Z (around q) - q) <= Qabs (inject_Z z - q)) /\
  (q - inject_Z (Qfloor q) == 1 # 2 -> Z.even (around q) = true).
Proof.
  intros q. split; [|apply around_even].
  intros z. destruct (Z.eq_dec z (around q)) as [->|Hn]; [apply Qle_refl|].
  pose proof (around_near q) as [H1 H2].
  assert (Hd : inject_Z (around q) + 1 <= inject_Z z \/ inject_Z z + 1 <= inject_Z (around q)).
  { change 1 with (inject_Z 1). rewrite <- !inject_Z_plus, <- !Zle_Qle. lia. }
  apply Qle_trans with (1 # 2); [apply Qabs_Qle_condition; lra|].
  destruct Hd.
  - rewrite Qabs_pos; lra.
  - rewrite Qabs_neg; lra.
Qed.
Example C28_case : map around [5#2; 7#2; -(1#2); 12#5; -(13#5)] = [2; 4; 0; 2; -3]%Z. Proof. reflexivity. Qed.

Print Assumptions C26_clamp.
Print Assumptions C26_dex.
Print Assumptions C28_nearest.
