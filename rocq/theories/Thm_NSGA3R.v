(** * Theorem C59 (association): an individual belongs to a direction whose line is closest to its normalised objectives *)
From Coq Require Import List Reals Lra Lia.
From Verif Require Import ListAux M_NSGA3R.
Import ListNotations.
Local Open Scope R_scope.

(** Euclidean distance of two points *)
Definition euclid (a b : list R) : R := sqrt (rsum (map2 (fun x y => (x - y) * (x - y)) a b)).
(** the point [t u] on the line through the origin in direction [u] *)
Definition on_line (t : R) (u : list R) : list R := map (fun x => t * x) u.

Lemma argminR_from_spec l : forall best bi i, let r := argminR_from best bi i l in
  (r = bi /\ Forall (fun x => best <= x) l) \/
  (exists q, (q < length l)%nat /\ r = (i + q)%nat /\ nth q l 0 < best /\ Forall (fun x => nth q l 0 <= x) l).
Proof.
  induction l as [|x l IH]; intros best bi i; cbn [argminR_from]; [left; auto|]. destruct (Rlt_dec x best) as [Hx|Hx].
  - right. destruct (IH x i (S i)) as [[-> H]|(q & Hq & -> & H2 & H3)].
    + exists 0%nat. cbn [nth length]. repeat split; try lia; auto. constructor; auto. lra.
    + exists (S q). cbn [nth length]. repeat split; try lia; try lra. constructor; auto. lra.
  - destruct (IH best bi (S i)) as [[-> H]|(q & Hq & -> & H2 & H3)].
    + left. split; auto. constructor; auto. lra.
    + right. exists (S q). cbn [nth length]. repeat split; try lia; auto. constructor; auto. lra.
Qed.
Lemma argminR_spec l : l <> [] -> (argminR l < length l)%nat /\ Forall (fun x => nth (argminR l) l 0 <= x) l.
Proof.
  destruct l as [|x l]; [congruence|]. intros _. unfold argminR.
  destruct (argminR_from_spec l x 0%nat 1%nat) as [[-> H]|(q & Hq & -> & H2 & H3)]; cbn [nth length Nat.add]; (split; [lia|]).
  - constructor; auto. lra.
  - constructor; auto. lra.
Qed.
Lemma rsum_nonneg l : Forall (fun x => 0 <= x) l -> 0 <= rsum l.
Proof. induction 1 as [|x l H _ IH]; simpl; lra. Qed.
Lemma sq_sum_nonneg u : 0 <= rsum (map (fun x => x * x) u).
Proof. apply rsum_nonneg. apply Forall_forall. intros y Hy. apply in_map_iff in Hy as (x & <- & _). nra. Qed.

(** |t u - v|^2 as a polynomial in t *)
Lemma sq_expand u : forall v t, length u = length v ->
  rsum (map2 (fun x y => (x - y) * (x - y)) (on_line t u) v) =
  t * t * rsum (map (fun x => x * x) u) - 2 * t * dot v u + rsum (map (fun x => x * x) v).
Proof.
  induction u as [|x u IH]; intros [|y v] t H; try discriminate.
  - unfold dot, on_line, rsum; simpl. ring.
  - injection H as H. specialize (IH v t H). unfold on_line, dot in *. cbn [map map2]. unfold rsum in *. cbn [fold_right]. rewrite IH. ring.
Qed.
Lemma map2_sq a b : map (fun x => x * x) (map2 Rminus a b) = map2 (fun x y => (x - y) * (x - y)) a b.
Proof. revert b; induction a as [|x a IH]; intros [|y b]; simpl; auto. now rewrite IH. Qed.

Lemma perp_closest v u : length u = length v -> 0 < rsum (map (fun x => x * x) u) ->
  (exists t, perp_distance v u = euclid (on_line t u) v) /\ forall t, perp_distance v u <= euclid (on_line t u) v.
Proof.
  intros HL HN. set (N := rsum (map (fun x => x * x) u)) in *. set (s := dot v u).
  assert (Hn : norm u * norm u = N) by (apply sqrt_sqrt; lra).
  assert (Hn0 : norm u <> 0) by (intros E; rewrite E in Hn; lra).
  assert (EP : perp_distance v u = euclid (on_line (s / N) u) v).
  { unfold perp_distance. cbv zeta. unfold norm at 1. rewrite map2_sq. unfold euclid. f_equal. f_equal. f_equal. unfold on_line.
    apply map_ext. intros x. fold s. rewrite <- Hn. field. auto. }
  split; [eauto|]. intros t. rewrite EP. unfold euclid. apply sqrt_le_1_alt. rewrite !sq_expand by auto. fold N s.
  assert (E : s / N * N = s) by (field; lra). set (p := s / N) in *.
  assert (0 <= N * ((t - p) * (t - p))) by (apply Rmult_le_pos; [lra|apply Rle_0_sqr]). nra.
Qed.

(** C59: the distance reported for an individual is the smallest Euclidean distance of its normalised objectives to any point on any of the
    lines spanned by the reference directions, and the niche is the index of a direction where it is attained.  (Directions are not zero and
    have as many entries as there are objectives; exact arithmetic.) *)
Theorem C59_association : forall eps dirs ideal nadir f,
  dirs <> [] -> length ideal = length f -> length nadir = length f ->
  (forall u, In u dirs -> length u = length f /\ exists x, In x u /\ x <> 0) ->
  let v := normalise_row eps ideal nadir f in
  let '(niche, dist) := associate eps dirs ideal nadir f in
  (niche < length dirs)%nat /\
  (exists t, dist = euclid (on_line t (nth niche dirs [])) v) /\
  (forall u t, In u dirs -> dist <= euclid (on_line t u) v).
Proof.
  intros eps dirs ideal nadir f Hne Hi Hnd Hu v. unfold associate. fold v.
  assert (HLv : length v = length f).
  { unfold v, normalise_row. rewrite !length_map2, !map_length, !length_map2, map_length. lia. }
  assert (HU : forall u, In u dirs -> length u = length v /\ 0 < rsum (map (fun x => x * x) u)).
  { intros u Hin. destruct (Hu u Hin) as (H1 & x & Hx & Hx0). split; [lia|].
    clear - Hx Hx0. induction u as [|y u IH]; [destruct Hx|]. simpl. pose proof (sq_sum_nonneg u).
    destruct Hx as [->|Hx]; [assert (0 < x * x) by nra; lra|]. specialize (IH Hx). nra. }
  set (row := map (perp_distance v) dirs). assert (HR : row <> []) by (unfold row; destruct dirs; [congruence|discriminate]).
  destruct (argminR_spec row HR) as [A B]. unfold row in A at 2. rewrite map_length in A. split; auto. split.
  - assert (Hin : In (nth (argminR row) dirs []) dirs) by (apply nth_In; auto).
    destruct (HU _ Hin) as [U1 U2]. destruct (perp_closest v _ U1 U2) as [(t & Et) _]. exists t. rewrite <- Et.
    unfold row at 2. rewrite (nth_indep _ 0 (perp_distance v [])) by (rewrite map_length; auto). apply map_nth.
  - intros u t Hin. destruct (HU u Hin) as [U1 U2]. destruct (perp_closest v u U1 U2) as [_ H]. rewrite Forall_forall in B.
    eapply Rle_trans; [|apply H]. apply B. unfold row. now apply in_map.
Qed.
Print Assumptions C59_association.

(** the premises are met by two directions of the plane *)
Example C59_association_case : let dirs := [[1; 0]; [1; 1]] in let f := [1; 2] in
  dirs <> [] /\ length [0; 0] = length f /\ (forall u, In u dirs -> length u = length f /\ exists x, In x u /\ x <> 0).
Proof.
  cbv zeta. split; [discriminate|]. split; [reflexivity|]. intros u [<-|[<-|[]]]; (split; [reflexivity|]); exists 1; split; simpl; auto; lra.
Qed.

(** the normalised objectives: distance to the utopian point relative to the range between utopian and nadir point (1e-12 if there is none) *)
Theorem C59_normalised : forall eps ideal nadir f, length ideal = length f -> length nadir = length f ->
  let v := normalise_row eps ideal nadir f in
  length v = length f /\
  forall j, (j < length f)%nat -> let utopian := nth j ideal 0 - eps in let range := nth j nadir 0 - utopian in
    (range <> 0 -> nth j v 0 = (nth j f 0 - utopian) / range) /\ (range = 0 -> nth j v 0 = (nth j f 0 - utopian) * 10 ^ 12).
Proof.
  intros eps ideal nadir f H1 H2 v. unfold v, normalise_row. split.
  - repeat first [rewrite length_map2 | rewrite map_length]. lia.
  - intros j Hj. set (utopian := nth j ideal 0 - eps). set (range := nth j nadir 0 - utopian).
    assert (EU : forall d, nth j (map (fun x => x - eps) ideal) d = utopian).
    { intros d. rewrite (nth_indep (map (fun x => x - eps) ideal) d (0 - eps)) by (rewrite map_length; lia). exact (map_nth (fun x => x - eps) ideal 0 j). }
    rewrite (nth_map2 _ _ _ j 0 0 0) by (rewrite ?map_length, ?length_map2, ?map_length; lia).
    rewrite (nth_map2 Rminus f _ j 0 0 0) by (rewrite ?map_length; lia). rewrite EU.
    set (g := fun d => if Req_EM_T d 0 then / 10 ^ 12 else d).
    assert (ED : nth j (map g (map2 Rminus nadir (map (fun x => x - eps) ideal))) 0 = g range).
    { rewrite (nth_indep _ 0 (g 0)) by (rewrite map_length, length_map2, map_length; lia). rewrite map_nth. f_equal. rewrite (nth_map2 Rminus _ _ j 0 0 0) by (rewrite ?map_length; lia). now rewrite EU. }
    rewrite ED. unfold g. destruct (Req_EM_T range 0) as [E|E]; split; intros C; try contradiction; [|reflexivity]. unfold Rdiv. rewrite Rinv_inv. reflexivity.
Qed.
Print Assumptions C59_normalised.
