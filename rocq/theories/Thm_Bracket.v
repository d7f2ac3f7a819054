(** * C67: bracketing searches *)
From Coq Require Import List Reals Lra Psatz.
From Verif Require Import M_Bracket.
Import ListNotations.
Local Open Scope R_scope.

Lemma ratio_eq : golden_ratio * golden_ratio = 1 - golden_ratio.
Proof. unfold golden_ratio. pose proof (sqrt_sqrt 5 ltac:(lra)). nra. Qed.
Lemma ratio_bounds : 0.6 < golden_ratio < 0.62.
Proof.
  unfold golden_ratio. pose proof (sqrt_sqrt 5 ltac:(lra)) as H. pose proof (sqrt_pos 5).
  split; [assert (2.2 < sqrt 5); [|lra]|assert (sqrt 5 < 2.24); [|lra]]; nra.
Qed.

(** four evaluated points, the inner ones at the golden ratio *)
Definition placed (f : R -> R) (s : quad) : Prop :=
  let '(a, c, d, b) := s in
  (forall p, In p [a; c; d; b] -> pf p = f (px p)) /\ px a <= px b /\
  px c = px b - golden_ratio * (px b - px a) /\ px d = px a + golden_ratio * (px b - px a).
Definition left_end (s : quad) : R := let '(a, c, d, b) := s in px a.
Definition right_end (s : quad) : R := let '(a, c, d, b) := s in px b.
Definition points (s : quad) : list pt := let '(a, c, d, b) := s in [a; c; d; b].

Lemma placed_order f s : placed f s -> let '(a, c, d, b) := s in px a <= px c <= px d /\ px d <= px b /\ (px a < px b -> px a < px c < px d /\ px d < px b).
Proof.
  destruct s as [[[a c] d] b]. intros (_ & H & -> & ->). pose proof ratio_bounds. repeat split; try intros; nra.
Qed.
Lemma step_placed f s : placed f s -> placed f (golden_step f s) /\ left_end s <= left_end (golden_step f s) /\ right_end (golden_step f s) <= right_end s /\
  right_end (golden_step f s) - left_end (golden_step f s) = golden_ratio * (right_end s - left_end s).
Proof.
  intros HP. pose proof (placed_order f s HP) as HO. destruct s as [[[a c] d] b]. destruct HP as (HF & H & Hc & Hd). cbn -[golden_ratio]. pose proof ratio_bounds. pose proof ratio_eq as RE.
  destruct (Rlt_dec (pf c) (pf d)) as [C|C]; cbn [left_end right_end px pf ev placed]; (split; [|split; [|split]]); try nra.
  - split; [|split; [|split]]; [intros p [<-|[<-|[<-|[<-|[]]]]]; cbn; auto; apply HF; cbn; auto|nra|reflexivity|]. cbn [px]. rewrite Hd, Hc. replace (px a + golden_ratio * (px a + golden_ratio * (px b - px a) - px a)) with (px a + (golden_ratio * golden_ratio) * (px b - px a)) by ring. rewrite RE. ring.
  - split; [|split; [|split]]; [intros p [<-|[<-|[<-|[<-|[]]]]]; cbn; auto; apply HF; cbn; auto|nra| |reflexivity]. cbn [px]. rewrite Hd, Hc. replace (px b - golden_ratio * (px b - (px b - golden_ratio * (px b - px a)))) with (px b - (golden_ratio * golden_ratio) * (px b - px a)) by ring. rewrite RE. ring.
Qed.
Lemma init_placed f a b : a <= b -> placed f (golden_init f a b).
Proof. intros H. unfold golden_init. cbn -[golden_ratio]. split; [intros p [<-|[<-|[<-|[<-|[]]]]]; reflexivity|]. auto. Qed.

(** the bracket shrinks by the golden ratio in every iteration, stays inside the previous one, and keeps four ordered evaluated points *)
Theorem C67_golden : forall f a b k, a <= b ->
  let '(a', c', d', b') := golden_run f k (golden_init f a b) in
  (forall p, In p [a'; c'; d'; b'] -> pf p = f (px p)) /\
  a <= px a' /\ px a' <= px c' /\ px c' <= px d' /\ px d' <= px b' /\ px b' <= b /\
  px b' - px a' = ((sqrt 5 - 1) / 2) ^ k * (b - a).
Proof.
  intros f a b k H. fold golden_ratio.
  assert (G : placed f (golden_run f k (golden_init f a b)) /\ a <= left_end (golden_run f k (golden_init f a b)) /\ right_end (golden_run f k (golden_init f a b)) <= b /\
    right_end (golden_run f k (golden_init f a b)) - left_end (golden_run f k (golden_init f a b)) = golden_ratio ^ k * (b - a)).
  { induction k as [|k IH]; [cbn [golden_run]; split; [apply init_placed; auto|]; cbn; lra|]. cbn [golden_run]. destruct IH as (I1 & I2 & I3 & I4).
    destruct (step_placed f _ I1) as (S1 & S2 & S3 & S4). split; auto. split; [lra|]. split; [lra|]. rewrite S4, I4. cbn [pow]. ring. }
  destruct G as (G1 & G2 & G3 & G4). pose proof (placed_order f _ G1) as HO. destruct (golden_run f k (golden_init f a b)) as [[[a' c'] d'] b']. destruct G1 as (HF & _). cbn [left_end right_end] in *.
  split; auto. repeat split; try lra; tauto.
Qed.
Print Assumptions C67_golden.

(** [x] is the only local minimum of [f] on [a, b]: decreasing before, increasing after *)
Definition unimodal (f : R -> R) (a b x : R) : Prop :=
  a <= x <= b /\ (forall u v, a <= u < v -> v <= x -> f v < f u) /\ (forall u v, x <= u < v -> v <= b -> f u < f v).
Lemma run_placed f k s : placed f s -> placed f (golden_run f k s).
Proof. intros H. induction k; cbn [golden_run]; auto. now apply step_placed. Qed.

(** the minimum of a unimodal function never leaves the bracket; hence after k iterations every point of the population is within
    ratio^k (b - a) of it *)
Theorem C67_unimodal : forall f a b x k, unimodal f a b x ->
  let '(a', c', d', b') := golden_run f k (golden_init f a b) in
  px a' <= x <= px b' /\ forall p, In p [a'; c'; d'; b'] -> Rabs (px p - x) <= ((sqrt 5 - 1) / 2) ^ k * (b - a).
Proof.
  intros f a b x k (Hx & Hdec & Hinc). assert (Hab : a <= b) by lra.
  assert (G : left_end (golden_run f k (golden_init f a b)) <= x <= right_end (golden_run f k (golden_init f a b))).
  { induction k as [|k IH]; [cbn; lra|]. pose proof (C67_golden f a b k Hab) as HG. pose proof (placed_order f _ (run_placed f k _ (init_placed f a b Hab))) as HO. cbn [golden_run].
    destruct (golden_run f k (golden_init f a b)) as [[[a' c'] d'] b']. destruct HG as (HF & H1 & H2 & H3 & H4 & H5 & _). cbn [left_end right_end] in IH.
    assert (Fc : pf c' = f (px c')) by (apply HF; cbn; auto). assert (Fd : pf d' = f (px d')) by (apply HF; cbn; auto).
    unfold golden_step. destruct (Rlt_dec (pf c') (pf d')) as [C|C]; cbn [left_end right_end].
    - split; [lra|]. destruct (Rle_dec x (px d')) as [|N]; auto. exfalso. assert (px c' <> px d') by (intros E; rewrite Fc, Fd, E in C; lra).
      assert (f (px d') < f (px c')) by (apply Hdec; lra). lra.
    - split; [|lra]. destruct (Rle_dec (px c') x) as [|N]; auto. exfalso. destruct (Req_dec (px a') (px b')) as [E|E]; [lra|]. destruct HO as (_ & _ & HO). specialize (HO ltac:(lra)).
      assert (f (px c') < f (px d')) by (apply Hinc; lra). lra. }
  pose proof (C67_golden f a b k Hab) as HG. destruct (golden_run f k (golden_init f a b)) as [[[a' c'] d'] b']. cbn [left_end right_end] in G. destruct HG as (_ & H1 & H2 & H3 & H4 & H5 & H6).
  split; auto. rewrite <- H6. intros p [<-|[<-|[<-|[<-|[]]]]]; apply Rabs_le; lra.
Qed.
Print Assumptions C67_unimodal.

Definition best_of (l : list pt) (v : R) : Prop := (exists p, In p l /\ pf p = v) /\ forall p, In p l -> v <= pf p.
(** for a unimodal function the best value of the population never gets worse *)
Theorem C67_best : forall f a b x k v w, unimodal f a b x ->
  best_of (points (golden_run f k (golden_init f a b))) v -> best_of (points (golden_run f (S k) (golden_init f a b))) w -> w <= v.
Proof.
  intros f a b x k v w HU [(p & Hp & <-) _] [_ Hw]. pose proof (C67_golden f a b k ltac:(destruct HU; lra)) as HG. pose proof (C67_unimodal f a b x k HU) as HX. pose proof HU as (Hx & Hdec & Hinc).
  pose proof (placed_order f _ (run_placed f k _ (init_placed f a b ltac:(lra)))) as HO.
  cbn [golden_run] in Hw. destruct (golden_run f k (golden_init f a b)) as [[[a' c'] d'] b']. destruct HG as (HF & H1 & H2 & H3 & H4 & H5 & _). destruct HX as [HX _].
  assert (Fa : pf a' = f (px a')) by (apply HF; cbn; auto). assert (Fb : pf b' = f (px b')) by (apply HF; cbn; auto).
  assert (Fc : pf c' = f (px c')) by (apply HF; cbn; auto). assert (Fd : pf d' = f (px d')) by (apply HF; cbn; auto). clear HF.
  unfold golden_step in Hw. destruct (Rlt_dec (pf c') (pf d')) as [C|C]; cbn [points] in Hw, Hp.
  - assert (Hc : w <= pf c') by (apply Hw; cbn; auto). assert (Ha : w <= pf a') by (apply Hw; cbn; auto). assert (Hd : w <= pf d') by (apply Hw; cbn; auto).
    destruct Hp as [<-|[<-|[<-|[<-|[]]]]]; auto. destruct (Req_dec (px d') (px b')) as [E|E]; [rewrite Fb, <- E, <- Fd; auto|].
    assert (pf d' < pf b'); [|lra]. rewrite Fd, Fb. apply Hinc; [|lra]. split; [|lra]. destruct (Rle_dec x (px d')) as [|N]; auto. exfalso.
    assert (px c' <> px d') by (intros E2; rewrite Fc, Fd, E2 in C; lra). assert (f (px d') < f (px c')) by (apply Hdec; lra). lra.
  - assert (Hc : w <= pf c') by (apply Hw; cbn; auto). assert (Hd : w <= pf d') by (apply Hw; cbn; auto). assert (Hb : w <= pf b') by (apply Hw; cbn; auto).
    destruct Hp as [<-|[<-|[<-|[<-|[]]]]]; auto. destruct (Req_dec (px a') (px c')) as [E|E]; [rewrite Fa, E, <- Fc; auto|].
    assert (pf c' < pf a'); [|lra]. rewrite Fc, Fa. apply Hdec; [lra|]. destruct (Rle_dec (px c') x) as [|N]; auto. exfalso.
    assert (px c' < px d') by (apply HO; lra). assert (f (px c') < f (px d')) by (apply Hinc; lra). lra.
Qed.
Print Assumptions C67_best.
(** a unimodal function *)
Example C67_unimodal_ex : unimodal (fun y => (y - 1) * (y - 1)) (-2) 5 1.
Proof. split; [lra|]. split; intros; nra. Qed.
(** without unimodality the best solution can be dropped from the population *)
Theorem C67_best_refuted : ~ (forall f a b k v w, a <= b ->
  best_of (points (golden_run f k (golden_init f a b))) v -> best_of (points (golden_run f (S k) (golden_init f a b))) w -> w <= v).
Proof.
  intros H. set (f := fun y => if Rle_dec y 0.5 then 0 else if Rle_dec y 0.9 then 1 else -1). pose proof ratio_bounds.
  assert (F1 : forall y, y <= 0.5 -> f y = 0) by (intros; unfold f; destruct (Rle_dec y 0.5); lra).
  assert (F2 : forall y, 0.5 < y <= 0.9 -> f y = 1) by (intros; unfold f; destruct (Rle_dec y 0.5); destruct (Rle_dec y 0.9); lra).
  assert (F3 : f 1 = -1) by (unfold f; destruct (Rle_dec 1 0.5); destruct (Rle_dec 1 0.9); lra).
  specialize (H f 0 1 O (-1) 0 ltac:(lra)). cbn [golden_run golden_init points] in H. unfold golden_step, golden_init in H. cbn [ev px pf] in H.
  rewrite (F1 (1 - golden_ratio * (1 - 0))), (F2 (0 + golden_ratio * (1 - 0))) in H by lra. destruct (Rlt_dec 0 1) as [_|N]; [|lra].
  assert (0 <= -1); [|lra]. apply H; split; cbn [points].
  - eexists. split; [right; right; right; left; reflexivity|exact F3].
  - intros p [<-|[<-|[<-|[<-|[]]]]]; cbn [ev pf]; first [rewrite F3; lra | rewrite F1 by lra; lra | rewrite F2 by lra; lra].
  - eexists. split; [left; reflexivity|]. cbn. apply F1. lra.
  - intros p [<-|[<-|[<-|[<-|[]]]]]; cbn [ev pf px]; first [rewrite F1 by nra; lra | rewrite F2 by lra; lra].
Qed.
Print Assumptions C67_best_refuted.

(** the bracket given to the constructor is not used *)
Theorem C67_constructor_refuted : ~ (forall a b xl xu, a <= b -> bracket_ends (Some a) (Some b) None None xl xu = Some (a, b)).
Proof.
  intros H. specialize (H 1 2 (Some 0) (Some 5) ltac:(lra)). unfold bracket_ends in H. destruct (Rle_dec 0 5) as [_|]; [|lra]. injection H as H _. lra.
Qed.
Print Assumptions C67_constructor_refuted.
Theorem C67_ends : forall ca cb a b xl xu, 
  (a <= b -> bracket_ends ca cb (Some a) (Some b) xl xu = Some (a, b)) /\ (a <= b -> bracket_ends ca cb None None (Some a) (Some b) = Some (a, b)) /\ (b < a -> bracket_ends ca cb (Some a) (Some b) xl xu = None).
Proof. intros. unfold bracket_ends. destruct (Rle_dec a b); repeat split; intros; auto; lra. Qed.
Print Assumptions C67_ends.

(** ** quadratic interpolation *)
(** "the point in the middle of the bracket": true exactly for brackets that start at 0 *)
Theorem C67_midpoint : forall f a b, let '(pa, pb, pc) := quadr_init f a b in (px pc = (a + b) / 2 <-> a = 0).
Proof. intros. cbn. lra. Qed.
Print Assumptions C67_midpoint.
Theorem C67_midpoint_refuted : ~ (forall f a b, a < b -> let '(pa, pb, pc) := quadr_init f a b in px pa <= px pc <= px pb).
Proof. intros H. specialize (H (fun x => x) 2 4 ltac:(lra)). cbn in H. lra. Qed.
Print Assumptions C67_midpoint_refuted.
(** for a parabola the interpolation should give its minimum *)
Theorem C67_interpolation_refuted : ~ (forall p q r xa xb xc, 0 < p -> xa < xc < xb -> let f x := p * x * x + q * x + r in
  quadr_interp_equ xa (f xa) xb (f xb) xc (f xc) = - q / (2 * p)).
Proof.
  intros H. specialize (H 1 (-2) 0 0 3 (3/2) ltac:(lra) ltac:(lra)). unfold quadr_interp_equ in H. cbn zeta beta in H.
  assert (E : 0.5 * ((0 - 3) - ((1 * (3 / 2) * (3 / 2) + -2 * (3 / 2) + 0 - (1 * 0 * 0 + -2 * 0 + 0)) / (3 / 2 - 0)) /
        (((1 * 3 * 3 + -2 * 3 + 0 - (1 * (3 / 2) * (3 / 2) + -2 * (3 / 2) + 0)) / (3 - 3 / 2) - (1 * (3 / 2) * (3 / 2) + -2 * (3 / 2) + 0 - (1 * 0 * 0 + -2 * 0 + 0)) / (3 / 2 - 0)) * (3 - 0))) = - (53 / 36)) by (replace 0.5 with (/ 2) by lra; field).
  rewrite E in H. lra.
Qed.
Print Assumptions C67_interpolation_refuted.
(** what it gives *)
Theorem C67_interpolation_actual : forall p q r xa xb xc, p <> 0 -> xa < xc < xb -> let f x := p * x * x + q * x + r in
  quadr_interp_equ xa (f xa) xb (f xb) xc (f xc) = (xa - xb) / 2 - (p * (xa + xc) + q) / (2 * p * (xb - xa) ^ 2).
Proof. intros p q r xa xb xc Hp Hx f. unfold quadr_interp_equ, f. replace 0.5 with (/ 2) by lra. field. repeat split; try lra. intros C. assert (p * ((xb - xa) * (xb - xa) * (xc - xa) * (xb - xc)) = 0); [|]. nra. assert (0 < (xb - xa) * (xb - xa) * (xc - xa) * (xb - xc)) by (repeat apply Rmult_lt_0_compat; lra). nra. Qed.
Print Assumptions C67_interpolation_actual.
