From Coq Require Import Reals List Lra Lia Psatz.
From Verif Require Import ListAux M_NSGA3R M_ZDT S_Bench Thm_Bench.
Import ListNotations.
Local Open Scope R_scope.

Lemma linspace_in a b n v : a <= b -> In v (linspace a b n) -> a <= v <= b.
Proof.
  intros H Hv. destruct n as [|[|n]]; [destruct Hv|destruct Hv as [<-|[]]; lra|]. cbn [linspace] in Hv. apply in_map_iff in Hv as (i & <- & Hi). apply in_seq in Hi. replace (S (S n) - 1)%nat with (S n) by lia.
  assert (HN : 0 < INR (S n)) by (apply lt_0_INR; lia). assert (Hi' : 0 <= INR i <= INR (S n)) by (split; [apply pos_INR|apply le_INR; lia]).
  assert (E : INR i * ((b - a) / INR (S n)) = (INR i / INR (S n)) * (b - a)) by (field; lra). rewrite E. assert (0 <= INR i / INR (S n) <= 1).
  { split; [apply Rmult_le_pos; [lra|left; now apply Rinv_0_lt_compat]|]. apply Rmult_le_reg_r with (INR (S n)); auto. unfold Rdiv. rewrite Rmult_assoc, Rinv_l by lra. lra. }
  nra.
Qed.
(** two objectives *)
Lemma dom2 a b c d : pareto_dom [a; b] [c; d] <-> a <= c /\ b <= d /\ (a < c \/ b < d).
Proof.
  unfold pareto_dom. cbn [length]. split.
  - intros (_ & H & i & Hi & Hs). pose proof (H 0%nat ltac:(lia)) as H0. pose proof (H 1%nat ltac:(lia)) as H1. cbn in H0, H1. split; auto. split; auto. destruct i as [|[|i]]; cbn in Hs; [left; auto|right; auto|lia].
  - intros (H0 & H1 & H2). split; auto. split; [intros [|[|i]] Hi; cbn; auto; lia|]. destruct H2; [exists 0%nat|exists 1%nat]; split; cbn; auto; lia.
Qed.
(** a front which is the graph of a decreasing function below all objective values *)
Lemma unbeaten_curve (dom : list R -> Prop) F c t : (forall x, dom x -> exists f1 f2, F x = [f1; f2] /\ 0 <= f1 <= 1 /\ c f1 <= f2) -> (forall s t, 0 <= s -> s < t -> t <= 1 -> c t < c s) -> 0 <= t <= 1 -> unbeaten dom F [t; c t].
Proof.
  intros HF Hc Ht x Hx HD. destruct (HF x Hx) as (f1 & f2 & E & H1 & H2). rewrite E in HD. apply dom2 in HD as (D1 & D2 & D3). destruct (Rle_lt_or_eq_dec _ _ D1) as [D|D].
  - pose proof (Hc f1 t ltac:(lra) D ltac:(lra)). lra.
  - subst f1. destruct D3; lra.
Qed.
Lemma sum_tl_ge0 x : in_box (0, 1) x -> 0 <= rsum (tl x).
Proof. intros H. apply rsum_ge0. intros v Hv. unfold in_box in H. rewrite Forall_forall in H. assert (HI : In v x) by (destruct x; [destruct Hv|right; auto]). apply H in HI. cbn in HI. lra. Qed.
Lemma hd_box x n : (0 < n)%nat -> length x = n -> in_box (0, 1) x -> 0 <= hd0 x <= 1.
Proof. intros Hn HL H. unfold in_box in H. rewrite Forall_forall in H. apply (H (hd0 x)). unfold hd0. apply nth_In. lia. Qed.
Definition point0 (n : nat) (t : R) : list R := t :: repeat 0 (n - 1).
Lemma point0_dom n t : (0 < n)%nat -> 0 <= t <= 1 -> box_dom n (0, 1) (point0 n t) /\ hd0 (point0 n t) = t /\ rsum (tl (point0 n t)) = 0.
Proof.
  intros Hn Ht. unfold point0, box_dom, in_box. cbn [length tl]. rewrite repeat_length. split; [split; [lia|constructor; [cbn; lra|apply Forall_forall; intros v Hv; apply repeat_spec in Hv; subst; cbn; lra]]|]. split; [reflexivity|].
  induction (n - 1)%nat as [|k IH]; [reflexivity|]. unfold rsum in *. cbn. rewrite IH. ring.
Qed.
Lemma sqrt_curve g f : 1 <= g -> 0 <= f <= 1 -> 1 - sqrt f <= g * (1 - sqrt (f / g)).
Proof.
  intros Hg Hf. rewrite sqrt_div_alt by lra. set (r := sqrt g). set (s := sqrt f). assert (Hr : r * r = g) by (apply sqrt_sqrt; lra). assert (Hs : s * s = f) by (apply sqrt_sqrt; lra). assert (0 <= r) by apply sqrt_pos. assert (0 <= s) by apply sqrt_pos.
  assert (Hr1 : 1 <= r) by nra. assert (Hs1 : s <= 1) by nra. rewrite <- Hr. replace (r * r * (1 - s / r)) with (r * r - s * r) by (field; lra). nra.
Qed.
Lemma sqrt_decr s t : 0 <= s -> s < t -> 1 - sqrt t < 1 - sqrt s.
Proof. intros H1 H2. assert (sqrt s < sqrt t) by (apply sqrt_lt_1; lra). lra. Qed.
Lemma square_curve g f : 1 <= g -> 0 <= f <= 1 -> 1 - f^2 <= g * (1 - (f / g)^2).
Proof.
  intros Hg Hf. replace (g * (1 - (f / g)^2)) with (g - f^2 / g) by (field; lra). assert (f^2 / g <= f^2). { apply Rmult_le_reg_r with g; [lra|]. unfold Rdiv. rewrite Rmult_assoc, Rinv_l by lra. nra. }
  assert (HQ : f^2 - f^2 / g = f^2 / g * (g - 1)) by (field; lra). assert (0 <= f^2 / g) by (apply Rmult_le_pos; [nra|left; apply Rinv_0_lt_compat; lra]). nra.
Qed.
Lemma n1_pos n : (2 <= n)%nat -> 0 < INR n - 1.
Proof. intros H. apply le_INR in H. cbn in H. lra. Qed.

(** C86: ZDT1 *)
Lemma zdt1_spec n x : (2 <= n)%nat -> box_dom n (0, 1) x -> exists f1 f2, zdt1 n x = [f1; f2] /\ 0 <= f1 <= 1 /\ 1 - sqrt f1 <= f2.
Proof.
  intros Hn [HL HB]. unfold zdt1. eexists _, _. split; [reflexivity|]. pose proof (hd_box x n ltac:(lia) HL HB). split; auto. apply sqrt_curve; auto. pose proof (sum_tl_ge0 x HB). pose proof (n1_pos n Hn).
  assert (0 <= 9 / (INR n - 1) * rsum (tl x)) by (apply Rmult_le_pos; auto; left; apply Rdiv_lt_0_compat; lra). lra.
Qed.
Theorem C86_zdt1 : forall n n_points, (2 <= n)%nat ->
  front_ok (box_dom n (0, 1)) (zdt1 n) (zdt1_front n_points) /\
  forall x, box_dom n (0, 1) x -> exists t, 0 <= t <= 1 /\ weakly_dom [t; 1 - sqrt t] (zdt1 n x).
Proof.
  intros n np Hn. split.
  - intros p Hp. apply in_map_iff in Hp as (t & <- & Ht). apply linspace_in in Ht; [|lra]. split.
    + destruct (point0_dom n t ltac:(lia) Ht) as (D1 & D2 & D3). exists (point0 n t). split; auto. unfold zdt1. rewrite D2, D3. f_equal. f_equal. rewrite Rmult_0_r, Rplus_0_r. unfold Rdiv. rewrite Rinv_1, Rmult_1_r. ring.
    + apply (unbeaten_curve _ _ (fun t => 1 - sqrt t)); auto; [intros; now apply zdt1_spec|intros; now apply sqrt_decr].
  - intros x Hx. destruct (zdt1_spec n x Hn Hx) as (f1 & f2 & E & H1 & H2). exists f1. split; auto. rewrite E. split; auto. intros [|[|i]] Hi; cbn in *; try lra; lia.
Qed.
(** C86: ZDT2 *)
Lemma square_decr s t : 0 <= s -> s < t -> 1 - t^2 < 1 - s^2.
Proof. intros. nra. Qed.
Lemma zdt2_g n x : (2 <= n)%nat -> in_box (0, 1) x -> 1 <= 1 + 9 * rsum (tl x) / (INR n - 1).
Proof. intros Hn HB. pose proof (sum_tl_ge0 x HB). pose proof (n1_pos n Hn). assert (0 <= 9 * rsum (tl x) / (INR n - 1)) by (apply Rmult_le_pos; [lra|left; apply Rinv_0_lt_compat; lra]). lra. Qed.
Lemma zdt2_spec n x : (2 <= n)%nat -> box_dom n (0, 1) x -> exists f1 f2, zdt2 n x = [f1; f2] /\ 0 <= f1 <= 1 /\ 1 - f1^2 <= f2.
Proof.
  intros Hn [HL HB]. unfold zdt2. eexists _, _. split; [reflexivity|]. pose proof (hd_box x n ltac:(lia) HL HB). split; auto. rewrite Rmult_1_r. apply square_curve; auto. now apply zdt2_g.
Qed.
Theorem C86_zdt2 : forall n n_points, (2 <= n)%nat ->
  front_ok (box_dom n (0, 1)) (zdt2 n) (zdt2_front n_points) /\
  forall x, box_dom n (0, 1) x -> exists t, 0 <= t <= 1 /\ weakly_dom [t; 1 - t^2] (zdt2 n x).
Proof.
  intros n np Hn. pose proof (n1_pos n Hn). split.
  - intros p Hp. apply in_map_iff in Hp as (t & <- & Ht). apply linspace_in in Ht; [|lra]. split.
    + destruct (point0_dom n t ltac:(lia) Ht) as (D1 & D2 & D3). exists (point0 n t). split; auto. unfold zdt2. rewrite D2, D3. f_equal. f_equal. field. lra.
    + apply (unbeaten_curve _ _ (fun t => 1 - t^2)); auto; [intros; now apply zdt2_spec|intros; now apply square_decr].
  - intros x Hx. destruct (zdt2_spec n x Hn Hx) as (f1 & f2 & E & H1 & H2). exists f1. split; auto. rewrite E. split; auto. intros [|[|i]] Hi; cbn [nth] in *; try lra; cbn in Hi; lia.
Qed.
(** C86: ZDT3: the reported points are attained, and every solution is weakly dominated by a point of the curve they lie on *)
Theorem C86_zdt3 : forall n n_points, (2 <= n)%nat ->
  (forall p, In p (zdt3_front n_points) -> attained (box_dom n (0, 1)) (zdt3 n) p) /\
  forall x, box_dom n (0, 1) x -> exists t, 0 <= t <= 1 /\ weakly_dom [t; 1 - sqrt t - t * sin (10 * PI * t)] (zdt3 n x).
Proof.
  intros n np Hn. pose proof (n1_pos n Hn). split.
  - intros p Hp. unfold zdt3_front in Hp. apply in_flat_map in Hp as (r & Hr & Hp). apply in_map_iff in Hp as (t & <- & Ht).
    assert (Ht' : 0 <= t <= 1). { assert (HR : 0 <= fst r /\ fst r <= snd r /\ snd r <= 1) by (unfold zdt3_regions in Hr; destruct Hr as [<-|[<-|[<-|[<-|[<-|[]]]]]]; cbn; lra). apply linspace_in in Ht; lra. }
    destruct (point0_dom n t ltac:(lia) Ht') as (D1 & D2 & D3). exists (point0 n t). split; auto. unfold zdt3. rewrite D2, D3. f_equal. f_equal. replace (1 + 9 * 0 / (INR n - 1)) with 1 by (field; lra). replace (t * 1 / 1) with t by field. ring.
  - intros x [HL HB]. exists (hd0 x). pose proof (hd_box x n ltac:(lia) HL HB) as Hf. split; auto. unfold zdt3. set (f := hd0 x) in *. pose proof (zdt2_g n x Hn HB) as Hg. set (g := 1 + _) in *. split; auto. intros [|[|i]] Hi; cbn [nth]; [lra| |cbn in Hi; lia].
    rewrite Rmult_1_r. replace (g * (1 - sqrt (f / g) - f / g * sin (10 * PI * f))) with (g * (1 - sqrt (f / g)) - f * sin (10 * PI * f)) by (field; lra). pose proof (sqrt_curve g f Hg Hf). lra.
Qed.
(** C86: ZDT4 *)
Lemma zdt4_g x : forall s, 10 * INR (length x) + s <= fold_left (fun g xi => g + (xi * xi - 10 * cos (4 * PI * xi))) x (s + 20 * INR (length x)).
Proof.
  induction x as [|a x IH]; intros s; cbn [fold_left length]; [cbn; lra|]. rewrite S_INR. specialize (IH (s + 20 + (a * a - 10 * cos (4 * PI * a)))).
  replace (s + 20 * (INR (length x) + 1) + (a * a - 10 * cos (4 * PI * a))) with (s + 20 + (a * a - 10 * cos (4 * PI * a)) + 20 * INR (length x)) by ring. pose proof (COS_bound (4 * PI * a)). nra.
Qed.
Lemma zdt4_spec n x : (1 <= n)%nat -> zdt4_dom n x -> exists f1 f2, zdt4 n x = [f1; f2] /\ 0 <= f1 <= 1 /\ 1 - sqrt f1 <= f2.
Proof.
  intros Hn (HL & H1 & H2). unfold zdt4. eexists _, _. split; [reflexivity|]. split; auto. apply sqrt_curve; auto. set (m := length (tl x)). assert (Em : INR n - 1 = INR m). { unfold m. replace n with (S (length (tl x))) by (destruct x; cbn in *; lia). rewrite S_INR. ring. }
  rewrite Em. pose proof (zdt4_g (tl x) (1 - 10 * INR m)) as HG. fold m in HG. replace (1 - 10 * INR m + 20 * INR m) with (1 + 10 * INR m) in HG by ring. lra.
Qed.
Theorem C86_zdt4 : forall n n_points, (1 <= n)%nat ->
  front_ok (zdt4_dom n) (zdt4 n) (zdt4_front n_points) /\
  forall x, zdt4_dom n x -> exists t, 0 <= t <= 1 /\ weakly_dom [t; 1 - sqrt t] (zdt4 n x).
Proof.
  intros n np Hn. split.
  - intros p Hp. apply in_map_iff in Hp as (t & <- & Ht). apply linspace_in in Ht; [|lra]. split.
    + exists (point0 n t). split; [split; [unfold point0; cbn; rewrite repeat_length; lia|split; [exact Ht|apply Forall_forall; intros v Hv; apply repeat_spec in Hv; subst; lra]]|]. unfold zdt4, point0. cbn [tl hd0 nth].
      assert (E : forall k s, fold_left (fun g xi => g + (xi * xi - 10 * cos (4 * PI * xi))) (repeat 0 k) (s + 10 * INR k) = s).
      { induction k as [|k IH]; intros s; cbn [repeat fold_left]; [cbn; ring|]. rewrite S_INR, !Rmult_0_r, cos_0. replace (s + 10 * (INR k + 1) + (0 - 10 * 1)) with (s + 10 * INR k) by ring. apply IH. }
      replace (INR n - 1) with (INR (n - 1)) by (rewrite minus_INR by lia; reflexivity). rewrite E. f_equal. f_equal. unfold hd0. cbn [nth]. replace (t / 1) with t by field. ring.
    + apply (unbeaten_curve _ _ (fun t => 1 - sqrt t)); auto; [intros; now apply zdt4_spec|intros; now apply sqrt_decr].
  - intros x Hx. destruct (zdt4_spec n x Hn Hx) as (f1 & f2 & E & H1 & H2). exists f1. split; auto. rewrite E. split; auto. intros [|[|i]] Hi; cbn in *; try lra; lia.
Qed.
