From Coq Require Import Reals List Lra Lia Psatz.
From Verif Require Import ListAux M_NSGA3R M_Bench S_Bench.
Import ListNotations.
Local Open Scope R_scope.

Lemma rsum_ge0 l : (forall v, In v l -> 0 <= v) -> 0 <= rsum l.
Proof. induction l as [|a l IH]; intros H; unfold rsum in *; cbn; [lra|]. pose proof (H a (or_introl eq_refl)). assert (0 <= fold_right Rplus 0 l) by (apply IH; intros; apply H; right; auto). lra. Qed.
Lemma rsum_0 l : (forall v, In v l -> 0 <= v) -> rsum l = 0 -> forall v, In v l -> v = 0.
Proof.
  induction l as [|a l IH]; intros H E v Hv; [destruct Hv|]. unfold rsum in *. cbn in E. pose proof (H a (or_introl eq_refl)). assert (0 <= rsum l) by (apply rsum_ge0; intros; apply H; right; auto). unfold rsum in *. destruct Hv as [<-|Hv]; [lra|]. apply IH; auto; [intros; apply H; right; auto|lra].
Qed.
Lemma rsum_le_n l c : (forall v, In v l -> v <= c) -> rsum l <= INR (length l) * c.
Proof. induction l as [|a l IH]; intros H; unfold rsum in *; [cbn; lra|]. cbn [fold_right length]. rewrite S_INR. pose proof (H a (or_introl eq_refl)). assert (fold_right Rplus 0 l <= INR (length l) * c) by (apply IH; intros; apply H; right; auto). lra. Qed.
Lemma sq_0 (a : R) : a^2 = 0 -> a = 0. Proof. intros H. nra. Qed.
Lemma sq_ge0 (a : R) : 0 <= a^2. Proof. nra. Qed.
Lemma sumsq_ge0 (c : R) x : 0 <= rsum (map (fun xi => (xi - c)^2) x).
Proof. apply rsum_ge0. intros v Hv. apply in_map_iff in Hv as (y & <- & _). apply sq_ge0. Qed.
Lemma sumsq_0 (c : R) x : rsum (map (fun xi => (xi - c)^2) x) = 0 <-> x = repeat c (length x).
Proof.
  split.
  - intros H. assert (HA : forall v, In v x -> v = c).
    { intros v Hv. assert (H0 : (v - c)^2 = 0). { apply (rsum_0 (map (fun xi => (xi - c)^2) x)); auto; [intros w Hw; apply in_map_iff in Hw as (y & <- & _); apply sq_ge0|apply in_map_iff; exists v; auto]. } apply sq_0 in H0. lra. }
    clear H. induction x as [|a x IH]; cbn; auto. rewrite <- IH by (intros; apply HA; right; auto). f_equal. apply HA. left; auto.
  - intros E. rewrite E. clear E. induction (length x) as [|k IH]; [reflexivity|]. cbn [repeat map]. unfold rsum in *. cbn [fold_right]. rewrite IH. ring.
Qed.
Lemma sumsq0_ge0 x : 0 <= rsum (map (fun xi => xi^2) x).
Proof. apply rsum_ge0. intros v Hv. apply in_map_iff in Hv as (y & <- & _). apply sq_ge0. Qed.
Lemma sumsq0_0 x : rsum (map (fun xi => xi^2) x) = 0 <-> x = repeat 0 (length x).
Proof. rewrite <- (sumsq_0 0 x). erewrite (map_ext (fun xi => xi^2)); [reflexivity|]. intros; cbn; ring. Qed.
Lemma box_repeat box v n : fst box <= v <= snd box -> in_box box (repeat v n).
Proof. intros H. unfold in_box. apply Forall_forall. intros x Hx. apply repeat_spec in Hx. now subst. Qed.

(** C85 *)
Theorem C85_sphere : forall n, unique_minimum n sphere_box sphere bench_front (sphere_set n).
Proof.
  intros n. unfold unique_minimum, sphere_set, bench_front. rewrite repeat_length. split; auto. split; [apply box_repeat; cbn; lra|]. intros x HL. split; [apply sumsq_ge0|]. unfold sphere. rewrite sumsq_0, HL. tauto.
Qed.
Lemma cos_mean x c n : length x = n -> (0 < n)%nat -> 1 / INR n * rsum (map (fun xi => cos (c * xi)) x) <= 1.
Proof.
  intros HL Hn. assert (0 < INR n) by (apply lt_0_INR; auto). assert (rsum (map (fun xi => cos (c * xi)) x) <= INR n * 1).
  { rewrite <- HL. erewrite <- map_length. apply rsum_le_n. intros v Hv. apply in_map_iff in Hv as (y & <- & _). apply COS_bound. }
  unfold Rdiv. rewrite Rmult_1_l. apply Rmult_le_reg_l with (INR n); auto. rewrite <- Rmult_assoc, Rinv_r by lra. lra.
Qed.
Lemma exp_le x y : x <= y -> exp x <= exp y.
Proof. intros [H| ->]; [left; now apply exp_increasing|lra]. Qed.
Theorem C85_ackley : forall a b c n, 0 < a -> 0 < b -> (0 < n)%nat -> unique_minimum n ackley_box (ackley a b c n) bench_front (ackley_set n).
Proof.
  intros a b c n Ha Hb Hn. unfold unique_minimum, ackley_set, bench_front. rewrite repeat_length. split; auto. split; [apply box_repeat; cbn; lra|]. intros x HL.
  assert (HN : 0 < INR n) by (apply lt_0_INR; auto). unfold ackley. cbv zeta. erewrite (map_ext (fun xi => xi * xi) (fun xi => xi^2)) by (intros; cbn; ring). pose proof (cos_mean x c n HL Hn) as HC.
  set (s := 1 / INR n * rsum (map (fun xi => xi^2) x)). set (m := 1 / INR n * rsum (map (fun xi => cos (c * xi)) x)) in *.
  assert (HS : 0 <= s) by (unfold s; apply Rmult_le_pos; [apply Rlt_le, Rdiv_lt_0_compat; lra|apply sumsq0_ge0]).
  pose proof (sqrt_pos s) as HQ. assert (H1 : exp (-1 * b * sqrt s) <= 1) by (rewrite <- exp_0; apply exp_le; nra). assert (H2 : exp m <= exp 1) by (apply exp_le; auto).
  split; [nra|]. split.
  - intros E. assert (HE : exp (-1 * b * sqrt s) = 1) by nra. rewrite <- exp_0 in HE. apply exp_inv in HE. assert (HQ0 : sqrt s = 0) by nra. apply sqrt_eq_0 in HQ0; auto.
    assert (HZ : rsum (map (fun xi => xi^2) x) = 0). { unfold s in HQ0. apply Rmult_integral in HQ0 as [C|]; auto. exfalso. assert (0 < 1 / INR n) by (apply Rdiv_lt_0_compat; lra). lra. }
    apply sumsq0_0 in HZ. now rewrite HL in HZ.
  - intros ->. unfold s, m. rewrite (proj2 (sumsq0_0 (repeat 0 n))) by now rewrite repeat_length. rewrite Rmult_0_r, sqrt_0.
    assert (EM : rsum (map (fun xi => cos (c * xi)) (repeat 0 n)) = INR n). { clear. induction n as [|k IH]; [reflexivity|]. cbn [repeat map]. rewrite S_INR. unfold rsum in *. cbn [fold_right]. rewrite IH, Rmult_0_r, cos_0. ring. }
    rewrite EM. replace (1 / INR n * INR n) with 1 by (field; lra). rewrite Rmult_0_r, exp_0. ring.
Qed.
Lemma prod_cos_le l : Rabs (rprod (map cos l)) <= 1.
Proof.
  induction l as [|a l IH]; unfold rprod in *; cbn [map fold_right]; [rewrite Rabs_R1; lra|]. rewrite Rabs_mult. assert (Rabs (cos a) <= 1) by (apply Rabs_le; apply COS_bound). pose proof (Rabs_pos (cos a)). pose proof (Rabs_pos (fold_right Rmult 1 (map cos l))). nra.
Qed.
Theorem C85_griewank : forall n, unique_minimum n griewank_box griewank bench_front (griewank_set n).
Proof.
  intros n. unfold unique_minimum, griewank_set, bench_front. rewrite repeat_length. split; auto. split; [apply box_repeat; cbn; lra|]. intros x HL. unfold griewank.
  pose proof (sumsq0_ge0 x) as HS. set (P := rprod _). assert (HP : P <= 1).
  { unfold P. rewrite <- (map_map (fun ix => snd ix / sqrt (fst ix)) cos). pose proof (prod_cos_le (map (fun ix => snd ix / sqrt (fst ix)) (numbered x))) as H. pose proof (Rle_abs (rprod (map cos (map (fun ix => snd ix / sqrt (fst ix)) (numbered x))))). lra. }
  split; [lra|]. split.
  - intros E. assert (HZ : rsum (map (fun xi => xi^2) x) = 0) by lra. apply sumsq0_0 in HZ. now rewrite HL in HZ.
  - intros Ex. assert (HZ : rsum (map (fun xi => xi^2) x) = 0) by (apply sumsq0_0; now rewrite HL). rewrite HZ. enough (P = 1) by lra. unfold P, numbered. rewrite HL. rewrite Ex. clear. generalize (map (fun i => INR (S i)) (seq 0 n)) as l. induction n as [|k IH]; intros [|i l]; cbn; auto.
    unfold rprod in *. rewrite IH. unfold Rdiv. rewrite Rmult_0_l, cos_0. ring.
Qed.
Theorem C85_rastrigin : forall A n, 0 <= A -> unique_minimum n rastrigin_box (rastrigin A n) bench_front (rastrigin_set n).
Proof.
  intros A n HA. unfold unique_minimum, rastrigin_set, bench_front. rewrite repeat_length. split; auto. split; [apply box_repeat; cbn; lra|]. intros x HL. unfold rastrigin.
  assert (E : A * INR n + rsum (map (fun xi => xi^2 - A * cos (2 * PI * xi)) x) = rsum (map (fun xi => xi^2) x) + A * rsum (map (fun xi => 1 - cos (2 * PI * xi)) x)).
  { rewrite <- HL. clear. induction x as [|a x IH]; [cbn; ring|]. cbn [length map]. rewrite S_INR. unfold rsum in *. cbn [fold_right]. nra. }
  rewrite E. pose proof (sumsq0_ge0 x) as HS. assert (HC : 0 <= rsum (map (fun xi => 1 - cos (2 * PI * xi)) x)).
  { apply rsum_ge0. intros v Hv. apply in_map_iff in Hv as (y & <- & _). pose proof (COS_bound (2 * PI * y)). lra. }
  assert (HM : 0 <= A * rsum (map (fun xi => 1 - cos (2 * PI * xi)) x)) by (apply Rmult_le_pos; auto). split; [lra|]. split.
  - intros H. assert (HZ : rsum (map (fun xi => xi^2) x) = 0) by lra. apply sumsq0_0 in HZ. now rewrite HL in HZ.
  - intros ->. rewrite (proj2 (sumsq0_0 (repeat 0 n))) by now rewrite repeat_length. enough (EM : rsum (map (fun xi => 1 - cos (2 * PI * xi)) (repeat 0 n)) = 0) by (rewrite EM; ring).
    clear. induction n as [|k IH]; [reflexivity|]. cbn [repeat map]. unfold rsum in *. cbn [fold_right]. rewrite IH, Rmult_0_r, cos_0. ring.
Qed.
Theorem C85_zakharov : forall n, unique_minimum n zakharov_box zakharov bench_front (zakharov_set n).
Proof.
  intros n. unfold unique_minimum, zakharov_set, bench_front. rewrite repeat_length. split; auto. split; [apply box_repeat; cbn; lra|]. intros x HL. unfold zakharov. cbv zeta. set (a := rsum (map _ (numbered x))).
  pose proof (sumsq0_ge0 x) as HS. pose proof (sq_ge0 a). assert (0 <= a^4) by (replace (a^4) with ((a^2)^2) by ring; apply sq_ge0). split; [lra|]. split.
  - intros H1. assert (HZ : rsum (map (fun xi => xi^2) x) = 0) by lra. apply sumsq0_0 in HZ. now rewrite HL in HZ.
  - intros Ex. assert (HZ : rsum (map (fun xi => xi^2) x) = 0) by (apply sumsq0_0; now rewrite HL). rewrite HZ. enough (E : a = 0) by (rewrite E; ring). unfold a, numbered. rewrite HL, Ex. clear. generalize (map (fun i => INR (S i)) (seq 0 n)) as l. induction n as [|k IH]; intros [|i l]; cbn; auto.
    unfold rsum in *. rewrite IH. ring.
Qed.
Lemma rosen_ge0 x : 0 <= rsum (rosen_terms x).
Proof.
  induction x as [|a x IH]; [cbn; lra|]. destruct x as [|b x]; [cbn; lra|]. change (rosen_terms (a :: b :: x)) with ((100 * (b - a^2)^2 + (1 - a)^2) :: rosen_terms (b :: x)).
  change (rsum (?t :: ?l)) with (t + rsum l). pose proof (sq_ge0 (b - a^2)). pose proof (sq_ge0 (1 - a)). lra.
Qed.
Lemma rosen_0 x : (2 <= length x)%nat -> (rsum (rosen_terms x) = 0 <-> x = repeat 1 (length x)).
Proof.
  induction x as [|a x IH]; intros HL; [cbn in HL; lia|]. destruct x as [|b x]; [cbn in HL; lia|]. change (rosen_terms (a :: b :: x)) with ((100 * (b - a^2)^2 + (1 - a)^2) :: rosen_terms (b :: x)).
  change (rsum (?t :: ?l)) with (t + rsum l). pose proof (sq_ge0 (b - a^2)). pose proof (sq_ge0 (1 - a)). pose proof (rosen_ge0 (b :: x)). change (repeat 1 (length (a :: b :: x))) with (1 :: repeat 1 (length (b :: x))). split.
  - intros E. assert (Ea : (1 - a)^2 = 0) by lra. apply sq_0 in Ea. assert (Eb : (b - a^2)^2 = 0) by lra. apply sq_0 in Eb. assert (a = 1) by lra. subst a. assert (b = 1) by lra. subst b. f_equal.
    destruct x as [|c x]; [reflexivity|]. apply IH; [cbn; lia|]. lra.
  - intros E0. assert (Ea : a = 1) by (apply (f_equal (hd 0)) in E0; exact E0). assert (E := f_equal (@tl R) E0). cbn [tl] in E. assert (Eb : b = 1) by (apply (f_equal (hd 0)) in E; exact E). clear E0. subst a b. destruct x as [|c x].
    + cbn. lra.
    + rewrite (proj2 (IH ltac:(cbn; lia))); [ring|exact E].
Qed.
(** Rosenbrock needs at least two variables: with one the evaluation raises *)
Theorem C85_rosenbrock : forall n, (2 <= n)%nat -> length (rosenbrock_set n) = n /\ in_box rosenbrock_box (rosenbrock_set n) /\
  forall x, length x = n -> exists v, rosenbrock x = Some v /\ bench_front <= v /\ (v = bench_front <-> x = rosenbrock_set n).
Proof.
  intros n Hn. unfold rosenbrock_set, bench_front. rewrite repeat_length. split; auto. split; [apply box_repeat; cbn; lra|]. intros x HL. exists (rsum (rosen_terms x)). split.
  - unfold rosenbrock. destruct x as [|a [|b x]]; cbn in HL; try lia. reflexivity.
  - split; [apply rosen_ge0|]. rewrite rosen_0, HL by lia. reflexivity.
Qed.
Theorem C85_rosenbrock_refuted : forall a, rosenbrock [a] = None.
Proof. reflexivity. Qed.
(** Himmelblau: 0 is the minimum, (3, 2) attains it; the other three reported points are rounded: their values are positive, below 10^-9 *)
Theorem C85_himmelblau : (forall x y, bench_front <= himmelblau x y) /\ himmelblau 3 2 = bench_front /\
  (forall p, In p himmelblau_set -> fst himmelblau_box <= fst p <= snd himmelblau_box /\ fst himmelblau_box <= snd p <= snd himmelblau_box /\ himmelblau (fst p) (snd p) < 1 / 10^9 /\ (himmelblau (fst p) (snd p) = bench_front -> p = (3, 2))).
Proof.
  unfold bench_front, himmelblau. split; [intros x y; pose proof (sq_ge0 (x^2 + y - 11)); pose proof (sq_ge0 (x + y^2 - 7)); lra|]. split; [lra|]. intros p Hp. unfold himmelblau_set in Hp. destruct Hp as [<-|[<-|[<-|[<-|[]]]]]; cbn [fst snd himmelblau_box]; (split; [lra|]); (split; [lra|]); (split; [lra|]); intros C; [reflexivity|exfalso; lra|exfalso; lra|exfalso; lra].
Qed.
(** the hypotheses are met *)
Example C85_meets : 0 < 20 /\ 0 < 1/5 /\ unique_minimum 2 ackley_box (ackley 20 (1/5) (2 * PI) 2) 0 [0; 0] /\ rosenbrock [1; 1; 1] = Some 0 /\ sphere [1/2; 1/2] = 0.
Proof.
  split; [lra|]. split; [lra|]. split; [apply (C85_ackley 20 (1/5) (2 * PI) 2); try lra; lia|]. split; [unfold rosenbrock; cbn; f_equal; ring|unfold sphere; cbn; field].
Qed.
