(** * C113: the Pareto fronts of the dynamic problems DF1-DF8 at every time *)
From Coq Require Import Reals List Arith Lra Lia Psatz.
From Verif Require Import ListAux M_NSGA3R M_RealOps P_RealOps M_ZDT M_DF S_Bench Thm_Bench Thm_Bench2 Thm_ZDT.
Import ListNotations.
Local Open Scope R_scope.

(** the Pareto front: the values of admissible points that no admissible point beats *)
Definition on_front (dom : list R -> Prop) (F : list R -> list R) (p : list R) : Prop := attained dom F p /\ unbeaten dom F p.

Lemma weak_eq p q : weakly_dom p q -> weakly_dom q p -> p = q.
Proof.
  intros [L1 H1] [L2 H2]. apply (nth_ext _ _ 0 0); auto. intros i Hi. apply Rle_antisym; [apply H1; lia|apply H2; lia].
Qed.
Lemma weak_trans p q r : weakly_dom p q -> weakly_dom q r -> weakly_dom p r.
Proof. intros [L1 H1] [L2 H2]. split; [congruence|]. intros i Hi. eapply Rle_trans; [apply H1; lia|apply H2; auto]. Qed.
Lemma weak_strict p q : weakly_dom p q -> p <> q -> pareto_dom p q.
Proof.
  intros [L H] Hn. split; auto. split; auto.
  assert (G : forall (a b : list R), length a = length b -> (forall i, (i < length b)%nat -> nth i a 0 <= nth i b 0) -> a = b \/ exists i, (i < length b)%nat /\ nth i a 0 < nth i b 0).
  { induction a as [|x a IH]; intros [|y b] Lab Hab; try discriminate; [now left|]. destruct (Rlt_dec x y) as [Hlt|Hge]; [right; exists 0%nat; split; [cbn; lia|auto]|]. destruct (IH b) as [->|(i & Hi & Hs)].
    - now injection Lab. - intros i Hi. apply (Hab (S i)). cbn; lia.
    - left. f_equal. pose proof (Hab 0%nat ltac:(cbn; lia)) as H0. cbn in H0. lra.
    - right. exists (S i). split; [cbn; lia|auto]. }
  destruct (G p q L H) as [E|E]; [contradiction|auto].
Qed.
Lemma dom_weak p q : pareto_dom p q -> weakly_dom p q /\ p <> q.
Proof. intros (L & H & i & Hi & Hs). split; [split; auto|]. intros ->. lra. Qed.
(** a family of attained points, one weakly below every value, none weakly below another one, is the front *)
Lemma front_family {T} (dom : list R -> Prop) F (S : T -> Prop) (c : T -> list R) :
  (forall s, S s -> attained dom F (c s)) -> (forall x, dom x -> exists s, S s /\ weakly_dom (c s) (F x)) -> (forall s s', S s -> S s' -> weakly_dom (c s) (c s') -> c s = c s') ->
  forall p, on_front dom F p <-> exists s, S s /\ p = c s.
Proof.
  intros H1 H2 H3 p. split.
  - intros [(x & Hx & <-) HU]. destruct (H2 x Hx) as (s & Hs & Hw). exists s. split; auto. destruct (list_eq_dec Req_EM_T (F x) (c s)) as [E|E]; auto. exfalso. destruct (H1 s Hs) as (y & Hy & Ey). apply (HU y Hy). rewrite Ey. apply weak_strict; auto.
  - intros (s & Hs & ->). split; [now apply H1|]. intros x Hx HD. apply dom_weak in HD as [HW HN]. destruct (H2 x Hx) as (s' & Hs' & Hw'). pose proof (H3 s' s Hs' Hs (weak_trans _ _ _ Hw' HW)) as E. rewrite E in Hw'. apply HN. now apply weak_eq.
Qed.
Lemma weak2 a b c d : weakly_dom [a; b] [c; d] <-> a <= c /\ b <= d.
Proof. split; [intros [_ H]; split; [apply (H 0%nat); cbn; lia|apply (H 1%nat); cbn; lia]|intros [H1 H2]; split; auto; intros [|[|i]] Hi; cbn in *; auto; lia]. Qed.
(** two objectives, one rising and one falling along the curve *)
Lemma front_curve (dom : list R -> Prop) F (a b : R) (c1 c2 : R -> R) :
  (forall s, a <= s <= b -> attained dom F [c1 s; c2 s]) -> (forall x, dom x -> exists s f1 f2, a <= s <= b /\ F x = [f1; f2] /\ c1 s <= f1 /\ c2 s <= f2) ->
  (forall s s', a <= s -> s < s' -> s' <= b -> c1 s < c1 s' /\ c2 s' < c2 s) ->
  forall p, on_front dom F p <-> exists s, a <= s <= b /\ p = [c1 s; c2 s].
Proof.
  intros H1 H2 H3. apply (front_family dom F (fun s => a <= s <= b) (fun s => [c1 s; c2 s])); auto.
  - intros x Hx. destruct (H2 x Hx) as (s & f1 & f2 & Hs & -> & Hf1 & Hf2). exists s. split; auto. now apply weak2.
  - intros s s' Hs Hs' HW. apply weak2 in HW as [W1 W2]. destruct (Rtotal_order s s') as [L|[->|L]]; auto; exfalso.
    + destruct (H3 s s') as [_ H]; lra.
    + destruct (H3 s' s) as [H _]; lra.
Qed.
Lemma front_of_linspace (dom : list R -> Prop) F a b (c : R -> list R) : a <= b -> (forall p, on_front dom F p <-> exists s, a <= s <= b /\ p = c s) -> forall k, front_ok dom F (map c (linspace a b k)).
Proof. intros Hab H k p Hp. apply in_map_iff in Hp as (s & <- & Hs). apply linspace_in in Hs; auto. apply H. eauto. Qed.

(** ** powers *)
Lemma np_power_0 y : np_power 0 y = 0.
Proof. unfold np_power. destruct (Req_EM_T 0 0); lra. Qed.
Lemma np_power_1 y : np_power 1 y = 1.
Proof. rewrite np_power_pos by lra. unfold Rpower. rewrite ln_1, Rmult_0_r. apply exp_0. Qed.
Lemma np_power_gt0 x y : 0 < x -> 0 < np_power x y.
Proof. intros. rewrite np_power_pos by auto. apply exp_pos. Qed.
Lemma np_power_lt a b y : 0 <= a -> a < b -> 0 < y -> np_power a y < np_power b y.
Proof.
  intros Ha Hab Hy. destruct (Req_dec a 0) as [->|Hn]; [rewrite np_power_0; apply np_power_gt0; lra|]. rewrite !np_power_pos by lra. apply Rlt_Rpower_l; lra.
Qed.
Lemma np_power_le a b y : 0 <= a -> a <= b -> 0 < y -> np_power a y <= np_power b y.
Proof. intros Ha [H| ->] Hy; [left; now apply np_power_lt|lra]. Qed.
Lemma np_power_mult a b y : 0 <= a -> 0 <= b -> np_power (a * b) y = np_power a y * np_power b y.
Proof.
  intros Ha Hb. destruct (Req_dec a 0) as [->|Hna]; [rewrite Rmult_0_l, np_power_0; ring|]. destruct (Req_dec b 0) as [->|Hnb]; [rewrite Rmult_0_r, np_power_0; ring|].
  rewrite !np_power_pos by nra. symmetry. apply Rpower_mult_distr; lra.
Qed.
Lemma np_power_half f : 0 <= f -> np_power f 0.5 = sqrt f.
Proof. intros Hf. destruct (Req_dec f 0) as [->|Hn]; [rewrite np_power_0, sqrt_0; auto|]. rewrite np_power_pos by lra. replace 0.5 with (/ 2) by lra. apply Rpower_sqrt. lra. Qed.
(** 1 - s^H is below g (1 - (s/g)^H) for g >= 1 *)
Lemma power_curve g s H : 1 <= g -> 0 <= s <= 1 -> 0 < H -> 1 - np_power s H <= g * (1 - np_power (s / g) H).
Proof.
  intros Hg Hs HH. unfold Rdiv. rewrite np_power_mult by (try lra; left; apply Rinv_0_lt_compat; lra). set (u := np_power s H). set (v := np_power (/ g) H).
  assert (Hu : 0 <= u <= 1) by (split; [apply np_power_nonneg|apply np_power_le1; lra]).
  assert (Hv : 0 <= v <= 1). { split; [apply np_power_nonneg|apply np_power_le1; try lra; [left; apply Rinv_0_lt_compat; lra|]]. rewrite <- Rinv_1. apply Rinv_le_contravar; lra. }
  replace (g * (1 - u * v)) with (g - u * (g * v)) by ring. assert (g * v <= g) by nra. destruct (Rle_dec 1 (g * v)); nra.
Qed.

(** ** points with a constant tail *)
Lemma length_pt (s v : R) k : length (s :: repeat v k) = S k.
Proof. cbn. now rewrite repeat_length. Qed.
Lemma nth_pt (s v : R) k i : (1 <= i)%nat -> (i < S k)%nat -> x_ i (s :: repeat v k) = v.
Proof. intros H1 H2. unfold x_. destruct i as [|i]; [lia|]. cbn [nth]. revert i H1 H2. induction k as [|k IH]; intros i H1 H2; [lia|]. destruct i as [|i]; [reflexivity|]. cbn. apply IH; lia. Qed.
Lemma pt_dom n s v l1 u1 l u : (1 <= n)%nat -> l1 <= s <= u1 -> l <= v <= u -> df_dom n 1 l1 u1 l u (s :: repeat v (n - 1)).
Proof.
  intros Hn Hs Hv. split; [rewrite length_pt; lia|]. split; intros i Hi Hk.
  - assert (i = 0%nat) by lia. subst. exact Hs.
  - rewrite nth_pt by lia. exact Hv.
Qed.
Lemma rsum_nonneg (f : R -> R) l : (forall v, 0 <= f v) -> 0 <= rsum (map f l).
Proof. intros H. unfold rsum. induction l as [|v l IH]; cbn; [lra|]. specialize (H v). lra. Qed.
Lemma rsum_repeat0 (f : R -> R) v k : f v = 0 -> rsum (map f (repeat v k)) = 0.
Proof. intros H. unfold rsum. induction k as [|k IH]; cbn; [auto|]. rewrite IH, H. ring. Qed.
Lemma square_nonneg v : 0 <= square v.
Proof. unfold square. nra. Qed.
Lemma square_0 v : square (v - v) = 0.
Proof. unfold square. ring. Qed.
Lemma hd_dom n l1 u1 l u x : (1 <= n)%nat -> df_dom n 1 l1 u1 l u x -> l1 <= x_ 0 x <= u1.
Proof. intros Hn (_ & H & _). apply H; lia. Qed.
Lemma sin_b v : -1 <= sin v <= 1.
Proof. apply SIN_bound. Qed.
Lemma cos_b v : -1 <= cos v <= 1.
Proof. apply COS_bound. Qed.
Lemma G1_b t : 0 <= df1_G t <= 1.
Proof. unfold df1_G. split; [apply Rabs_pos|]. apply Rabs_le. pose proof (sin_b (0.5 * PI * t)). lra. Qed.
Lemma G3_b t : -1 <= df3_G t <= 1.
Proof. apply sin_b. Qed.
Lemma curve_H H s s' : 0 < H -> 0 <= s -> s < s' -> s' <= 1 -> s < s' /\ 1 - np_power s' H < 1 - np_power s H.
Proof. intros HH H1 H2 H3. split; auto. pose proof (np_power_lt s s' H H1 H2 HH). lra. Qed.

(** DF1 *)
Theorem C113_df1 : forall t n, (1 <= n)%nat -> let dom := df_dom n 1 0 1 0 1 in
  (forall p, on_front dom (df1 t) p <-> exists s, 0 <= s <= 1 /\ p = [s; 1 - np_power s (df1_H t)]) /\ forall k, front_ok dom (df1 t) (df1_front t k).
Proof.
  intros t n Hn dom. assert (HH : 0 < df1_H t) by (unfold df1_H; pose proof (sin_b (0.5 * PI * t)); lra).
  assert (G : forall p, on_front dom (df1 t) p <-> exists s, 0 <= s <= 1 /\ p = [s; 1 - np_power s (df1_H t)]).
  { apply (front_curve dom (df1 t) 0 1 (fun s => s)).
    - intros s Hs. exists (s :: repeat (df1_G t) (n - 1)). split; [apply pt_dom; auto; apply G1_b|]. unfold df1. cbn [skipn]. rewrite rsum_repeat0 by apply square_0. change (x_ 0 (s :: repeat (df1_G t) (n - 1))) with s. replace (s / (1 + 0)) with s by field. f_equal. f_equal. ring.
    - intros x Hx. pose proof (hd_dom _ _ _ _ _ _ Hn Hx) as H0. exists (x_ 0 x). unfold df1. set (g := 1 + _). assert (1 <= g) by (unfold g; pose proof (rsum_nonneg (fun v => square (v - df1_G t)) (skipn 1 x) (fun v => square_nonneg _)); lra).
      eexists _, _. split; [lra|]. split; [reflexivity|]. split; [lra|]. now apply power_curve.
    - intros s s' H1 H2 H3. now apply curve_H. }
  split; auto. intros k. apply (front_of_linspace dom (df1 t) 0 1 (fun f => [f; 1 - np_power f (df1_H t)])); [lra|auto].
Qed.
(** DF3 *)
Theorem C113_df3 : forall t n, (1 <= n)%nat -> let dom := df_dom n 1 0 1 (-1) 2 in
  (forall p, on_front dom (df3 t) p <-> exists s, 0 <= s <= 1 /\ p = [s; 1 - np_power s (df3_H t)]) /\ forall k, front_ok dom (df3 t) (df3_front t k).
Proof.
  intros t n Hn dom. assert (HH : 0 < df3_H t) by (unfold df3_H; pose proof (G3_b t); lra).
  assert (G : forall p, on_front dom (df3 t) p <-> exists s, 0 <= s <= 1 /\ p = [s; 1 - np_power s (df3_H t)]).
  { apply (front_curve dom (df3 t) 0 1 (fun s => s)).
    - intros s Hs. set (v := df3_G t + np_power s (df3_H t)). exists (s :: repeat v (n - 1)). split.
      { apply pt_dom; auto. unfold v. pose proof (G3_b t). pose proof (np_power_nonneg s (df3_H t)). pose proof (np_power_le1 s (df3_H t) ltac:(lra) ltac:(lra) ltac:(lra)). lra. }
      unfold df3. cbn [skipn]. change (x_ 0 (s :: repeat v (n - 1))) with s. rewrite rsum_repeat0 by (unfold v, square; ring). replace (s / (1 + 0)) with s by field. f_equal. f_equal. ring.
    - intros x Hx. pose proof (hd_dom _ _ _ _ _ _ Hn Hx) as H0. exists (x_ 0 x). unfold df3. set (g := 1 + _). assert (1 <= g) by (unfold g; pose proof (rsum_nonneg (fun v => square (v - df3_G t - np_power (x_ 0 x) (df3_H t))) (skipn 1 x) (fun v => square_nonneg _)); lra).
      eexists _, _. split; [lra|]. split; [reflexivity|]. split; [lra|]. now apply power_curve.
    - intros s s' H1 H2 H3. now apply curve_H. }
  split; auto. intros k. unfold df3_front. apply (front_of_linspace dom (df3 t) 0 1 (fun f => [f; 1 * (1 - np_power (f / 1) (df3_H t))])); [lra|]. intros p. rewrite G. split; intros (s & Hs & ->); exists s; (split; [auto|]); rewrite Rmult_1_l; unfold Rdiv; rewrite Rinv_1, Rmult_1_r; reflexivity.
Qed.
(** DF2: which variable is the position changes with time *)
Lemma floor_spec r : IZR (Int_part r) <= r < IZR (Int_part r) + 1.
Proof. pose proof (base_Int_part r). lra. Qed.
Lemma df2_r_lt t n : (1 <= n)%nat -> (df2_r t n < n)%nat.
Proof.
  intros Hn. unfold df2_r, floorN. pose proof (G1_b t) as HG. set (r := INR (n - 1) * df1_G t). assert (HI : 0 <= INR (n - 1)) by apply pos_INR. assert (Hr : 0 <= r <= INR (n - 1)) by (unfold r; nra).
  pose proof (floor_spec r) as HF. assert (IZR (Int_part r) <= IZR (Z.of_nat (n - 1))) by (rewrite <- INR_IZR_INZ; lra). apply le_IZR in H. lia.
Qed.
Theorem C113_df2 : forall t n, (1 <= n)%nat -> let dom := df_dom n 1 0 1 0 1 in
  (forall p, on_front dom (df2 t n) p <-> exists s, 0 <= s <= 1 /\ p = [s; 1 - sqrt s]) /\ forall k, front_ok dom (df2 t n) (df2_front k).
Proof.
  intros t n Hn dom. pose proof (df2_r_lt t n Hn) as Hr. pose proof (G1_b t) as HG.
  assert (HB : forall x i, dom x -> (i < n)%nat -> 0 <= x_ i x <= 1). { intros x i (_ & H1 & H2) Hi. destruct (Nat.lt_ge_cases i 1); [now apply H1|now apply H2]. }
  assert (G : forall p, on_front dom (df2 t n) p <-> exists s, 0 <= s <= 1 /\ p = [s; 1 - sqrt s]).
  { apply (front_curve dom (df2 t n) 0 1 (fun s => s)).
    - intros s Hs. set (r := df2_r t n) in *. set (x := map (fun k => if (k =? r)%nat then s else df1_G t) (seq 0 n)).
      assert (HX : forall i, (i < n)%nat -> x_ i x = if (i =? r)%nat then s else df1_G t). { intros i Hi. unfold x_, x. rewrite (nth_indep _ 0 ((fun k => if (k =? r)%nat then s else df1_G t) 0%nat)) by (now rewrite map_length, seq_length). rewrite (map_nth (fun k => if (k =? r)%nat then s else df1_G t)), seq_nth by auto. reflexivity. }
      assert (HXB : forall i, (i < n)%nat -> 0 <= x_ i x <= 1) by (intros i Hi; rewrite HX by auto; destruct (i =? r)%nat; lra).
      exists x. split; [split; [unfold x; now rewrite map_length, seq_length|split; intros; now apply HXB]|]. unfold df2. fold r. rewrite (HX r Hr), Nat.eqb_refl.
      assert (E : rsum (map (fun k => square (x_ k x - df1_G t)) (filter (fun k => negb (k =? r)%nat) (seq 0 n))) = 0).
      { assert (G0 : forall l, (forall k, In k l -> x_ k x = df1_G t) -> rsum (map (fun k => square (x_ k x - df1_G t)) l) = 0). { unfold rsum. induction l as [|k l IH]; intros Hl; cbn [map fold_right]; auto. rewrite (Hl k (or_introl eq_refl)), square_0, IH; [ring|]. intros j Hj. apply Hl. now right. }
        apply G0. intros k Hk. apply filter_In in Hk as [Hk Hk']. apply in_seq in Hk. rewrite HX by lia. now destruct (k =? r)%nat. }
      rewrite E. replace (s / (1 + 0)) with s by field. rewrite np_power_half by lra. f_equal. f_equal. ring.
    - intros x Hx. exists (x_ (df2_r t n) x). unfold df2. set (g := 1 + _). pose proof (HB x _ Hx Hr) as H0. assert (1 <= g). { unfold g. assert (G0 : forall l, 0 <= rsum (map (fun k => square (x_ k x - df1_G t)) l)) by (unfold rsum; induction l as [|k l IH]; cbn [map fold_right]; [lra|pose proof (square_nonneg (x_ k x - df1_G t)); lra]). pose proof (G0 (filter (fun k => negb (k =? df2_r t n)%nat) (seq 0 n))). lra. }
      eexists _, _. split; [exact H0|]. split; [reflexivity|]. split; [lra|]. rewrite <- np_power_half by lra. apply power_curve; lra.
    - intros s s' H1 H2 H3. split; auto. now apply sqrt_decr. }
  split; auto. intros k. apply (front_of_linspace dom (df2 t n) 0 1 (fun f => [f; 1 - sqrt f])); [lra|auto].
Qed.
