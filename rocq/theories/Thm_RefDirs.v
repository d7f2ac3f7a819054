(** * C46: Das-Dennis reference directions; C55: mapping onto the unit simplex *)
From Coq Require Import List Arith Bool ZArith QArith Lia Lqa Permutation Sorted Factorial.
From Verif Require Import ListAux M_RefDirs S_RefDirs P_RefDirs.
Import ListNotations.
Local Open Scope nat_scope.

(** the binomial of the model is the usual one *)
Lemma binom_fact n : forall k, k <= n -> binom n k * (fact k * fact (n - k)) = fact n.
Proof.
  assert (H0 : forall a k, a < k -> binom a k = 0).
  { clear. induction a as [|m IHm]; intros k Hk; (destruct k as [|k]; [lia|]); cbn [binom]; [reflexivity|]. rewrite !IHm; lia. }
  induction n as [|n IH]; intros k Hk.
  - assert (k = 0) by lia. subst. reflexivity.
  - destruct k as [|k]; [cbn [binom]; rewrite Nat.sub_0_r; cbn [fact]; lia|]. rewrite binom_S. replace (S n - S k) with (n - k) by lia.
    destruct (Nat.eq_dec k n) as [->|Hne].
    + rewrite (H0 n (S n)) by lia. rewrite Nat.sub_diag. specialize (IH n ltac:(lia)). rewrite Nat.sub_diag in IH. cbn [fact] in *. nia.
    + pose proof (IH k ltac:(lia)) as H1. pose proof (IH (S k) ltac:(lia)) as H2. replace (n - k) with (S (n - S k)) in * by lia. cbn [fact] in *.
      replace (S (n - S k)) with (n - k) in * by lia. set (a := binom n k) in *. set (b := binom n (S k)) in *. set (f := fact k) in *. set (g := fact (n - S k)) in *.
      assert (E1 : a * (f * ((n - k) * g)) = fact n) by (rewrite <- H1; replace (n - k) with (S (n - S k)) by lia; cbn; ring).
      assert (E2 : b * ((S k * f) * g) = fact n) by (rewrite <- H2; cbn; ring).
      transitivity (S k * fact n + (n - k) * fact n); [|transitivity ((S k + (n - k)) * fact n); [ring|replace (S k + (n - k)) with (S n) by lia; cbn; ring]].
      rewrite <- E1 at 1. rewrite <- E2. replace (n - k) with (S (n - S k)) by lia. cbn. ring.
Qed.

(** C46: with p >= 1 partitions in n >= 1 dimensions: C(n+p-1, p) points, pairwise different, all of them grid points of the simplex, and
    every grid point of the simplex occurs *)
Theorem C46_das_dennis : forall p n, 1 <= p -> 1 <= n ->
  length (das_dennis p n) = binom (n + p - 1) p /\
  (forall x, In x (das_dennis p n) -> grid_point n p x) /\
  (forall x, grid_point n p x -> exists y, In y (das_dennis p n) /\ same_point x y) /\
  (forall i j, i < length (das_dennis p n) -> j < length (das_dennis p n) -> i <> j -> ~ same_point (nth i (das_dennis p n) []) (nth j (das_dennis p n) [])).
Proof.
  intros p n Hp Hn. unfold das_dennis. replace (p =? 0) with false by (symmetry; apply Nat.eqb_neq; lia). rewrite dd_rec_comp.
  destruct n as [|m]; [lia|]. replace (S m - 1) with m by lia. rewrite (map_ext (fun c => [] ++ map (frac p) c) (map (frac p))) by reflexivity.
  split; [rewrite map_length, comp_length; f_equal; lia|]. split; [|split].
  - intros x Hx. apply in_map_iff in Hx as (c & <- & Hc). apply comp_spec in Hc as [Hl Hs]. split; [split; [now rewrite map_length|split]|].
    + apply Forall_map, Forall_forall. intros i Hi. apply frac_range; auto. apply sum_ge_In in Hi. lia.
    + rewrite qsum_frac by auto. rewrite Hs. now apply frac_same.
    + apply Forall_map, Forall_forall. intros i _. exists i. reflexivity.
  - intros x [(Hl & Hr & Hs) Hg]. assert (HC : exists c, Forall2 (fun v i => (v == frac p i)%Q) x c).
    { clear -Hg. induction Hg as [|v x (i & Hv) _ (c & Hc)]; [exists []; constructor|]. exists (i :: c). constructor; auto. }
    destruct HC as (c & Hc). exists (map (frac p) c). split.
    + apply in_map, comp_spec. split; [rewrite <- Hl; symmetry; clear -Hc; induction Hc; cbn; congruence|].
      apply (frac_inj p); auto. rewrite <- qsum_frac by auto. rewrite frac_same by auto. rewrite <- Hs. clear -Hc. induction Hc as [|v i x c E _ IH]; cbn [map fold_right]; [reflexivity|]. now rewrite E, IH.
    + clear -Hc. unfold same_point. induction Hc; constructor; auto.
  - intros i j Hi Hj Hij HS. rewrite map_length in Hi, Hj. change (@nil Q) with (map (frac p) []) in HS. rewrite !map_nth in HS.
    apply Hij. apply (proj1 (NoDup_nth (comp m p) []) (comp_NoDup m p)); auto.
    revert HS. generalize (nth i (comp m p) []) (nth j (comp m p) []). intros a b. revert b. induction a as [|u a IH]; intros [|v b] HS; [reflexivity|inversion HS|inversion HS|].
    unfold same_point in HS. cbn [map] in HS. inversion HS as [|q1 q2 q3 q4 E1 E2 E3 E4]; subst. apply frac_inj in E1; auto. apply IH in E2. congruence.
Qed.
Print Assumptions C46_das_dennis.

(** C46: with zero partitions the single point is the centre *)
Theorem C46_zero : forall n, 1 <= n -> das_dennis 0 n = [repeat (frac n 1) n] /\ on_simplex n (repeat (frac n 1) n).
Proof.
  intros n Hn. split; [reflexivity|]. split; [apply repeat_length|]. split.
  - apply Forall_forall. intros v Hv. apply repeat_spec in Hv. subst. apply frac_range; lia.
  - assert (HE : forall k, repeat (frac n 1) k = map (frac n) (repeat 1 k)) by (induction k as [|k IH]; cbn; [reflexivity|now rewrite IH]).
    rewrite HE, qsum_frac by lia. assert (HS : forall k, list_sum (repeat 1 k) = k) by (induction k as [|k IH]; [reflexivity|]; cbn [repeat]; change (list_sum (1 :: repeat 1 k)) with (S (list_sum (repeat 1 k))); now rewrite IH). rewrite HS. apply frac_same. lia.
Qed.
Print Assumptions C46_zero.

(** C46: asking for a number of points is accepted exactly if there is a number of partitions giving that number, and then it is chosen *)
Theorem C46_n_points : forall n np n_partitions p, 2 <= n ->
  uniform_partitions n (Some np) n_partitions = Some p <-> np = binom (n + p - 1) p.
Proof.
  intros n np q p Hn. destruct n as [|m]; [lia|]. unfold uniform_partitions, closest_partition. replace (S m =? 1) with false by (symmetry; apply Nat.eqb_neq; lia).
  destruct (closest_go_spec m np ltac:(lia) (S np) 1) as (p0 & -> & _ & H1 & H2); try lia. fold (n_uniform p (S m)). split.
  - destruct (n_uniform p0 (S m) =? np) eqn:E; [|discriminate]. intros H. injection H as <-. apply Nat.eqb_eq in E. auto.
  - intros ->. assert (HM : forall a b, n_uniform a (S m) = n_uniform b (S m) -> a = b).
    { intros a b E. destruct (Nat.lt_trichotomy a b) as [H|[H|H]]; auto; apply (n_uniform_mono m) in H; lia. }
    assert (p0 = p).
    { destruct (Nat.lt_trichotomy p0 p) as [H|[H|H]]; auto.
      - exfalso. destruct (Nat.eq_dec (S p0) p) as [<-|Hne]; [lia|]. pose proof (n_uniform_mono m (S p0) p ltac:(lia) ltac:(lia)). lia.
      - pose proof (n_uniform_mono m p p0 ltac:(lia) H). specialize (H1 ltac:(lia)). lia. }
    subst p0. now rewrite Nat.eqb_refl.
Qed.
Print Assumptions C46_n_points.

Lemma scale_sum s x : x <> [] -> (fold_right Qplus 0 (scale_row s x) == fold_right Qplus 0 x * s + (1 - s))%Q.
Proof.
  intros Hx. assert (HG : forall k (l : list Q), ~ (k == 0)%Q -> (fold_right Qplus 0 (map (fun v => v * s + (1 - s) / k)%Q l) == fold_right Qplus 0%Q l * s + inject_Z (Z.of_nat (length l)) * ((1 - s) / k))%Q).
  { intros k l Hk. induction l as [|v l IH]; [cbn; ring|]. cbn [map fold_right length]. rewrite IH. rewrite Nat2Z.inj_succ. unfold Z.succ. rewrite inject_Z_plus. field. auto. }
  unfold scale_row. assert (Hk : ~ (inject_Z (Z.of_nat (length x)) == 0)%Q) by (destruct x; [congruence|unfold Qeq; cbn; lia]). rewrite HG by auto. field. auto.
Qed.
Lemma scale_simplex s n x : (0 <= s)%Q -> (s <= 1)%Q -> 1 <= n -> on_simplex n x -> on_simplex n (scale_row s x).
Proof.
  intros H0 H1 Hn (Hl & Hr & Hs). assert (Hx : x <> []) by (intros ->; cbn in Hl; lia). split; [unfold scale_row; now rewrite map_length|]. split.
  - unfold scale_row. apply Forall_map. eapply Forall_impl; [|exact Hr]. intros v [Hv0 Hv1]. cbn beta. rewrite Hl.
    assert (Hk : (1 <= inject_Z (Z.of_nat n))%Q) by (unfold Qle; cbn; lia).
    assert (Hd : (0 <= (1 - s) / inject_Z (Z.of_nat n))%Q) by (apply Qle_shift_div_l; lra).
    assert (Hd2 : ((1 - s) / inject_Z (Z.of_nat n) <= 1 - s)%Q) by (apply Qle_shift_div_r; [lra|nra]). split; nra.
  - rewrite scale_sum by auto. rewrite Hs. ring.
Qed.
(** C46: what the factory returns (scaling and sorting included): the right number of points, all on the simplex, the unscaled ones
    being the Das-Dennis points in some order *)
Theorem C46_factory : forall n n_points n_partitions p scaling lexsort, 2 <= n ->
  uniform_partitions n n_points n_partitions = Some p ->
  (forall s, scaling = Some s -> (0 <= s)%Q /\ (s <= 1)%Q) ->
  (forall ls r, lexsort = Some ls -> Permutation (ls r) (seq 0 (length r))) ->
  let R := factory_do n (das_dennis p n) scaling lexsort in
  length R = (if p =? 0 then 1 else binom (n + p - 1) p) /\ Forall (on_simplex n) R /\
  Permutation R (match scaling with None => das_dennis p n | Some s => map (scale_row s) (das_dennis p n) end) /\
  (forall np, n_points = Some np -> length R = np).
Proof.
  intros n np npart p scaling lexsort Hn HU Hs Hl R.
  assert (HP : Permutation R (match scaling with None => das_dennis p n | Some s => map (scale_row s) (das_dennis p n) end)).
  { unfold R, factory_do. replace (n =? 1) with false by (symmetry; apply Nat.eqb_neq; lia). set (r := match scaling with None => _ | Some s => _ end).
    destruct lexsort as [ls|]; [|reflexivity]. specialize (Hl ls r eq_refl). rewrite (Permutation_map (fun i => nth i r []) Hl). change (Permutation (gather [] r (seq 0 (length r))) r). now rewrite gather_seq. }
  assert (HL : length (das_dennis p n) = if p =? 0 then 1 else binom (n + p - 1) p).
  { destruct (p =? 0) eqn:E; [apply Nat.eqb_eq in E; subst; reflexivity|]. apply Nat.eqb_neq in E. apply C46_das_dennis; lia. }
  assert (HLR : length R = if p =? 0 then 1 else binom (n + p - 1) p) by (rewrite (Permutation_length HP); destruct scaling; rewrite ?map_length; auto).
  split; auto. split; [|split; auto].
  - assert (HD : Forall (on_simplex n) (das_dennis p n)).
    { apply Forall_forall. intros x Hx. destruct (Nat.eq_dec p 0) as [->|E].
      - rewrite (proj1 (C46_zero n ltac:(lia))) in Hx. destruct Hx as [<-|[]]. apply C46_zero; lia.
      - apply (proj1 (proj2 (C46_das_dennis p n ltac:(lia) ltac:(lia)))) in Hx. apply Hx. }
    rewrite HP. destruct scaling as [s|]; auto. destruct (Hs s eq_refl). apply Forall_map. eapply Forall_impl; [|exact HD]. intros x Hx. apply scale_simplex; auto. lia.
  - intros k ->. cbn in HU. rewrite HLR. assert (HK : k = binom (n + p - 1) p) by (apply (C46_n_points n k npart p Hn); exact HU). destruct (p =? 0) eqn:E; auto. apply Nat.eqb_eq in E. subst p. rewrite binom_0 in HK. auto.
Qed.
Print Assumptions C46_factory.

(** C46: the incremental generator: a sequence of calls next(k1), next(k2), ... ([None]: all the rest) *)
Fixpoint nexts (p n : nat) (scaling : option Q) (ks : list (option nat)) (stack : list (list Q * nat)) : list (list (list Q)) * list (list Q * nat) :=
  match ks with
  | [] => ([], stack)
  | k :: ks => let '(out, st) := dd_next p n scaling k stack in let '(outs, st') := nexts p n scaling ks st in (out :: outs, st')
  end.
Lemma pending_nil p n sc st : stack_ok n st -> pending p n sc st = [] -> st = [].
Proof.
  intros HO H. destruct st as [|[pt b] st]; auto. exfalso. unfold pending in H. cbn [flat_map fst snd] in H. apply app_eq_nil in H as [H _]. revert H. generalize (n - 1 - length pt). intros m.
  clear. revert pt b. induction m as [|m IH]; intros pt b; [discriminate|]. cbn [desc]. rewrite seq_S. cbn [Nat.add]. rewrite rev_app_distr. cbn [rev app flat_map]. intros H. apply app_eq_nil in H as [H _]. eapply IH; eauto.
Qed.
Lemma dd_next_spec p n sc k st : 1 <= p -> stack_ok n st -> let '(out, st') := dd_next p n sc k st in
  stack_ok n st' /\ out ++ pending p n sc st' = pending p n sc st /\ out = (match k with None => pending p n sc st | Some k => firstn k (pending p n sc st) end).
Proof.
  intros Hp HO. unfold dd_next. replace (p =? 0) with false by (symmetry; apply Nat.eqb_neq; lia).
  pose proof (traverse_spec p n sc (S (stack_nodes n st)) k 0 st HO ltac:(lia)) as H. destruct (traverse _ p n sc k 0 st) as [out st']. destruct H as (H1 & H2 & H3). split; auto. split; auto.
  destruct k as [k|].
  - destruct H3 as [H3 H4]. specialize (H3 ltac:(lia)). rewrite Nat.sub_0_r in H3. rewrite <- H2. destruct (Nat.eq_dec (length out) k) as [<-|E].
    + now rewrite firstn_app, Nat.sub_diag, firstn_all, firstn_O, app_nil_r.
    + assert (st' = []) by (destruct st'; auto; specialize (H4 ltac:(discriminate)); lia). subst st'. cbn [pending flat_map]. rewrite app_nil_r. now rewrite firstn_all2 by lia.
  - subst st'. cbn [pending flat_map] in H2. now rewrite app_nil_r in H2.
Qed.
Theorem C46_incremental : forall p n scaling ks outs st, 1 <= p -> 1 <= n -> nexts p n scaling ks (dd_init p) = (outs, st) ->
  let all := rev (map (fun x => match scaling with None => x | Some s => scale_row s x end) (das_dennis p n)) in
  (exists rest, concat outs ++ rest = all /\ (has_next st = false <-> rest = [])) /\
  length outs = length ks /\
  (forall i, i < length ks -> nth i outs [] =
     let done := length (concat (firstn i outs)) in match nth i ks None with None => skipn done all | Some k => firstn k (skipn done all) end).
Proof.
  intros p n sc ks outs st Hp Hn H all.
  assert (HO : stack_ok n (dd_init p)) by (constructor; [cbn; lia|constructor]).
  assert (HA : pending p n sc (dd_init p) = all).
  { unfold pending, dd_init. cbn [flat_map fst snd length]. rewrite app_nil_r, Nat.sub_0_r, desc_rev. unfold all, das_dennis. replace (p =? 0) with false by (symmetry; apply Nat.eqb_neq; lia). reflexivity. }
  assert (HG : forall ks st0 outs st, stack_ok n st0 -> nexts p n sc ks st0 = (outs, st) ->
    stack_ok n st /\ concat outs ++ pending p n sc st = pending p n sc st0 /\ length outs = length ks /\
    forall i, i < length ks -> nth i outs [] = let done := length (concat (firstn i outs)) in match nth i ks None with None => skipn done (pending p n sc st0) | Some k => firstn k (skipn done (pending p n sc st0)) end).
  { clear -Hp. intros ks. induction ks as [|k ks IH]; intros st0 outs st HO H; cbn [nexts] in H.
    - injection H as <- <-. split; auto. split; [reflexivity|]. split; auto. intros i Hi. cbn in Hi. lia.
    - destruct (dd_next p n sc k st0) as [out st1] eqn:E1. destruct (nexts p n sc ks st1) as [outs' st2] eqn:E2. injection H as <- <-.
      pose proof (dd_next_spec p n sc k st0 Hp HO) as HN. rewrite E1 in HN. destruct HN as (N1 & N2 & N3).
      destruct (IH st1 outs' st2 N1 E2) as (I1 & I2 & I3 & I4). split; auto. split; [cbn [concat]; rewrite <- app_assoc, I2; exact N2|]. split; [cbn; congruence|].
      intros [|i] Hi; [exact N3|]. cbn [nth firstn concat]. rewrite I4 by (cbn in Hi; lia). cbv zeta. rewrite app_length, <- N2.
      rewrite skipn_app. replace (length out + length (concat (firstn i outs')) - length out) with (length (concat (firstn i outs'))) by lia.
      rewrite (skipn_all2 out) by lia. reflexivity. }
  destruct (HG ks (dd_init p) outs st HO H) as (G1 & G2 & G3 & G4). rewrite HA in G2, G4. split; [|split; auto].
  exists (pending p n sc st). split; auto. unfold has_next. split.
  - intros E. apply Nat.ltb_ge in E. destruct st; [reflexivity|cbn in E; lia].
  - intros E. apply pending_nil in E; auto. subst. reflexivity.
Qed.
Print Assumptions C46_incremental.

(** C46 is false of the incremental generator with zero partitions: no point is ever produced, and it never says it is finished *)
Theorem C46_incremental_zero_refuted : forall n scaling ks outs st, nexts 0 n scaling ks (dd_init 0) = (outs, st) -> concat outs = [] /\ has_next st = true.
Proof.
  intros n sc ks. assert (HG : forall st0 outs st, nexts 0 n sc ks st0 = (outs, st) -> concat outs = [] /\ st = st0).
  { induction ks as [|k ks IH]; intros st0 outs st H; cbn in H; [injection H as <- <-; auto|]. destruct (nexts 0 n sc ks st0) as [outs' st'] eqn:E. injection H as <- <-.
    apply IH in E as [E1 E2]. cbn. auto. }
  intros outs st H. apply HG in H as [H1 ->]. auto.
Qed.
Print Assumptions C46_incremental_zero_refuted.

(** ** C55: mapping random rows onto the unit simplex *)
Lemma qsum_div l d : ~ (d == 0)%Q -> (fold_right Qplus 0 (map (fun v => v / d)%Q l) == fold_right Qplus 0 l / d)%Q.
Proof. intros Hd. induction l as [|v l IH]; cbn [map fold_right]; [field; auto|]. rewrite IH. field. auto. Qed.
Lemma qsum_ge l : Forall (fun v => 0 <= v)%Q l -> (0 <= fold_right Qplus 0 l)%Q /\ Forall (fun v => v <= fold_right Qplus 0 l)%Q l.
Proof.
  induction l as [|v l IH]; intros H; cbn [fold_right]; [split; [lra|constructor]|]. inversion H; subst. destruct (IH H3) as [I1 I2]. split; [lra|]. constructor; [lra|].
  eapply Forall_impl; [|exact I2]. intros w Hw. cbn beta in Hw. lra.
Qed.
Theorem C55_sum : forall r n, length r = n -> Forall (fun v => 0 <= v)%Q r -> (0 < fold_right Qplus 0 r)%Q -> on_simplex n (map_sum r).
Proof.
  intros r n Hl Hr Hs. unfold map_sum, qsum_. destruct (qsum_ge r Hr) as [H1 H2]. split; [now rewrite map_length|]. split.
  - apply Forall_map. rewrite Forall_forall in *. intros v Hv. split; [apply Qle_shift_div_l; auto; specialize (Hr v Hv); lra|apply Qle_shift_div_r; auto; specialize (H2 v Hv); cbn beta in H2; lra].
  - rewrite qsum_div by lra. field. lra.
Qed.
Print Assumptions C55_sum.

Lemma last_cons (s : list Q) : forall a b, last (b :: s) a = last s b.
Proof. induction s as [|x s IH]; intros a b; [reflexivity|]. change (last (b :: x :: s) a) with (last (x :: s) a). now rewrite !IH. Qed.
Lemma diffs_length l : length (diffs l) = length l - 1.
Proof. induction l as [|a [|b l] IH]; auto. change (diffs (a :: b :: l)) with ((b - a)%Q :: diffs (b :: l)). change (length ((b - a)%Q :: diffs (b :: l))) with (S (length (diffs (b :: l)))). rewrite IH. cbn [length]. lia. Qed.
Lemma diffs_sum a l : (fold_right Qplus 0 (diffs (a :: l)) == last l a - a)%Q.
Proof.
  revert a. induction l as [|b l IH]; intros a; [cbn; ring|]. change (diffs (a :: b :: l)) with ((b - a)%Q :: diffs (b :: l)). cbn [fold_right]. rewrite IH.
  destruct l as [|c l]; [cbn; ring|]. change (last (b :: c :: l) a) with (last (c :: l) a). assert (E : last (c :: l) b = last (c :: l) a) by (clear; revert c; induction l as [|x l IH]; intros c; [reflexivity|apply IH]). rewrite E. ring.
Qed.
Lemma diffs_range l lo hi : StronglySorted Qle l -> Forall (fun v => lo <= v /\ v <= hi)%Q l -> Forall (fun v => 0 <= v /\ v <= hi - lo)%Q (diffs l).
Proof.
  intros HS HF. induction HS as [|a l HS IH Ha]; [constructor|]. inversion HF; subst. destruct l as [|b l]; [constructor|].
  change (diffs (a :: b :: l)) with ((b - a)%Q :: diffs (b :: l)). constructor; [|apply IH; auto]. inversion Ha; subst. inversion H2; subst. lra.
Qed.
(** contract of np.sort *)
Definition sort_ok (sort : list Q -> list Q) : Prop := forall l, Permutation l (sort l) /\ StronglySorted Qle (sort l).
Theorem C55_kraemer : forall sort M r n, sort_ok sort -> (0 < M)%Q -> 1 <= n -> length r = n -> Forall (fun v => 0 <= v /\ v <= 1)%Q r -> on_simplex n (map_kraemer sort M r).
Proof.
  intros sort M r n HS HM Hn Hl Hr. unfold map_kraemer. set (row := 0%Q :: map (fun v => v * M)%Q (firstn (length r - 1) r) ++ [M]). destruct (HS row) as [HP HSS].
  assert (HF : Forall (fun v => 0 <= v /\ v <= M)%Q row).
  { unfold row. constructor; [lra|]. apply Forall_app. split; [|repeat constructor; lra]. apply Forall_map. apply Forall_forall. intros v Hv.
    assert (Hin : In v r) by (rewrite <- (firstn_skipn (length r - 1) r); apply in_or_app; auto). rewrite Forall_forall in Hr. specialize (Hr v Hin). nra. }
  rewrite HP in HF. assert (HLR : length (sort row) = S n).
  { rewrite <- (Permutation_length HP). unfold row. cbn [length]. rewrite app_length, map_length, firstn_length, Hl. cbn. lia. }
  set (s := sort row) in *. assert (HD : Forall (fun v => 0 <= v /\ v <= M)%Q (diffs s)) by (pose proof (diffs_range s 0 M HSS HF) as HD; eapply Forall_impl; [|exact HD]; intros v Hv; cbn beta in Hv; lra).
  split; [rewrite map_length, diffs_length; lia|]. split.
  - apply Forall_map. eapply Forall_impl; [|exact HD]. intros v [H0 H1]. split; [apply Qle_shift_div_l; lra|apply Qle_shift_div_r; lra].
  - rewrite qsum_div by lra. destruct s as [|a s]; [discriminate|]. rewrite diffs_sum.
    (* the smallest is 0, the largest M *)
    assert (Ha : (a == 0)%Q).
    { inversion HF; subst. assert (H0 : In 0%Q (a :: s)) by (apply (Permutation_in _ HP); left; auto). destruct H0 as [H0|H0]; [now rewrite H0|]. inversion HSS as [|? ? HS1 HS2]; subst. rewrite Forall_forall in HS2. specialize (HS2 _ H0). lra. }
    assert (Hb : (last s a == M)%Q).
    { assert (HM2 : In M (a :: s)) by (apply (Permutation_in _ HP); unfold row; right; apply in_or_app; right; left; auto).
      assert (HLast : In (last s a) (a :: s)) by (clear; revert a; induction s as [|b s IH]; intros a; [left; auto|]; destruct s as [|c s]; [right; left; auto|]; right; specialize (IH b); change (last (b :: c :: s) a) with (last (c :: s) a); assert (E : last (c :: s) b = last (c :: s) a) by (clear; revert c; induction s as [|x s IH]; intros c; [reflexivity|apply IH]); now rewrite <- E).
      rewrite Forall_forall in HF. destruct (HF _ HLast) as [_ Hle].
      assert (HMax : forall x, In x (a :: s) -> (x <= last s a)%Q).
      { clear -HSS. revert a HSS. induction s as [|b s IH]; intros a HSS x Hx; [destruct Hx as [->|[]]; cbn; lra|]. inversion HSS as [|? ? H1 H2]; subst.
        rewrite last_cons.
        destruct Hx as [->|Hx]; [|apply IH; auto]. inversion H2; subst. specialize (IH b H1 b (or_introl eq_refl)). lra. }
      specialize (HMax M HM2). lra. }
    rewrite Hb, Ha. field. lra.
Qed.
Print Assumptions C55_kraemer.

(** the hypotheses are met: three objectives, four partitions *)
Example C46_case : length (das_dennis 4 3) = 15 /\ binom (3 + 4 - 1) 4 = 15 /\ uniform_partitions 3 (Some 15) None = Some 4 /\ uniform_partitions 3 (Some 16) None = None /\
  map (@length (list Q)) (fst (nexts 4 3 None [Some 6; Some 6; Some 6] (dd_init 4))) = [6; 6; 3].
Proof. vm_compute. auto. Qed.
Fixpoint qinsert (x : Q) (l : list Q) : list Q := match l with [] => [x] | y :: l => if Qle_bool x y then x :: y :: l else y :: qinsert x l end.
Definition qsort (l : list Q) : list Q := fold_right qinsert [] l.
Lemma qsort_ok : sort_ok qsort.
Proof.
  intros l. assert (HP : forall x l, Permutation (x :: l) (qinsert x l)).
  { intros x m. induction m as [|y m IH]; cbn [qinsert]; auto. destruct (Qle_bool x y); auto. rewrite <- IH. apply perm_swap. }
  split.
  - induction l as [|x l IH]; cbn [qsort fold_right]; auto. rewrite <- HP. constructor. exact IH.
  - induction l as [|x l IH]; cbn [qsort fold_right]; [constructor|]. fold (qsort l). revert IH. generalize (qsort l). intros m Hm. induction Hm as [|y m Hm IH Hy]; cbn [qinsert]; [repeat constructor|].
    destruct (Qle_bool x y) eqn:E.
    + apply Qle_bool_iff in E. constructor; [constructor; auto|]. constructor; auto. eapply Forall_impl; [|exact Hy]. intros z Hz. cbn beta in Hz. lra.
    + constructor; auto. rewrite <- HP. constructor; auto. destruct (Qlt_le_dec y x) as [H|H]; [lra|]. apply Qle_bool_iff in H. congruence.
Qed.
Example C55_case : sort_ok qsort /\ Forall2 Qeq (map_kraemer qsort 100 [1 # 2; 1 # 4; 3 # 4]%Q) [1 # 4; 1 # 4; 1 # 2]%Q.
Proof. split; [apply qsort_ok|]. vm_compute. repeat constructor. Qed.
