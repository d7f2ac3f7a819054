(** * C69: max_alpha and Nelder-Mead *)
From Coq Require Import List Arith Bool ZArith QArith Lia Lqa Permutation Sorted.
From Verif Require Import ListAux M_Individual M_Survival M_RefDirs2 M_Nelder S_Local S_Crowding Thm_Crowding.
Import ListNotations.
Local Open Scope nat_scope.

Lemma Qle_bool_false a b : Qle_bool a b = false -> (b < a)%Q.
Proof. intros H. apply Qnot_le_lt. intros C. apply Qle_bool_iff in C. congruence. Qed.
Ltac qcase := match goal with
  | H : Qle_bool _ _ = true |- _ => apply Qle_bool_iff in H
  | H : Qle_bool _ _ = false |- _ => apply Qle_bool_false in H
  | H : Qeq_bool _ _ = true |- _ => apply Qeq_bool_iff in H
  | H : Qeq_bool _ _ = false |- _ => apply Qeq_bool_neq in H
  end.

(** ** the comparison *)
Lemma better_iff a b : better a b = true <-> strictly_better a b.
Proof.
  unfold better, is_better, strictly_better, n_feas. destruct (Qle_bool (n_cv b) 0) eqn:Eb, (Qle_bool (n_cv a) 0) eqn:Ea; cbn [negb andb];
  try destruct (Qle_bool (n_cv b - n_cv a) 0) eqn:Ec; try destruct (Qle_bool (n_f b - n_f a) 0) eqn:Ef; cbn [negb]; repeat qcase;
  (split; [intros H; try discriminate; try (left; split; lra); try (right; repeat split; lra)|intros [[H1 H2]|(H1 & H2 & H3)]; auto; exfalso; lra]).
Qed.
Lemma not_better a b : better a b = false -> at_least_as_good b a.
Proof. intros H C. apply better_iff in C. congruence. Qed.
Lemma better_good a b : strictly_better a b -> at_least_as_good a b.
Proof. unfold at_least_as_good, strictly_better. lra. Qed.
Lemma good_refl a : at_least_as_good a a.
Proof. unfold at_least_as_good, strictly_better. lra. Qed.
Lemma good_trans a b c : at_least_as_good a b -> at_least_as_good b c -> at_least_as_good a c.
Proof.
  unfold at_least_as_good, strictly_better. intros H1 H2 H3.
  destruct (Qlt_le_dec 0 (n_cv a)), (Qlt_le_dec 0 (n_cv b)), (Qlt_le_dec 0 (n_cv c)), (Qlt_le_dec (n_cv b) (n_cv a)), (Qlt_le_dec (n_cv c) (n_cv b)),
    (Qlt_le_dec (n_f b) (n_f a)), (Qlt_le_dec (n_f c) (n_f b)); try lra; try (apply H1; lra); try (apply H2; lra).
Qed.
Lemma better_good_trans a b c : strictly_better a b -> at_least_as_good b c -> strictly_better a c.
Proof.
  unfold at_least_as_good, strictly_better. intros H1 H2.
  destruct (Qlt_le_dec 0 (n_cv a)), (Qlt_le_dec 0 (n_cv b)), (Qlt_le_dec 0 (n_cv c)), (Qlt_le_dec (n_cv a) (n_cv b)), (Qlt_le_dec (n_cv c) (n_cv b)),
    (Qlt_le_dec (n_f a) (n_f b)), (Qlt_le_dec (n_f c) (n_f b)); try lra; try (exfalso; apply H2; lra).
Qed.

(** ** sorting *)
Definition kle (a b : nind) : Prop := key_le a b = true.
Lemma kle_iff a b : kle a b <-> ((n_cv a < n_cv b)%Q \/ ((n_cv a == n_cv b)%Q /\ (n_f a <= n_f b)%Q)).
Proof.
  unfold kle, key_le. destruct (Qle_bool (n_cv b) (n_cv a)) eqn:E1, (Qle_bool (n_cv a) (n_cv b)) eqn:E2; cbn [negb]; repeat qcase.
  - rewrite Qle_bool_iff. lra.
  - split; [discriminate|lra].
  - split; auto; lra.
  - split; auto; lra.
Qed.
Lemma kle_good a b : (0 <= n_cv a)%Q -> (0 <= n_cv b)%Q -> kle a b -> at_least_as_good a b.
Proof. rewrite kle_iff. unfold at_least_as_good, strictly_better. lra. Qed.
Lemma kle_total a b : kle a b \/ kle b a.
Proof. rewrite !kle_iff. destruct (Qlt_le_dec (n_cv a) (n_cv b)), (Qlt_le_dec (n_cv b) (n_cv a)), (Qlt_le_dec (n_f b) (n_f a)); lra. Qed.
Lemma kle_trans a b c : kle a b -> kle b c -> kle a c.
Proof. rewrite !kle_iff. lra. Qed.
Lemma insert_perm a l : Permutation (a :: l) (insert_ind a l).
Proof.
  induction l as [|b l IH]; cbn [insert_ind]; auto. destruct (key_le a b); auto. etransitivity; [apply perm_swap|]. now constructor.
Qed.
Lemma sort_perm l : Permutation l (fitness_sort l).
Proof. induction l as [|a l IH]; cbn; auto. etransitivity; [|apply insert_perm]. now constructor. Qed.
Lemma insert_sorted a l : StronglySorted kle l -> StronglySorted kle (insert_ind a l).
Proof.
  induction 1 as [|b l Hl IH Hb]; cbn [insert_ind]; [repeat constructor|]. destruct (key_le a b) eqn:E.
  - constructor; [constructor; auto|]. constructor; [exact E|]. eapply Forall_impl; [|exact Hb]. intros c Hc. now apply (kle_trans a b c).
  - constructor; [exact IH|]. assert (kle b a) by (destruct (kle_total a b) as [H|H]; auto; unfold kle in H; congruence).
    apply Forall_forall. intros c Hc. apply (Permutation_in c (Permutation_sym (insert_perm a l))) in Hc. destruct Hc as [<-|Hc]; auto.
    rewrite Forall_forall in Hb. auto.
Qed.
Lemma sort_sorted l : StronglySorted kle (fitness_sort l).
Proof. induction l as [|a l IH]; cbn; [constructor|]. now apply insert_sorted. Qed.
Lemma sorted_head l a : StronglySorted kle l -> Forall (fun a => 0 <= n_cv a)%Q l -> In a l -> at_least_as_good (nth 0 l nind0) a.
Proof.
  intros HS HC Ha. destruct HS as [|b l HS Hb]; [destruct Ha|]. cbn [nth]. destruct Ha as [<-|Ha]; [apply good_refl|].
  inversion HC as [|? ? H1 H2]; subst. rewrite Forall_forall in Hb, H2. apply kle_good; auto.
Qed.
Lemma sorted_nth l i j : StronglySorted kle l -> i < j < length l -> kle (nth i l nind0) (nth j l nind0).
Proof.
  intros HS. revert i j. induction HS as [|b l HS IH Hb]; intros i j Hij; cbn [length] in Hij; [lia|]. destruct j as [|j]; [lia|]. destruct i as [|i]; cbn [nth].
  - rewrite Forall_forall in Hb. apply Hb. apply nth_In. lia.
  - apply IH. lia.
Qed.

(** ** vectors and boxes *)
Lemma nth_vadd x y j : j < length x -> length y = length x -> nth j (vadd x y) 0%Q = (nth j x 0 + nth j y 0)%Q.
Proof. intros H1 H2. apply nth_map2; lia. Qed.
Lemma nth_vsub x y j : j < length x -> length y = length x -> nth j (vsub x y) 0%Q = (nth j x 0 - nth j y 0)%Q.
Proof. intros H1 H2. apply nth_map2; lia. Qed.
Lemma nth_vscale t x j : j < length x -> nth j (vscale t x) 0%Q = (t * nth j x 0)%Q.
Proof. intros H. unfold vscale. rewrite (nth_indep (map (Qmult t) x) 0%Q (t * 0)%Q) by (now rewrite map_length). now rewrite map_nth. Qed.
Lemma len_vadd x y : length y = length x -> length (vadd x y) = length x.
Proof. intros H. unfold vadd. rewrite length_map2. lia. Qed.
Lemma len_vsub x y : length y = length x -> length (vsub x y) = length x.
Proof. intros H. unfold vsub. rewrite length_map2. lia. Qed.
Lemma len_vscale t x : length (vscale t x) = length x.
Proof. apply map_length. Qed.
Lemma along_make x d t : length d = length x -> along x d t (vadd x (vscale t d)).
Proof.
  intros H. split; [now apply len_vadd; rewrite len_vscale|]. intros j Hj. rewrite nth_vadd, nth_vscale by (rewrite ?len_vscale; lia). reflexivity.
Qed.
Lemma in_box_ext n b x y : in_box n b x -> length y = n -> (forall j, j < n -> (nth j y 0 == nth j x 0)%Q) -> in_box n b y.
Proof.
  intros (H1 & H2 & H3) Hl He. split; [exact Hl|]. split.
  - intros xl E j Hj. rewrite (He j Hj). eauto.
  - intros xu E j Hj. rewrite (He j Hj). eauto.
Qed.
Lemma to_bounds_id n b x : bounds_ok n b -> in_box n b x -> to_bounds b x = x.
Proof.
  intros (B1 & B2) (H1 & H2 & H3). unfold to_bounds.
  assert (E1 : match fst b with Some xl => map2 (fun x l => if Qle_bool l x then x else l) x xl | None => x end = x).
  { destruct (fst b) as [xl|]; auto. specialize (B1 xl eq_refl). specialize (H2 xl eq_refl).
    apply nth_ext with 0%Q 0%Q; [rewrite length_map2; lia|]. intros j Hj. rewrite length_map2 in Hj. rewrite (nth_map2 _ x xl j 0%Q 0%Q 0%Q) by lia.
    specialize (H2 j ltac:(lia)). apply Qle_bool_iff in H2. now rewrite H2. }
  rewrite E1. destruct (snd b) as [xu|]; auto. specialize (B2 xu eq_refl). specialize (H3 xu eq_refl).
  apply nth_ext with 0%Q 0%Q; [rewrite length_map2; lia|]. intros j Hj. rewrite length_map2 in Hj. rewrite (nth_map2 _ x xu j 0%Q 0%Q 0%Q) by lia.
  specialize (H3 j ltac:(lia)). apply Qle_bool_iff in H3. now rewrite H3.
Qed.
(** clipping always ends in the box, provided the bounds are ordered *)
Lemma to_bounds_in n b x : bounds_ok n b -> (exists y, in_box n b y) -> length x = n -> in_box n b (to_bounds b x).
Proof.
  intros (B1 & B2) (y & Y1 & Y2 & Y3) Hx. unfold to_bounds.
  set (x1 := match fst b with Some xl => map2 (fun x l => if Qle_bool l x then x else l) x xl | None => x end).
  assert (L1 : length x1 = n) by (unfold x1; destruct (fst b) as [xl|]; auto; rewrite length_map2, (B1 xl eq_refl); lia).
  assert (H1 : forall xl, fst b = Some xl -> forall j, j < n -> (nth j xl 0 <= nth j x1 0)%Q).
  { intros xl E j Hj. unfold x1. rewrite E. rewrite (nth_map2 _ x xl j 0%Q 0%Q 0%Q) by (rewrite ?(B1 xl E); lia). destruct (Qle_bool _ _) eqn:Eq; qcase; lra. }
  destruct (snd b) as [xu|] eqn:Eu; [|split; [exact L1|split; [exact H1|intros ? E; congruence]]]. specialize (B2 xu eq_refl).
  split; [rewrite length_map2; lia|]. split.
  - intros xl E j Hj. rewrite (nth_map2 _ x1 xu j 0%Q 0%Q 0%Q) by lia. specialize (H1 xl E j Hj). specialize (Y2 xl E j Hj). specialize (Y3 xu eq_refl j Hj).
    destruct (Qle_bool _ _); lra.
  - intros xu' E j Hj. rewrite Eu in E. injection E as <-. rewrite (nth_map2 _ x1 xu j 0%Q 0%Q 0%Q) by lia. destruct (Qle_bool _ _) eqn:Eq; qcase; lra.
Qed.
Lemma convex_in n b x y z s : in_box n b x -> in_box n b y -> (0 <= s <= 1)%Q -> length z = n -> (forall j, j < n -> (nth j z 0 == nth j x 0 + s * (nth j y 0 - nth j x 0))%Q) -> in_box n b z.
Proof.
  intros (X1 & X2 & X3) (Y1 & Y2 & Y3) Hs Hl Hz. split; [exact Hl|]. split.
  - intros xl E j Hj. rewrite (Hz j Hj). specialize (X2 xl E j Hj). specialize (Y2 xl E j Hj).
    assert (0 <= (1 - s) * (nth j x 0 - nth j xl 0))%Q by (apply Qmult_le_0_compat; lra). assert (0 <= s * (nth j y 0 - nth j xl 0))%Q by (apply Qmult_le_0_compat; lra). lra.
  - intros xu E j Hj. rewrite (Hz j Hj). specialize (X3 xu E j Hj). specialize (Y3 xu E j Hj).
    assert (0 <= (1 - s) * (nth j xu 0 - nth j x 0))%Q by (apply Qmult_le_0_compat; lra). assert (0 <= s * (nth j xu 0 - nth j y 0))%Q by (apply Qmult_le_0_compat; lra). lra.
Qed.
Lemma mean_in n b pop : 1 <= length pop -> Forall (fun a => in_box n b (n_x a)) pop -> in_box n b (mean n pop).
Proof.
  intros Hp HF. assert (P : (0 < inject_Z (Z.of_nat (length pop)))%Q) by (change 0%Q with (inject_Z 0); rewrite <- Zlt_Qlt; lia).
  rewrite Forall_forall in HF. split; [unfold mean; now rewrite map_length, seq_length|].
  assert (E : forall j, j < n -> nth j (mean n pop) 0%Q = (qsum (map (fun a => nth j (n_x a) 0%Q) pop) / inject_Z (Z.of_nat (length pop)))%Q).
  { intros j Hj. unfold mean. match goal with |- nth j (map ?f _) _ = _ => rewrite (nth_indep _ 0%Q (f 0)) by (now rewrite map_length, seq_length); rewrite (map_nth f) end. now rewrite seq_nth. }
  split.
  - intros xl El j Hj. rewrite (E j Hj). apply Qle_shift_div_l; [exact P|].
    enough (inject_Z (Z.of_nat (length pop)) * nth j xl 0 <= qsum (map (fun a => nth j (n_x a) 0%Q) pop))%Q by lra.
    assert (A : forall l, (forall a, In a l -> (nth j xl 0 <= nth j (n_x a) 0)%Q) -> (inject_Z (Z.of_nat (length l)) * nth j xl 0 <= qsum (map (fun a => nth j (n_x a) 0%Q) l))%Q).
    { induction l as [|a l IH]; intros Ha; [cbn [length map qsum fold_right]; change (inject_Z (Z.of_nat 0)) with 0%Q; lra|]. cbn [length map qsum fold_right]. fold (qsum (map (fun a => nth j (n_x a) 0%Q) l)).
      rewrite Nat2Z.inj_succ, <- Z.add_1_l, inject_Z_plus. change (inject_Z 1) with 1%Q. specialize (IH (fun a' H => Ha a' (or_intror H))). specialize (Ha a (or_introl eq_refl)). lra. }
    apply A. intros a Ha. destruct (HF a Ha) as (_ & H2 & _). eauto.
  - intros xu Eu j Hj. rewrite (E j Hj). apply Qle_shift_div_r; [exact P|].
    enough (qsum (map (fun a => nth j (n_x a) 0%Q) pop) <= inject_Z (Z.of_nat (length pop)) * nth j xu 0)%Q by lra.
    assert (A : forall l, (forall a, In a l -> (nth j (n_x a) 0 <= nth j xu 0)%Q) -> (qsum (map (fun a => nth j (n_x a) 0%Q) l) <= inject_Z (Z.of_nat (length l)) * nth j xu 0)%Q).
    { induction l as [|a l IH]; intros Ha; [cbn [length map qsum fold_right]; change (inject_Z (Z.of_nat 0)) with 0%Q; lra|]. cbn [length map qsum fold_right]. fold (qsum (map (fun a => nth j (n_x a) 0%Q) l)).
      rewrite Nat2Z.inj_succ, <- Z.add_1_l, inject_Z_plus. change (inject_Z 1) with 1%Q. specialize (IH (fun a' H => Ha a' (or_intror H))). specialize (Ha a (or_introl eq_refl)). lra. }
    apply A. intros a Ha. destruct (HF a Ha) as (_ & _ & H3). eauto.
Qed.

(** ** max_alpha *)
Definition ma_vals (x d : list Q) (bs : list (list Q)) : list Q :=
  concat (map (fun j => if Qeq_bool (nth j d 0%Q) 0 then [] else map (fun bd => ((nth j bd 0 - nth j x 0) / nth j d 0)%Q) bs) (seq 0 (length x))).
Lemma ma_vals_in x d bs j bd : j < length x -> In bd bs -> ~ (nth j d 0 == 0)%Q -> In ((nth j bd 0 - nth j x 0) / nth j d 0)%Q (ma_vals x d bs).
Proof.
  intros Hj Hb Hd. unfold ma_vals. apply in_concat. eexists. split; [apply in_map_iff; exists j; split; [reflexivity|apply in_seq; lia]|].
  destruct (Qeq_bool _ _) eqn:E; [qcase; contradiction|]. apply in_map_iff. eauto.
Qed.
Lemma ma_vals_inv x d bs v : In v (ma_vals x d bs) -> exists j bd, j < length x /\ In bd bs /\ ~ (nth j d 0 == 0)%Q /\ v = ((nth j bd 0 - nth j x 0) / nth j d 0)%Q.
Proof.
  unfold ma_vals. intros H. apply in_concat in H. destruct H as (l & Hl & Hv). apply in_map_iff in Hl. destruct Hl as (j & <- & Hj). apply in_seq in Hj.
  destruct (Qeq_bool _ _) eqn:E; [destruct Hv|]. apply in_map_iff in Hv. destruct Hv as (bd & <- & Hb). exists j, bd. qcase. repeat split; auto. lia.
Qed.
Definition bnd_list (b : bnds) : list (list Q) := (match fst b with Some xl => [xl] | None => [] end) ++ (match snd b with Some xu => [xu] | None => [] end).
Lemma max_alpha_eq x d b : max_alpha x d b = match bnd_list b with [] => None | _ => if length x =? 0 then None else
   match filter (Qle_bool 0) (ma_vals x d (bnd_list b)) with [] => Some 0%Q | l => Some (qmin_list l) end end.
Proof. reflexivity. Qed.
Lemma ma_le x d b u v : max_alpha x d b = Some u -> In v (ma_vals x d (bnd_list b)) -> (0 <= v)%Q -> (u <= v)%Q.
Proof.
  rewrite max_alpha_eq. destruct (bnd_list b) as [|b0 bs]; [discriminate|]. destruct (length x =? 0); [discriminate|]. intros E Hv H0.
  assert (Hf : In v (filter (Qle_bool 0) (ma_vals x d (b0 :: bs)))) by (apply filter_In; split; auto; now apply Qle_bool_iff).
  destruct (filter _ _) as [|w l]; [destruct Hf|]. injection E as <-. destruct (qmin_list_min (w :: l) ltac:(discriminate)) as (_ & HB). now apply HB.
Qed.
Lemma ma_nonneg x d b u : max_alpha x d b = Some u -> (0 <= u)%Q.
Proof.
  rewrite max_alpha_eq. destruct (bnd_list b) as [|b0 bs]; [discriminate|]. destruct (length x =? 0); [discriminate|].
  destruct (filter _ _) as [|w l] eqn:Ef; intros E; injection E as <-; [lra|]. destruct (qmin_list_min (w :: l) ltac:(discriminate)) as (HI & _).
  rewrite <- Ef in HI at 2. apply filter_In in HI. destruct HI as (_ & HI). now qcase.
Qed.
Theorem C69_max_alpha n b x d t y : in_box n b x -> length d = n -> (0 <= t)%Q -> (forall u, max_alpha x d b = Some u -> (t <= u)%Q) -> along x d t y -> in_box n b y.
Proof.
  intros (X1 & X2 & X3) Hd Ht Hu (Y1 & Y2). split; [lia|].
  assert (V : forall bd j, In bd (bnd_list b) -> j < n -> ~ (nth j d 0 == 0)%Q -> (0 <= (nth j bd 0 - nth j x 0) / nth j d 0)%Q -> (t <= (nth j bd 0 - nth j x 0) / nth j d 0)%Q).
  { intros bd j Hb Hj Hnz Hv. pose proof (ma_vals_in x d (bnd_list b) j bd ltac:(lia) Hb Hnz) as Hin.
    destruct (max_alpha x d b) as [u|] eqn:E.
    - specialize (Hu u eq_refl). pose proof (ma_le x d b u _ E Hin Hv). lra.
    - rewrite max_alpha_eq in E. destruct (bnd_list b); [destruct Hb|]. destruct (Nat.eqb_spec (length x) 0); [lia|]. destruct (filter _ _); discriminate. }
  split.
  - intros xl E j Hj. rewrite (Y2 j) by lia. specialize (X2 xl E j Hj). destruct (Qlt_le_dec (nth j d 0%Q) 0) as [L|L]; [|nra].
    assert (P : (0 <= (nth j xl 0 - nth j x 0) / nth j d 0)%Q).
    { setoid_replace ((nth j xl 0 - nth j x 0) / nth j d 0)%Q with ((nth j x 0 - nth j xl 0) / (- nth j d 0))%Q by (field; lra). apply Qle_shift_div_l; lra. }
    specialize (V xl j ltac:(unfold bnd_list; rewrite E; now left) Hj ltac:(lra) P).
    assert (Q0 : (((nth j xl 0 - nth j x 0) / nth j d 0) * nth j d 0 == nth j xl 0 - nth j x 0)%Q) by (field; lra). nra.
  - intros xu E j Hj. rewrite (Y2 j) by lia. specialize (X3 xu E j Hj). destruct (Qlt_le_dec 0 (nth j d 0%Q)) as [L|L]; [|nra].
    assert (P : (0 <= (nth j xu 0 - nth j x 0) / nth j d 0)%Q) by (apply Qle_shift_div_l; lra).
    specialize (V xu j ltac:(unfold bnd_list; rewrite E; apply in_or_app; right; now left) Hj ltac:(lra) P).
    assert (Q0 : (((nth j xu 0 - nth j x 0) / nth j d 0) * nth j d 0 == nth j xu 0 - nth j x 0)%Q) by (field; lra). nra.
Qed.
(** from the interior of a box it is the largest possible step *)
Theorem C69_max_alpha_exact n xl xu x d : length x = n -> length d = n -> (forall j, j < n -> (nth j xl 0 < nth j x 0)%Q /\ (nth j x 0 < nth j xu 0)%Q) ->
  (exists j, j < n /\ ~ (nth j d 0 == 0)%Q) ->
  exists u, max_alpha x d (Some xl, Some xu) = Some u /\ (0 < u)%Q /\ forall t y, (0 <= t)%Q -> along x d t y -> (in_box n (Some xl, Some xu) y <-> (t <= u)%Q).
Proof.
  intros Hx Hd Hi (j0 & Hj0 & Hnz). destruct (max_alpha x d (Some xl, Some xu)) as [u|] eqn:E;
    [|exfalso; rewrite max_alpha_eq in E; cbn [bnd_list fst snd app] in E; destruct (Nat.eqb_spec (length x) 0); [lia|]; destruct (filter _ _); discriminate].
  exists u. split; [reflexivity|].
  assert (HU : exists j bd, j < n /\ In bd [xl; xu] /\ ~ (nth j d 0 == 0)%Q /\ u = ((nth j bd 0 - nth j x 0) / nth j d 0)%Q /\ (0 <= u)%Q).
  { pose proof E as E'. rewrite max_alpha_eq in E'. cbn [bnd_list fst snd app] in E'. destruct (Nat.eqb_spec (length x) 0); [lia|].
    destruct (filter _ _) as [|w l] eqn:Ef.
    - exfalso. destruct (Hi j0 Hj0) as (H1 & H2).
      assert (A : exists v, In v (ma_vals x d [xl; xu]) /\ (0 <= v)%Q).
      { destruct (Qlt_le_dec (nth j0 d 0%Q) 0) as [L|L].
        - exists ((nth j0 xl 0 - nth j0 x 0) / nth j0 d 0)%Q. split; [apply ma_vals_in; auto; [lia|now left]|].
          setoid_replace ((nth j0 xl 0 - nth j0 x 0) / nth j0 d 0)%Q with ((nth j0 x 0 - nth j0 xl 0) / (- nth j0 d 0))%Q by (field; lra). apply Qle_shift_div_l; lra.
        - exists ((nth j0 xu 0 - nth j0 x 0) / nth j0 d 0)%Q. split; [apply ma_vals_in; auto; [lia|right; now left]|]. apply Qle_shift_div_l; [|lra].
          destruct (Qlt_le_dec 0 (nth j0 d 0%Q)); auto. exfalso. apply Hnz. lra. }
      destruct A as (v & Hv & H0). apply Qle_bool_iff in H0. assert (C : In v (filter (Qle_bool 0) (ma_vals x d [xl; xu]))) by (apply filter_In; auto).
      rewrite Ef in C. destruct C.
    - injection E' as <-. destruct (qmin_list_min (w :: l) ltac:(discriminate)) as (HI & _). rewrite <- Ef in HI at 2. apply filter_In in HI. destruct HI as (HI & H0).
      apply ma_vals_inv in HI. destruct HI as (j & bd & A1 & A2 & A3 & A4). exists j, bd. qcase. split; [lia|]. auto. }
  destruct HU as (j & bd & Hj & Hb & Hz & Eu & H0). destruct (Hi j Hj) as (I1 & I2).
  assert (M : (u * nth j d 0 == nth j bd 0 - nth j x 0)%Q) by (rewrite Eu; field; auto).
  assert (U : (0 < u)%Q).
  { destruct (Qlt_le_dec 0 u) as [|L]; auto. exfalso. assert (u == 0)%Q by lra. rewrite H in M. destruct Hb as [<-|[<-|[]]]; lra. }
  split; [exact U|]. intros t y Ht HA. split.
  - intros (Y1 & Y2 & Y3). destruct HA as (_ & HA). specialize (HA j ltac:(lia)). specialize (Y2 xl eq_refl j Hj). specialize (Y3 xu eq_refl j Hj).
    destruct (Qlt_le_dec u t) as [L|L]; auto. exfalso. destruct Hb as [<-|[<-|[]]].
    + assert (nth j d 0 < 0)%Q by (destruct (Qlt_le_dec (nth j d 0%Q) 0); auto; nra). nra.
    + assert (0 < nth j d 0)%Q by (destruct (Qlt_le_dec 0 (nth j d 0%Q)); auto; nra). nra.
  - intros L. apply (C69_max_alpha n (Some xl, Some xu) x d t y); auto.
    + split; [auto|]. split; intros b' Eb k Hk; injection Eb as <-; destruct (Hi k Hk); cbn [fst snd] in *; lra.
    + intros u' E'. rewrite E in E'. injection E' as <-. exact L.
Qed.
(** "it is the largest step that stays in the box" is false on the boundary, and with only one kind of bounds: 0 is returned although every step (up to 1) stays inside *)
Theorem C69_max_alpha_refuted :
  max_alpha [0%Q] [1%Q] (Some [0%Q], Some [1%Q]) = Some 0%Q /\ (forall t y, (0 <= t <= 1)%Q -> along [0%Q] [1%Q] t y -> in_box 1 (Some [0%Q], Some [1%Q]) y) /\
  (exists u, max_alpha [1%Q] [1%Q] (Some [0%Q], None) = Some u /\ (u == 0)%Q) /\ (forall t y, (0 <= t)%Q -> along [1%Q] [1%Q] t y -> in_box 1 (Some [0%Q], None) y).
Proof.
  split; [reflexivity|]. split; [|split].
  - intros t y Ht (H1 & H2). cbn [length] in H1, H2. split; [auto|]. split; intros b' E j Hj; injection E as <-; (assert (j = 0) by lia; subst j); specialize (H2 0 Hj); cbn [nth] in *; lra.
  - eexists. split; [reflexivity|]. vm_compute. reflexivity.
  - intros t y Ht (H1 & H2). cbn [length] in H1, H2. split; [auto|]. split; intros b' E j Hj; [injection E as <-|discriminate]; assert (j = 0) by lia; subst j; specialize (H2 0 Hj); cbn [nth] in *; lra.
Qed.
