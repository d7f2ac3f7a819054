(** * C110: the hypervolume *)
From Coq Require Import List Bool QArith Qminmax Lqa Lia Permutation Sorted Setoid.
From Verif Require Import S_HV.
Import ListNotations.
Local Open Scope Q_scope.

Lemma qlb_compat x a b : a == b -> Qle_bool x a = Qle_bool x b.
Proof. intros E. destruct (Qle_bool x a) eqn:H1, (Qle_bool x b) eqn:H2; auto; [apply Qle_bool_iff in H1; assert (x <= b) by lra; apply Qle_bool_iff in H; congruence|apply Qle_bool_iff in H2; assert (x <= a) by lra; apply Qle_bool_iff in H; congruence]. Qed.
Lemma qlb_false x y : Qle_bool x y = false <-> y < x.
Proof. split; intros H; [apply Qnot_le_lt; intros K; apply Qle_bool_iff in K; congruence|destruct (Qle_bool x y) eqn:E; auto; apply Qle_bool_iff in E; lra]. Qed.

Lemma qmul_le z x y : 0 <= z -> x <= y -> z * x <= z * y.
Proof. intros Hz H. rewrite (Qmult_comm z x), (Qmult_comm z y). now apply Qmult_le_compat_r. Qed.
(** ** sorted grids *)
Lemma ins_In a g x : In x (ins a g) <-> x = a \/ In x g.
Proof. induction g as [|b g IH]; cbn [ins]; [cbn; intuition|]. destruct (Qle_bool a b); cbn [In]; [intuition|]. rewrite IH. intuition. Qed.
Lemma ins_sorted a g : StronglySorted Qle g -> StronglySorted Qle (ins a g).
Proof.
  induction g as [|b g IH]; intros H; cbn [ins]; [constructor; auto|]. inversion H as [|? ? H1 H2]; subst. destruct (Qle_bool a b) eqn:E.
  - apply Qle_bool_iff in E. constructor; [exact H|]. constructor; [exact E|]. rewrite Forall_forall in *. intros x Hx. specialize (H2 x Hx). lra.
  - apply qlb_false in E. constructor; [auto|]. rewrite Forall_forall in *. intros x Hx. apply ins_In in Hx as [-> |Hx]; [lra|auto].
Qed.
Definition grid (r : Q) (Z : list Q) : list Q := fold_right ins [r] Z.
Lemma grid_In r Z x : In x (grid r Z) <-> x = r \/ In x Z.
Proof. unfold grid. induction Z as [|a Z IH]; cbn [fold_right]; [cbn; intuition|]. rewrite ins_In, IH. cbn. intuition. Qed.
Lemma grid_sorted r Z : StronglySorted Qle (grid r Z).
Proof. unfold grid. induction Z as [|a Z IH]; cbn [fold_right]; [repeat constructor|]. now apply ins_sorted. Qed.

Lemma ins_proper a g g' : Forall2 Qeq g g' -> Forall2 Qeq (ins a g) (ins a g').
Proof.
  intros H. induction H as [|x y g g' E H IH]; cbn [ins]; [repeat constructor; reflexivity|].
  rewrite (qlb_compat a x y E). destruct (Qle_bool a y); [constructor; [reflexivity|now constructor]|now constructor].
Qed.
Lemma F2_refl g : Forall2 Qeq g g.
Proof. induction g; constructor; auto; reflexivity. Qed.
Lemma F2_trans a b c : Forall2 Qeq a b -> Forall2 Qeq b c -> Forall2 Qeq a c.
Proof. intros H. revert c. induction H; intros c K; inversion K; subst; constructor; [etransitivity; eauto|auto]. Qed.
Lemma ins_swap a b g : Forall2 Qeq (ins a (ins b g)) (ins b (ins a g)).
Proof.
  induction g as [|x g IH]; cbn [ins].
  - destruct (Qle_bool a b) eqn:E1, (Qle_bool b a) eqn:E2; cbn [ins]; repeat constructor; try reflexivity; rewrite ?Qle_bool_iff in *; rewrite ?qlb_false in *; try lra;
      apply Qle_bool_iff in E1, E2; lra.
  - destruct (Qle_bool b x) eqn:Eb, (Qle_bool a x) eqn:Ea; cbn [ins]; rewrite ?Ea, ?Eb.
    + destruct (Qle_bool a b) eqn:E1, (Qle_bool b a) eqn:E2; try apply F2_refl.
      * apply Qle_bool_iff in E1, E2. constructor; [lra|]. constructor; [lra|]. apply F2_refl.
      * apply qlb_false in E1, E2. lra.
    + destruct (Qle_bool a b) eqn:E1; [|apply F2_refl]. apply Qle_bool_iff in E1, Eb. apply qlb_false in Ea. lra.
    + destruct (Qle_bool b a) eqn:E1; [|apply F2_refl]. apply Qle_bool_iff in E1, Ea. apply qlb_false in Eb. lra.
    + constructor; [reflexivity|exact IH].
Qed.
Lemma grid_perm r Z Z' : Permutation Z Z' -> Forall2 Qeq (grid r Z) (grid r Z').
Proof.
  unfold grid. intros H. induction H; cbn [fold_right]; [apply F2_refl|now apply ins_proper|apply ins_swap|eapply F2_trans; eauto].
Qed.

Definition proper (h : Q -> Q) : Prop := forall a b, a == b -> h a == h b.
Lemma integral_proper h g g' : proper h -> Forall2 Qeq g g' -> integral h g == integral h g'.
Proof.
  intros Hp H. induction H as [|x y g g' E H IH]; [reflexivity|]. destruct H as [|x2 y2 g g' E2 H]; [reflexivity|].
  change ((x2 - x) * h x + integral h (x2 :: g) == (y2 - y) * h y + integral h (y2 :: g')). rewrite IH, (Hp x y E), E, E2. reflexivity.
Qed.
Lemma integral_ext h h' g : (forall a, In a g -> h a == h' a) -> integral h g == integral h' g.
Proof.
  induction g as [|a g IH]; intros H; [reflexivity|]. destruct g as [|b g]; [reflexivity|].
  change ((b - a) * h a + integral h (b :: g) == (b - a) * h' a + integral h' (b :: g)). rewrite IH by (intros; apply H; now right). rewrite (H a) by now left. reflexivity.
Qed.
Lemma integral_le h h' g : StronglySorted Qle g -> (forall a, In a g -> h a <= h' a) -> integral h g <= integral h' g.
Proof.
  induction g as [|a g IH]; intros HS H; [cbn; lra|]. destruct g as [|b g]; [cbn; lra|].
  change ((b - a) * h a + integral h (b :: g) <= (b - a) * h' a + integral h' (b :: g)). inversion HS as [|? ? H1 H2]; subst.
  assert (I1 := IH H1 ltac:(intros; apply H; now right)). assert (I2 := H a (or_introl eq_refl)). inversion H2 as [|? ? Hab _]; subst.
  assert ((b - a) * h a <= (b - a) * h' a) by (apply qmul_le; lra). lra.
Qed.
Lemma integral_lt h h' r Z c : Forall (fun z => z < r) Z -> In c Z -> (forall a, In a (grid r Z) -> h a <= h' a) -> (forall a, a == c -> h a < h' a) ->
  integral h (grid r Z) < integral h' (grid r Z).
Proof.
  intros HZ Hc H Hs.
  assert (G : forall g, StronglySorted Qle g -> (forall a, In a g -> h a <= h' a) -> In c g -> (exists x, In x g /\ c < x) -> integral h g < integral h' g).
  { clear H HZ Hc. induction g as [|a g IH]; intros HS Hle Hc (x & Hx & Hcx); [destruct Hc|]. inversion HS as [|? ? H1 H2]; subst.
    destruct g as [|b g]; [destruct Hc as [-> |[]]; destruct Hx as [-> |[]]; lra|].
    change ((b - a) * h a + integral h (b :: g) < (b - a) * h' a + integral h' (b :: g)).
    assert (I2 := Hle a (or_introl eq_refl)). assert (Hab : a <= b) by (inversion H2; auto).
    assert (M : (b - a) * h a <= (b - a) * h' a) by (apply qmul_le; lra).
    assert (Hxg : In x (b :: g)).
    { destruct Hx as [-> |Hx]; auto. destruct Hc as [-> |Hc]; [lra|]. rewrite Forall_forall in H2. specialize (H2 _ Hc). lra. }
    destruct (Qle_bool b c) eqn:E.
    - apply Qle_bool_iff in E. assert (Hcg : In c (b :: g) \/ c == b).
      { destruct Hc as [-> |Hc]; auto. right. rewrite Forall_forall in H2. specialize (H2 b (or_introl eq_refl)). lra. }
      destruct Hcg as [Hcg|Hcg].
      + assert (integral h (b :: g) < integral h' (b :: g)) by (apply IH; auto; [intros; apply Hle; now right|eauto]). lra.
      + (* c == b : argue with b in place of c *)
        assert (integral h (b :: g) < integral h' (b :: g)).
        { clear - H1 Hle Hs Hcg Hxg Hcx.
          assert (K : forall g b, StronglySorted Qle (b :: g) -> (forall a, In a (b :: g) -> h a <= h' a) -> c == b -> In x (b :: g) -> integral h (b :: g) < integral h' (b :: g)).
          { clear - Hs Hcx. induction g as [|d g IH]; intros b HS Hle E Hx; [destruct Hx as [-> |[]]; lra|].
            change ((d - b) * h b + integral h (d :: g) < (d - b) * h' b + integral h' (d :: g)). inversion HS as [|? ? H1 H2]; subst. assert (Hbd : b <= d) by (inversion H2; auto).
            assert (Hx' : In x (d :: g)) by (destruct Hx as [-> |Hx]; [lra|auto]).
            assert (L : integral h (d :: g) <= integral h' (d :: g)) by (apply integral_le; auto; intros; apply Hle; now right).
            destruct (Qle_bool d b) eqn:F; [apply Qle_bool_iff in F|apply qlb_false in F].
            - assert (integral h (d :: g) < integral h' (d :: g)) by (apply IH; auto; [intros; apply Hle; now right|lra]).
              assert (D0 : d - b == 0) by lra. rewrite D0. lra.
            - assert (h b < h' b) by (apply Hs; lra). assert ((d - b) * h b < (d - b) * h' b) by (apply Qmult_lt_l; lra). lra. }
          apply K; auto. intros; apply Hle; now right. }
        lra.
    - apply qlb_false in E. assert (Ea : a == c).
      { destruct Hc as [-> |Hc]; [reflexivity|]. exfalso. inversion H1 as [|? ? H3 H4]; subst. destruct Hc as [-> |Hc]; [lra|]. rewrite Forall_forall in H4. specialize (H4 _ Hc). lra. }
      assert (L : integral h (b :: g) <= integral h' (b :: g)) by (apply integral_le; auto; intros; apply Hle; now right).
      assert (h a < h' a) by (apply Hs; lra). assert ((b - a) * h a < (b - a) * h' a) by (apply Qmult_lt_l; lra). lra. }
  apply G; [apply grid_sorted|exact H|apply grid_In; auto|]. exists r. split; [apply grid_In; auto|]. rewrite Forall_forall in HZ. auto.
Qed.

(** refining a grid that already has all the places where [h] changes *)
Section Refine.
  Variables (h : Q -> Q) (X : list Q) (r : Q).
  Hypothesis Hp : proper h.
  Hypothesis Hconst : forall a c, a <= c -> (forall x, In x X -> a < x -> x <= c -> False) -> h a == h c.
  Hypothesis Hzero : forall a, (forall x, In x X -> a < x) -> h a == 0.
  Lemma refine_from c g : c < r -> forall b, b <= c -> StronglySorted Qle (b :: g) -> In r (b :: g) -> (forall x, In x X -> b < x -> x < r -> In x g) -> integral h (b :: ins c g) == integral h (b :: g).
  Proof.
    intros Hc. induction g as [|d g IH]; intros b Hb HS Hr HX; [destruct Hr as [-> |[]]; lra|]. inversion HS as [|? ? H1 H2]; subst. assert (Hbd : b <= d) by (inversion H2; auto).
    cbn [ins]. destruct (Qle_bool c d) eqn:E.
    - apply Qle_bool_iff in E. change ((c - b) * h b + ((d - c) * h c + integral h (d :: g)) == (d - b) * h b + integral h (d :: g)).
      destruct (Qle_bool d c) eqn:E2; [apply Qle_bool_iff in E2; assert (D0 : d - c == 0) by lra; assert (D1 : c - b == d - b) by lra; rewrite D0, D1; ring|apply qlb_false in E2].
      rewrite <- (Hconst b c Hb); [ring|]. intros x Hx Hbx Hxc. specialize (HX x Hx Hbx ltac:(lra)). destruct HX as [-> |HX]; [lra|]. inversion H1 as [|? ? H3 H4]; subst. rewrite Forall_forall in H4. specialize (H4 x HX). lra.
    - apply qlb_false in E. change ((d - b) * h b + integral h (d :: ins c g) == (d - b) * h b + integral h (d :: g)). rewrite IH; [reflexivity|lra|auto| |].
      + destruct Hr as [-> |Hr]; [lra|auto].
      + intros x Hx Hdx Hxr. destruct (HX x Hx ltac:(lra) Hxr) as [-> |K]; [lra|auto].
  Qed.
  Lemma refine1 c Z : c < r -> Forall (fun z => z < r) Z -> (forall x, In x X -> x < r -> In x Z) -> integral h (ins c (grid r Z)) == integral h (grid r Z).
  Proof.
    intros Hc HZ HX. pose proof (grid_sorted r Z) as HS. assert (HI := fun x => grid_In r Z x). destruct (grid r Z) as [|b g] eqn:E; [destruct (proj2 (HI r) (or_introl eq_refl))|]. cbn [ins].
    destruct (Qle_bool c b) eqn:F.
    - apply Qle_bool_iff in F. change ((b - c) * h c + integral h (b :: g) == integral h (b :: g)). destruct (Qle_bool b c) eqn:F2; [apply Qle_bool_iff in F2; assert (D0 : b - c == 0) by lra; rewrite D0; ring|apply qlb_false in F2].
      rewrite (Hzero c); [ring|]. intros x Hx. apply Qnot_le_lt. intros K. assert (Hz : In x (b :: g)) by (apply HI; right; apply HX; auto; lra).
      destruct Hz as [-> |Hz]; [lra|]. inversion HS as [|? ? H1 H2]; subst. rewrite Forall_forall in H2. specialize (H2 x Hz). lra.
    - apply qlb_false in F. apply refine_from; auto; [lra|apply HI; auto|]. intros x Hx Hbx Hxr. assert (Hz : In x (b :: g)) by (apply HI; right; auto). destruct Hz as [-> |Hz]; [lra|auto].
  Qed.
  Lemma refine Y Z : Forall (fun z => z < r) Y -> Forall (fun z => z < r) Z -> (forall x, In x X -> x < r -> In x Z) -> integral h (grid r (Y ++ Z)) == integral h (grid r Z).
  Proof.
    intros HY HZ HX. induction Y as [|y Y IH]; [reflexivity|]. inversion HY; subst. change (integral h (ins y (grid r (Y ++ Z))) == integral h (grid r Z)).
    rewrite refine1; auto; [rewrite Forall_forall in *; intros z Hz; apply in_app_or in Hz as [Hz|Hz]; auto|]. intros x Hx Hr. apply in_or_app. right. auto.
  Qed.
End Refine.

(** ** sections *)
Lemma section_eq a c D : a <= c -> (forall x, In x (map (hd 0) D) -> a < x -> x <= c -> False) -> section a D = section c D.
Proof.
  intros Hac H. unfold section. f_equal. induction D as [|p D IH]; [reflexivity|]. cbn [filter]. rewrite IH by (intros x Hx; apply H; now right).
  destruct (Qle_bool (hd 0 p) a) eqn:E1, (Qle_bool (hd 0 p) c) eqn:E2; auto.
  - apply Qle_bool_iff in E1. apply qlb_false in E2. lra.
  - apply Qle_bool_iff in E2. apply qlb_false in E1. exfalso. apply (H (hd 0 p)); auto. now left.
Qed.
Lemma section_compat a c D : a == c -> section a D = section c D.
Proof. intros E. apply section_eq; [lra|]. intros x _ H1 H2. lra. Qed.
Lemma section_nil a D : (forall x, In x (map (hd 0) D) -> a < x) -> section a D = [].
Proof. intros H. unfold section. replace (filter (fun p => Qle_bool (hd 0 p) a) D) with (@nil (list Q)); [reflexivity|]. induction D as [|p D IH]; [reflexivity|]. cbn [filter]. replace (Qle_bool (hd 0 p) a) with false; [apply IH; intros; apply H; now right|]. symmetry. apply qlb_false, H. now left. Qed.
Lemma section_In a D p : In p (section a D) <-> exists q, In q D /\ hd 0 q <= a /\ p = tl q.
Proof.
  unfold section. rewrite in_map_iff. split; [intros (q & <- & H); apply filter_In in H as [H1 H2]; apply Qle_bool_iff in H2; eauto|].
  intros (q & H & Hq & ->). exists q. split; auto. apply filter_In. split; auto. now apply Qle_bool_iff.
Qed.
Lemma section_dim a m D : dim (S m) D -> dim m (section a D).
Proof. unfold dim. rewrite !Forall_forall. intros H p Hp. apply section_In in Hp as (q & Hq & _ & ->). specialize (H q Hq). destruct q; cbn in *; lia. Qed.

Lemma hv_nil ref : hypervolume ref [] == 0.
Proof. destruct ref; cbn; reflexivity. Qed.
Lemma cuts_grid r X : cuts r X = grid r (filter (fun x => negb (Qle_bool r x)) X).
Proof. reflexivity. Qed.
Lemma below_In r X x : In x (filter (fun x => negb (Qle_bool r x)) X) <-> In x X /\ x < r.
Proof. rewrite filter_In, negb_true_iff, qlb_false. reflexivity. Qed.
Lemma below_lt r X : Forall (fun z => z < r) (filter (fun x => negb (Qle_bool r x)) X).
Proof. apply Forall_forall. intros x Hx. now apply below_In in Hx. Qed.

(** the slices may be cut further without changing the volume *)
Lemma hv_grid r ref D Y : Forall (fun z => z < r) Y ->
  hypervolume (r :: ref) D == integral (fun a => hypervolume ref (section a D)) (grid r (Y ++ filter (fun x => negb (Qle_bool r x)) (map (hd 0) D))).
Proof.
  intros HY. symmetry. cbn [hypervolume]. rewrite cuts_grid. apply (refine _ (map (hd 0) D)); auto using below_lt.
  - intros a c Hac H. rewrite (section_eq a c D); auto; reflexivity.
  - intros a H. rewrite section_nil by exact H. apply hv_nil.
  - intros x Hx Hr. apply below_In. auto.
Qed.
(** two sets of points on a common grid *)
Definition common (r : Q) (D E : list (list Q)) : list Q :=
  filter (fun x => negb (Qle_bool r x)) (map (hd 0) D) ++ filter (fun x => negb (Qle_bool r x)) (map (hd 0) E).
Lemma common_l r ref D E : hypervolume (r :: ref) D == integral (fun a => hypervolume ref (section a D)) (grid r (common r D E)).
Proof.
  rewrite (hv_grid r ref D (filter (fun x => negb (Qle_bool r x)) (map (hd 0) E)) (below_lt _ _)). apply integral_proper; [intros a b Hab; rewrite (section_compat a b D Hab); reflexivity|]. apply grid_perm, Permutation_app_comm.
Qed.
Lemma common_r r ref D E : hypervolume (r :: ref) E == integral (fun a => hypervolume ref (section a E)) (grid r (common r D E)).
Proof. apply hv_grid, below_lt. Qed.
Lemma common_lt r D E : Forall (fun z => z < r) (common r D E).
Proof. apply Forall_app. split; apply below_lt. Qed.

(** ** monotonicity *)
Lemma covered_section a m D E : dim (S m) D -> dim (S m) E -> covered_by D E -> covered_by (section a D) (section a E).
Proof.
  intros HD HE H p Hp. apply section_In in Hp as (q & Hq & Ha & ->). destruct (H q Hq) as (s & Hs & Hw). exists (tl s). unfold dim in *. rewrite Forall_forall in HD, HE. specialize (HD q Hq). specialize (HE s Hs).
  destruct q as [|x q]; [discriminate|]. destruct s as [|y s]; [discriminate|]. inversion Hw; subst. cbn in *. split; [|assumption]. apply section_In. exists (y :: s). repeat split; auto. cbn. lra.
Qed.
Theorem C110_hv_monotone ref : forall D E, dim (length ref) D -> dim (length ref) E -> covered_by D E -> hypervolume ref D <= hypervolume ref E.
Proof.
  induction ref as [|r ref IH]; intros D E HD HE H.
  - cbn. destruct D as [|p D]; destruct E as [|q E]; try lra. destruct (H p (or_introl eq_refl)) as (q & [] & _).
  - rewrite (common_l r ref D E), (common_r r ref D E). apply integral_le; [apply grid_sorted|]. intros a _. apply IH; auto using section_dim. eapply covered_section; eauto.
Qed.
(** strictly: a point below the reference point that nothing in [D] covers adds to the volume *)
Theorem C110_hv_strict ref : forall D E p, dim (length ref) D -> dim (length ref) E -> covered_by D E ->
  In p E -> Forall2 Qlt p ref -> (forall q, In q D -> ~ weakly q p) -> hypervolume ref D < hypervolume ref E.
Proof.
  induction ref as [|r ref IH]; intros D E p HD HE H Hp Hr Hn.
  - inversion Hr; subst. destruct D as [|q D]; [|exfalso; apply (Hn q); [now left|]; unfold dim in HD; rewrite Forall_forall in HD; specialize (HD q (or_introl eq_refl)); destruct q; [constructor|discriminate]].
    destruct E as [|q E]; [destruct Hp|]. cbn. lra.
  - inversion Hr as [|x ? p' ? Hx Hr']; subst. rewrite (common_l r ref D E), (common_r r ref D E). apply (integral_lt _ _ r _ x); [apply common_lt| | |].
    + unfold common. apply in_or_app. right. apply below_In. split; [|exact Hx]. apply in_map_iff. exists (x :: p'). auto.
    + intros a _. apply C110_hv_monotone; auto using section_dim. eapply covered_section; eauto.
    + intros a Ha. apply (IH _ _ p'); auto using section_dim; [eapply covered_section; eauto| |].
      * apply section_In. exists (x :: p'). repeat split; auto. cbn. lra.
      * intros q Hq Hw. apply section_In in Hq as (s & Hs & Hsa & ->). apply (Hn s Hs). unfold dim in HD. rewrite Forall_forall in HD. specialize (HD s Hs). destruct s as [|y s]; [discriminate|]. cbn in *. constructor; [lra|exact Hw].
Qed.
Print Assumptions C110_hv_strict.
