(** * C110: the hypervolume is the volume of a union of boxes; scaling *)
From Coq Require Import List Bool QArith Qminmax Lqa Lia Permutation Sorted Setoid.
From Verif Require Import ListAux S_HV M_Norm M_HV Thm_HV.
Import ListNotations.
Local Open Scope Q_scope.

Lemma weakly_refl p : weakly p p.
Proof. unfold weakly. induction p; constructor; auto. apply Qle_refl. Qed.
Lemma weakly_trans p q s : weakly p q -> weakly q s -> weakly p s.
Proof. unfold weakly. intros H. revert s. induction H; intros s K; inversion K; subst; constructor; [lra|auto]. Qed.
Lemma covered_incl D E : incl D E -> covered_by D E.
Proof. intros H p Hp. exists p. split; [auto|apply weakly_refl]. Qed.

(** two sets that cover each other have the same hypervolume: order, duplicates and dominated points do not matter *)
Theorem C110_hv_same ref D E : dim (length ref) D -> dim (length ref) E -> covered_by D E -> covered_by E D -> hypervolume ref D == hypervolume ref E.
Proof. intros HD HE H1 H2. apply Qle_antisym; apply C110_hv_monotone; auto. Qed.

(** ** inclusion and exclusion *)
Lemma integral_lin h1 h2 h3 h4 g : (forall a, In a g -> h1 a == h2 a + h3 a - h4 a) -> integral h1 g == integral h2 g + integral h3 g - integral h4 g.
Proof.
  induction g as [|a g IH]; intros H; [reflexivity|]. destruct g as [|b g]; [reflexivity|].
  change ((b - a) * h1 a + integral h1 (b :: g) == (b - a) * h2 a + integral h2 (b :: g) + ((b - a) * h3 a + integral h3 (b :: g)) - ((b - a) * h4 a + integral h4 (b :: g))).
  rewrite IH by (intros; apply H; now right). rewrite (H a) by now left. ring.
Qed.
Lemma hv_grid' r ref D Z : Forall (fun z => z < r) Z -> (forall x, In x (map (hd 0) D) -> x < r -> In x Z) ->
  hypervolume (r :: ref) D == integral (fun a => hypervolume ref (section a D)) (grid r Z).
Proof.
  intros HZ HX. rewrite (hv_grid r ref D Z HZ).
  assert (P : proper (fun a => hypervolume ref (section a D))) by (intros a b Hab; rewrite (section_compat a b D Hab); reflexivity).
  rewrite (integral_proper _ _ _ P (grid_perm r _ _ (Permutation_app_comm _ _))). apply (refine _ (map (hd 0) D)); auto using below_lt.
  - intros a c Hac H. rewrite (section_eq a c D); auto; reflexivity.
  - intros a H. rewrite section_nil by exact H. apply hv_nil.
Qed.
Lemma qmax_le a b c : Qmax a b <= c <-> a <= c /\ b <= c.
Proof. apply Q.max_lub_iff. Qed.
Lemma join_len p : forall q, length p = length q -> length (join p q) = length p.
Proof. induction p as [|x p IH]; intros [|y q] H; cbn in *; auto; discriminate. Qed.
Lemma section_join a x p D : dim (S (length p)) D -> x <= a -> section a (map (join (x :: p)) D) = map (join p) (section a D).
Proof.
  intros HD Hx. unfold section. induction D as [|q D IH]; [reflexivity|]. inversion HD as [|? ? H1 H2]; subst. destruct q as [|y q]; [discriminate|]. cbn [map]. change (join (x :: p) (y :: q)) with (Qmax x y :: join p q). cbn [filter hd].
  assert (E : Qle_bool (Qmax x y) a = Qle_bool y a).
  { destruct (Qle_bool y a) eqn:E; [apply Qle_bool_iff in E; apply Qle_bool_iff, qmax_le; auto|]. apply qlb_false in E. apply qlb_false. pose proof (Q.le_max_r x y). lra. }
  rewrite E. specialize (IH H2). destruct (Qle_bool y a); cbn [map tl]; [f_equal|]; exact IH.
Qed.
Lemma section_join_nil a x p D : dim (S (length p)) D -> a < x -> section a (map (join (x :: p)) D) = [].
Proof.
  intros HD Hx. apply section_nil. intros y Hy. apply in_map_iff in Hy as (q & <- & Hq). apply in_map_iff in Hq as (q' & <- & Hq). unfold dim in HD. rewrite Forall_forall in HD. specialize (HD _ Hq). destruct q' as [|z q']; [discriminate|]. cbn.
  pose proof (Q.le_max_l x z). lra.
Qed.

(** the volume of a union: what a point adds is its box without what it shares with the others (the recursion of the WFG algorithm) *)
Lemma hv_union1 ref : forall p D, length p = length ref -> dim (length ref) D ->
  hypervolume ref (p :: D) == hypervolume ref [p] + hypervolume ref D - hypervolume ref (map (join p) D).
Proof.
  induction ref as [|r ref IH]; intros p D Hp HD.
  - cbn. destruct D; cbn; reflexivity.
  - destruct p as [|x p]; [discriminate|]. cbn in Hp. injection Hp as Hp.
    assert (HJ : dim (length (r :: ref)) (map (join (x :: p)) D)).
    { unfold dim in *. rewrite Forall_forall in *. intros q Hq. apply in_map_iff in Hq as (q' & <- & Hq). specialize (HD _ Hq). rewrite join_len; cbn in *; lia. }
    set (Z := filter (fun z => negb (Qle_bool r z)) (map (hd 0) (((x :: p) :: D) ++ map (join (x :: p)) D))).
    assert (HZ : Forall (fun z => z < r) Z) by apply below_lt.
    assert (HI : forall S', incl S' (((x :: p) :: D) ++ map (join (x :: p)) D) -> forall y, In y (map (hd 0) S') -> y < r -> In y Z).
    { intros S' HS y Hy Hr. apply below_In. split; auto. apply in_map_iff in Hy as (s & <- & Hs). apply in_map_iff. exists s. split; auto. }
    rewrite !(hv_grid' r ref _ Z HZ); try (apply HI; intros s Hs; apply in_or_app; cbn in *; tauto).
    apply integral_lin. intros a _. destruct (Qle_bool x a) eqn:E.
    + assert (E' := E). apply Qle_bool_iff in E'. rewrite (section_join a x p D) by (auto; now rewrite Hp).
      assert (S1 : section a ((x :: p) :: D) = p :: section a D) by (unfold section; cbn [filter hd]; rewrite E; reflexivity).
      assert (S2 : section a [x :: p] = [p]) by (unfold section; cbn [filter hd]; rewrite E; reflexivity). rewrite S1, S2. apply IH; auto. now apply section_dim.
    + assert (E' := E). apply qlb_false in E'. rewrite (section_join_nil a x p D) by (auto; now rewrite Hp).
      assert (S1 : section a ((x :: p) :: D) = section a D) by (unfold section; cbn [filter hd]; rewrite E; reflexivity).
      assert (S2 : section a [x :: p] = []) by (unfold section; cbn [filter hd]; rewrite E; reflexivity). rewrite S1, S2, !hv_nil. ring.
Qed.
Lemma hv_box ref : forall p, length p = length ref -> hypervolume ref [p] == box ref p.
Proof.
  induction ref as [|r ref IH]; intros p Hp; destruct p as [|x p]; try discriminate; [cbn; reflexivity|]. injection Hp as Hp. cbn [hypervolume map hd box]. unfold cuts. cbn [filter].
  assert (S2 : section x [x :: p] = [p]) by (unfold section; cbn [filter hd]; replace (Qle_bool x x) with true by (symmetry; apply Qle_bool_iff; lra); reflexivity).
  destruct (Qle_bool r x) eqn:E; cbn [negb fold_right ins].
  - apply Qle_bool_iff in E. cbn. rewrite Q.max_l by lra. ring.
  - apply qlb_false in E. replace (Qle_bool x r) with true by (symmetry; apply Qle_bool_iff; lra). cbn [integral]. rewrite S2, IH by exact Hp. rewrite Q.max_r by lra. ring.
Qed.
Theorem C110_hv_union ref p D : length p = length ref -> dim (length ref) D ->
  hypervolume ref [] == 0 /\ hypervolume ref [p] == box ref p /\ hypervolume ref (p :: D) == box ref p + hypervolume ref D - hypervolume ref (map (join p) D).
Proof. intros Hp HD. split; [apply hv_nil|]. split; [now apply hv_box|]. rewrite hv_union1 by auto. rewrite hv_box by exact Hp. reflexivity. Qed.

(** only the points strictly below the reference point in every objective count *)
Fixpoint below (p ref : list Q) : bool := match p, ref with x :: p, r :: ref => negb (Qle_bool r x) && below p ref | _, _ => true end.
Lemma below_iff ref : forall p, length p = length ref -> (below p ref = true <-> Forall2 Qlt p ref).
Proof.
  induction ref as [|r ref IH]; intros [|x p] H; try discriminate; [split; [constructor|auto]|]. injection H as H. cbn [below]. rewrite andb_true_iff, negb_true_iff, qlb_false, IH by exact H.
  split; [intros []; now constructor|intros K; inversion K; auto].
Qed.
Lemma hv_below ref : forall D, dim (length ref) D -> hypervolume ref D == hypervolume ref (filter (fun p => below p ref) D).
Proof.
  induction ref as [|r ref IH]; intros D HD.
  - assert (E : filter (fun p => below p []) D = D). { induction D as [|p D IHD]; [reflexivity|]. inversion HD; subst. cbn [filter]. destruct p; [|discriminate]. cbn. f_equal. now apply IHD. } rewrite E. reflexivity.
  - set (D' := filter _ D). set (Z := filter (fun z => negb (Qle_bool r z)) (map (hd 0) D)).
    assert (HZ : Forall (fun z => z < r) Z) by apply below_lt.
    rewrite (hv_grid' r ref D Z HZ) by (intros x Hx Hr; apply below_In; auto).
    rewrite (hv_grid' r ref D' Z HZ) by (intros x Hx Hr; apply below_In; split; auto; apply in_map_iff in Hx as (p & <- & Hp); apply filter_In in Hp as [Hp _]; apply in_map_iff; eauto).
    assert (G : forall a, a < r -> hypervolume ref (section a D) == hypervolume ref (section a D')).
    { intros a Ha. assert (E : section a D' = filter (fun p => below p ref) (section a D)).
      { unfold D', section. clear - Ha HD. induction D as [|p D IHD]; [reflexivity|]. inversion HD as [|? ? H1 H2]; subst. destruct p as [|x p]; [discriminate|]. cbn [filter below hd].
        destruct (Qle_bool x a) eqn:E1.
        - assert (E2 : Qle_bool r x = false) by (apply Qle_bool_iff in E1; apply qlb_false; lra). rewrite E2. cbn [negb andb]. destruct (below p ref) eqn:E3; cbn [filter hd map tl]; rewrite ?E1; cbn [map tl filter]; rewrite ?E3; now rewrite IHD.
        - destruct (negb (Qle_bool r x) && below p ref); cbn [filter hd]; rewrite ?E1; auto. }
      rewrite E. apply IH. now apply section_dim. }
    assert (K : forall g, StronglySorted Qle g -> In r g \/ g = [] -> (forall a, In a g -> a <= r) -> integral (fun a => hypervolume ref (section a D)) g == integral (fun a => hypervolume ref (section a D')) g).
    { clear - G. induction g as [|a g IHg]; intros HS Hr Hle; [reflexivity|]. destruct g as [|b g]; [reflexivity|].
      change ((b - a) * hypervolume ref (section a D) + integral (fun a => hypervolume ref (section a D)) (b :: g) == (b - a) * hypervolume ref (section a D') + integral (fun a => hypervolume ref (section a D')) (b :: g)).
      inversion HS as [|? ? H1 H2]; subst. destruct (Qle_bool r a) eqn:E.
      - apply Qle_bool_iff in E. assert (Z0 : forall g h, StronglySorted Qle g -> (forall x, In x g -> x == r) -> integral h g == 0).
        { clear. induction g as [|x g IH]; intros h HS H; [reflexivity|]. destruct g as [|y g]; [reflexivity|]. change ((y - x) * h x + integral h (y :: g) == 0). inversion HS; subst. rewrite IH; auto; [|intros; apply H; now right].
          assert (D0 : y - x == 0) by (rewrite (H x), (H y); [ring|cbn; auto|cbn; auto]). rewrite D0. ring. }
        assert (Q0 : forall x, In x (a :: b :: g) -> x == r).
        { intros x Hx. apply Qle_antisym; [auto|]. destruct Hx as [<- |Hx]; [lra|]. rewrite Forall_forall in H2. specialize (H2 x Hx). lra. }
        rewrite !Z0; auto; try (intros; apply Q0; now right). assert (D0 : b - a == 0) by (rewrite (Q0 a), (Q0 b); [ring|cbn; auto|cbn; auto]). rewrite D0. ring.
      - apply qlb_false in E. rewrite (G a E). rewrite IHg; auto; [reflexivity| |intros; apply Hle; now right]. left. destruct Hr as [Hr|Hr]; [|discriminate]. destruct Hr as [-> |Hr]; [lra|auto]. }
    apply K; [apply grid_sorted|left; apply grid_In; auto|]. intros a Ha. apply grid_In in Ha as [-> |Ha]; [lra|]. rewrite Forall_forall in HZ. specialize (HZ a Ha). lra.
Qed.
Theorem C110_reference ref D : dim (length ref) D ->
  (forall E, (forall p, In p E <-> In p D /\ Forall2 Qlt p ref) -> hypervolume ref D == hypervolume ref E) /\
  0 <= hypervolume ref D /\ (0 < hypervolume ref D <-> exists p, In p D /\ Forall2 Qlt p ref).
Proof.
  intros HD.
  assert (H1 : forall E, (forall p, In p E <-> In p D /\ Forall2 Qlt p ref) -> hypervolume ref D == hypervolume ref E).
  { intros E HE. rewrite (hv_below ref D HD). assert (I : forall p, In p (filter (fun p => below p ref) D) <-> In p E).
    { intros p. rewrite filter_In, HE. unfold dim in HD. rewrite Forall_forall in HD. split; intros [Hp Hb]; split; auto; apply (below_iff ref p (HD p Hp)); auto. }
    assert (HD' : dim (length ref) (filter (fun p => below p ref) D)) by (unfold dim in *; rewrite Forall_forall in *; intros p Hp; apply filter_In in Hp as [Hp _]; auto).
    apply C110_hv_same; auto; [unfold dim in *; rewrite Forall_forall in *; intros p Hp; apply HE in Hp as [Hp _]; auto| |]; apply covered_incl; intros p Hp; now apply I. }
  assert (H0 : forall E, dim (length ref) E -> 0 <= hypervolume ref E). { intros E HE. rewrite <- (hv_nil ref). apply C110_hv_monotone; auto; [constructor|intros p []]. }
  split; [exact H1|]. split; [auto|]. split.
  - intros Hpos. destruct (existsb (fun p => below p ref) D) eqn:E.
    + apply existsb_exists in E as (p & Hp & Hb). exists p. split; auto. unfold dim in HD. rewrite Forall_forall in HD. apply below_iff; auto.
    + exfalso. rewrite (hv_below ref D HD) in Hpos. replace (filter (fun p => below p ref) D) with (@nil (list Q)) in Hpos; [rewrite hv_nil in Hpos; lra|].
      clear - E. induction D as [|p D IH]; [reflexivity|]. cbn in *. apply orb_false_iff in E as [E1 E2]. rewrite E1. auto.
  - intros (p & Hp & Hb). rewrite <- (hv_nil ref). apply (C110_hv_strict ref [] D p); auto; [constructor|intros q []].
Qed.

(** ** positive affine maps *)
Definition good (b : bnd) : Prop := match b with (Some l, Some u) => l < u | _ => True end.
Definition scale (b : bnd) : Q := match b with (Some l, Some u) => / (u - l) | _ => 1 end.
Lemma scale_pos b : good b -> 0 < scale b.
Proof. destruct b as [[l|] [u|]]; cbn; intros H; try lra. apply Qinv_lt_0_compat. lra. Qed.
Lemma fwd_diff b x y : good b -> zto_forward1 b x - zto_forward1 b y == scale b * (x - y).
Proof. destruct b as [[l|] [u|]]; cbn; intros H; try ring. field. lra. Qed.
Lemma fwd_leb b x y : good b -> Qle_bool (zto_forward1 b x) (zto_forward1 b y) = Qle_bool x y.
Proof.
  intros H. pose proof (fwd_diff b x y H) as E. pose proof (scale_pos b H) as P. destruct (Qle_bool x y) eqn:F.
  - apply Qle_bool_iff in F. apply Qle_bool_iff. assert (scale b * (x - y) <= scale b * 0) by (apply qmul_le; lra). lra.
  - apply qlb_false in F. apply qlb_false. assert (scale b * 0 < scale b * (x - y)) by (apply Qmult_lt_l; lra). lra.
Qed.
Lemma ins_map b a g : good b -> ins (zto_forward1 b a) (map (zto_forward1 b) g) = map (zto_forward1 b) (ins a g).
Proof. intros H. induction g as [|x g IH]; [reflexivity|]. cbn [map ins]. rewrite (fwd_leb b a x H). destruct (Qle_bool a x); [reflexivity|]. cbn [map]. now rewrite IH. Qed.
Lemma cuts_map b r X : good b -> cuts (zto_forward1 b r) (map (zto_forward1 b) X) = map (zto_forward1 b) (cuts r X).
Proof.
  intros H. unfold cuts. induction X as [|x X IH]; [reflexivity|]. cbn [map filter]. rewrite (fwd_leb b r x H). destruct (Qle_bool r x); cbn [negb]; [exact IH|]. cbn [fold_right]. rewrite IH. now apply ins_map.
Qed.
Lemma integral_map b c h h' g : good b -> (forall a, In a g -> h' (zto_forward1 b a) == c * h a) -> integral h' (map (zto_forward1 b) g) == scale b * c * integral h g.
Proof.
  intros Hb. induction g as [|a g IH]; intros H; [cbn; ring|]. destruct g as [|d g]; [cbn; ring|].
  change ((zto_forward1 b d - zto_forward1 b a) * h' (zto_forward1 b a) + integral h' (map (zto_forward1 b) (d :: g)) == scale b * c * ((d - a) * h a + integral h (d :: g))).
  rewrite IH by (intros; apply H; now right). rewrite (H a) by now left. rewrite (fwd_diff b d a Hb). ring.
Qed.
Lemma section_map b bs a D : good b -> Forall (fun p => p <> []) D ->
  section (zto_forward1 b a) (map (map2 zto_forward1 (b :: bs)) D) = map (map2 zto_forward1 bs) (section a D).
Proof.
  intros Hb HD. unfold section. induction D as [|p D IH]; [reflexivity|]. inversion HD as [|? ? H1 H2]; subst. destruct p as [|x p]; [congruence|]. cbn [map]. change (map2 zto_forward1 (b :: bs) (x :: p)) with (zto_forward1 b x :: map2 zto_forward1 bs p). cbn [filter hd]. rewrite (fwd_leb b x a Hb). specialize (IH H2).
  destruct (Qle_bool x a); cbn [map tl]; [f_equal|]; exact IH.
Qed.
Definition qprod (l : list Q) : Q := fold_right Qmult 1 l.
Lemma hv_scale bs : forall ref D, Forall good bs -> length bs = length ref -> dim (length ref) D ->
  hypervolume (map2 zto_forward1 bs ref) (map (map2 zto_forward1 bs) D) == qprod (map scale bs) * hypervolume ref D.
Proof.
  induction bs as [|b bs IH]; intros [|r ref] D Hg HL HD; try discriminate.
  - cbn. destruct D; cbn; ring.
  - injection HL as HL. inversion Hg as [|? ? Hb Hg']; subst. change (map2 zto_forward1 (b :: bs) (r :: ref)) with (zto_forward1 b r :: map2 zto_forward1 bs ref). cbn [hypervolume].
    assert (HN : Forall (fun p => p <> []) D) by (unfold dim in HD; rewrite Forall_forall in *; intros p Hp ->; specialize (HD _ Hp); discriminate).
    assert (EH : map (hd 0) (map (map2 zto_forward1 (b :: bs)) D) = map (zto_forward1 b) (map (hd 0) D)).
    { rewrite !map_map. apply map_ext_in. intros p Hp. rewrite Forall_forall in HN. specialize (HN p Hp). destruct p; [congruence|reflexivity]. }
    rewrite EH, (cuts_map b r _ Hb). change (qprod (map scale (b :: bs))) with (scale b * qprod (map scale bs)).
    apply integral_map; auto. intros a _. rewrite (section_map b bs a D Hb HN). apply IH; auto. now apply section_dim.
Qed.
Print Assumptions hv_scale.
