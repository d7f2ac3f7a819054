(** * C110: the indicators Hypervolume, Epsilon, EpsilonMultiplicative and ApproximateHypervolume *)
From Coq Require Import List Bool ZArith QArith Qminmax Lqa Lia Permutation Sorted Setoid.
From Verif Require Import ListAux M_Survival M_RefDirs2 S_Crowding S_HV M_Norm M_SMS M_HV Thm_Crowding Thm_HV Thm_HV2.
Import ListNotations.
Local Open Scope Q_scope.

(** what the normalisation divides by: the range, or 1 where ideal and nadir agree *)
Definition width (l u : Q) : Q := if Qeq_bool l u then 1 else u - l.
Definition bnd_of (l u : Q) : bnd := if Qeq_bool l u then (Some l, None) else (Some l, Some u).
Lemma zto_init_spec i : forall n, length i = length n -> (zto_init (map Some i) (map Some n) = Some (map2 bnd_of i n) /\ Forall2 Qle i n) \/ (zto_init (map Some i) (map Some n) = None /\ ~ Forall2 Qle i n).
Proof.
  induction i as [|l i IH]; intros [|u n] H; try discriminate; [left; split; [reflexivity|constructor]|]. injection H as H. cbn [map zto_init map2].
  destruct (IH n H) as [[E Ho]|[E Ho]]; rewrite E; unfold zto_init1, bnd_of; destruct (Qeq_bool l u) eqn:E1.
  - left. split; auto. constructor; auto. apply Qeq_bool_iff in E1. lra.
  - destruct (Qle_bool l u) eqn:E2; [left; split; auto; constructor; auto; now apply Qle_bool_iff|]. right. split; auto. intros K. inversion K; subst. apply qlb_false in E2. lra.
  - right. split; auto. intros K. now inversion K.
  - right. split; [destruct (Qle_bool l u); auto|]. intros K. now inversion K.
Qed.
Lemma good_bnds i : forall n, Forall2 Qle i n -> Forall good (map2 bnd_of i n).
Proof. intros n H. induction H as [|l u i n Hl H IH]; cbn [map2]; constructor; auto. unfold bnd_of. destruct (Qeq_bool l u) eqn:E; cbn; auto. apply Qeq_bool_neq in E. lra. Qed.
Lemma prod_widths i : forall n, Forall2 Qle i n -> qprod (map scale (map2 bnd_of i n)) * qprod (map2 width i n) == 1 /\ 0 < qprod (map2 width i n).
Proof.
  intros n H. induction H as [|l u i n Hl H IH]; [split; [reflexivity|cbn; lra]|]. cbn [map2 map]. unfold qprod in *. cbn [fold_right]. destruct IH as [IH1 IH2].
  set (a := fold_right Qmult 1 (map scale _)) in *. set (b := fold_right Qmult 1 (map2 width i n)) in *. unfold width, bnd_of. destruct (Qeq_bool l u) eqn:E; cbn [scale].
  - split; [transitivity (a * b); [ring|exact IH1]|lra].
  - apply Qeq_bool_neq in E. assert (0 < u - l) by lra. split; [transitivity (a * b); [field; lra|exact IH1]|]. rewrite <- (Qmult_0_r (u - l)). now apply Qmult_lt_l.
Qed.
Lemma forward_false bs X : zto_forward false bs X = map (map2 zto_forward1 bs) X.
Proof. unfold zto_forward. apply map_ext. intros r. revert r. induction bs as [|b bs IH]; intros [|x r]; cbn [map2]; auto. Qed.
Lemma bnds_len i n : length i = length n -> length (map2 bnd_of i n) = length i.
Proof. intros H. rewrite length_map2. lia. Qed.

(** ** when the object can be built *)
Theorem C110_init m ref_point pf norm_ref zto ideal nadir :
  let i := fst (derive m pf ideal nadir) in let n := snd (derive m pf ideal nadir) in
  (forall a b, i = Some a -> n = Some b -> length a = length b) ->
  (hv_init m ref_point pf norm_ref zto ideal nadir <> None <->
   (ref_point <> None \/ pf <> None) /\ (zto = true -> exists a b, i = Some a /\ n = Some b /\ Forall2 Qle a b)).
Proof.
  cbv zeta. unfold hv_init. destruct (derive m pf ideal nadir) as [i n] eqn:ED. cbn [fst snd]. intros HL. unfold pre_norm. destruct zto.
  - destruct i as [i|]; destruct n as [n|]; try (split; [congruence|intros [_ K]; destruct (K eq_refl) as (a & b & K1 & K2 & _); congruence]).
    destruct (zto_init_spec i n (HL i n eq_refl eq_refl)) as [[E Ho]|[E Ho]]; rewrite E.
    + destruct ref_point; [split; [intros _; split; [left; congruence|eauto]|congruence]|]. destruct pf; [split; [intros _; split; [right; congruence|eauto]|congruence]|]. split; [congruence|intros [[K|K] _]; congruence].
    + split; [congruence|]. intros [_ K]. destruct (K eq_refl) as (a & b & K1 & K2 & K3). injection K1 as <-. injection K2 as <-. contradiction.
  - destruct ref_point; [split; [intros _; split; [left; congruence|congruence]|congruence]|]. destruct pf; [split; [intros _; split; [right; congruence|congruence]|congruence]|]. split; [congruence|intros [[K|K] _]; congruence].
Qed.

(** ** its value: the hypervolume of the points themselves, per unit of the box between ideal and nadir *)
Theorem C110_value m ref pf norm_ref zto ideal nadir st F : F <> [] -> length ref = m -> dim m F ->
  hv_init m (Some ref) pf norm_ref zto ideal nadir = Some st ->
  (zto = false -> hv_do false st F = Some (hypervolume ref F)) /\
  (forall i n, zto = true -> derive m pf ideal nadir = (Some i, Some n) -> length i = m -> length n = m ->
     exists v, hv_do false st F = Some v /\
       (norm_ref = true -> v * qprod (map2 width i n) == hypervolume ref F) /\
       (norm_ref = false -> forall ref', length ref' = m -> (forall j, (j < m)%nat -> nth j ref 0 == (nth j ref' 0 - nth j i 0) / width (nth j i 0) (nth j n 0)) ->
          v * qprod (map2 width i n) == hypervolume ref' F)).
Proof.
  intros HF Hr HD HI. unfold hv_init in HI. destruct (derive m pf ideal nadir) as [i0 n0] eqn:ED. split.
  - intros ->. cbn [pre_norm] in HI. assert (E : st = (None, ref)) by (destruct norm_ref; cbn in HI; congruence). subst st. unfold hv_do, ind_do. destruct F; [congruence|]. reflexivity.
  - intros i n -> Ei Hi Hn. injection Ei as -> ->. unfold pre_norm in HI. destruct (zto_init_spec i n ltac:(congruence)) as [[E Ho]|[E Ho]]; rewrite E in HI; [|discriminate].
    pose proof (good_bnds i n Ho) as Hg. destruct (prod_widths i n Ho) as [Hp _]. set (bs := map2 bnd_of i n) in *.
    assert (Hbs : length bs = m) by (unfold bs; rewrite bnds_len; congruence).
    assert (SC : forall rr, length rr = m -> hypervolume (map2 zto_forward1 bs rr) (map (map2 zto_forward1 bs) F) * qprod (map2 width i n) == hypervolume rr F).
    { intros rr Hrr. rewrite hv_scale; auto; [|congruence|now rewrite Hrr]. transitivity (qprod (map scale bs) * qprod (map2 width i n) * hypervolume rr F); [ring|]. rewrite Hp. ring. }
    assert (ED' : forall rr, hv_do false (Some bs, rr) F = Some (hypervolume rr (map (map2 zto_forward1 bs) F))).
    { intros rr. unfold hv_do, ind_do, moo_hypervolume, norm_forward. cbn [fst snd]. rewrite forward_false. destruct F; [congruence|reflexivity]. }
    destruct norm_ref.
    + assert (Es : st = (Some bs, map2 zto_forward1 bs ref)) by (cbn [norm_forward] in HI; rewrite forward_false in HI; cbn [map hd] in HI; congruence). subst st.
      eexists. split; [apply ED'|]. split; [intros _; now apply SC|discriminate].
    + assert (Es : st = (Some bs, ref)) by congruence. subst st. eexists. split; [apply ED'|]. split; [discriminate|]. intros _ ref' Hr' HE.
      rewrite <- (SC ref' Hr').
      assert (EQ : forall D, dim m D -> hypervolume ref D == hypervolume (map2 zto_forward1 bs ref') D).
      { assert (F2 : Forall2 Qeq ref (map2 zto_forward1 bs ref')).
        { unfold bs. clear - Hr Hr' Hi Hn HE. revert ref ref' i n Hr Hr' Hi Hn HE. induction m as [|m IH]; intros [|r ref] [|r' ref'] [|l i] [|u n] Hr Hr' Hi Hn HE; try discriminate; [constructor|].
          injection Hr as Hr. injection Hr' as Hr'. injection Hi as Hi. injection Hn as Hn. cbn [map2]. constructor.
          - specialize (HE 0%nat ltac:(lia)). cbn in HE. rewrite HE. unfold width, bnd_of. destruct (Qeq_bool l u) eqn:E; cbn; [field|reflexivity].
          - apply IH; auto. intros j Hj. exact (HE (S j) ltac:(lia)). }
        clear - F2 Hr. intros D. revert m Hr D. induction F2 as [|a b r1 r2 Hab F2 IH]; intros m Hm D HD; [reflexivity|]. cbn in Hm. subst m.
        set (Z := filter (fun z => negb (Qle_bool a z)) (map (hd 0) D)).
        assert (HZa : Forall (fun z => z < a) Z) by apply below_lt. assert (HZb : Forall (fun z => z < b) Z) by (eapply Forall_impl; [|exact HZa]; cbn; intros; lra).
        rewrite (hv_grid' a r1 D Z HZa) by (intros x Hx Hxr; apply below_In; auto). rewrite (hv_grid' b r2 D Z HZb) by (intros x Hx Hxr; apply below_In; split; auto; lra).
        assert (E1 : Forall2 Qeq (grid a Z) (grid b Z)).
        { unfold grid. clear - Hab. induction Z as [|z Z IH]; cbn [fold_right]; [constructor; auto|now apply ins_proper]. }
        rewrite <- (integral_proper _ (grid a Z) (grid b Z)); [|intros x y Hxy; rewrite (section_compat x y D Hxy); reflexivity|exact E1].
        apply integral_ext. intros x _. apply (IH (length r1) eq_refl). now apply section_dim. }
      rewrite EQ; [reflexivity|]. unfold dim in *. rewrite Forall_forall in *. intros p Hp0. apply in_map_iff in Hp0 as (q & <- & Hq). rewrite length_map2, Hbs, (HD q Hq). lia.
Qed.

(** ** Pareto compliance of the indicator, however it is configured *)
Lemma fwd_weakly bs : forall p q, Forall good bs -> weakly p q -> weakly (map2 zto_forward1 bs p) (map2 zto_forward1 bs q).
Proof.
  intros p q Hg H. revert bs Hg. induction H as [|x y p q Hxy H IH]; intros [|b bs] Hg; cbn [map2]; try constructor.
  - inversion Hg; subst. apply Qle_bool_iff. rewrite fwd_leb by assumption. now apply Qle_bool_iff.
  - inversion Hg; subst. apply IH. assumption.
Qed.
Definition sound (m : nat) (st : option (list bnd) * list Q) : Prop :=
  length (snd st) = m /\ match fst st with None => True | Some bs => Forall good bs /\ length bs = m end.
Lemma sound_init m ref_point pf norm_ref zto ideal nadir st :
  (forall r, ref_point = Some r -> length r = m) -> (forall v, ideal = Some v -> length v = m) -> (forall v, nadir = Some v -> length v = m) ->
  hv_init m ref_point pf norm_ref zto ideal nadir = Some st -> sound m st.
Proof.
  intros H1 H2 H3 H. unfold hv_init in H. destruct (derive m pf ideal nadir) as [i n] eqn:ED.
  assert (HL : (forall a, i = Some a -> length a = m) /\ forall a, n = Some a -> length a = m).
  { unfold derive in ED. destruct pf as [pf|]; [|assert (i = ideal /\ n = nadir) as [-> ->] by (split; congruence); split; auto].
    assert (i = Some match ideal with Some i => i | None => col_min m pf end /\ n = Some match nadir with Some i => i | None => col_max m pf end) as [-> ->] by (split; congruence).
    split; intros a Ha; [assert (a = match ideal with Some i => i | None => col_min m pf end) as -> by congruence; destruct ideal; auto|assert (a = match nadir with Some i => i | None => col_max m pf end) as -> by congruence; destruct nadir; auto];
      unfold col_min, col_max; now rewrite map_length, seq_length. }
  destruct HL as [HLi HLn]. destruct (pre_norm zto i n) as [norm|] eqn:EP; [|discriminate].
  assert (HN : match norm with None => True | Some bs => Forall good bs /\ length bs = m end).
  { unfold pre_norm in EP. destruct zto; [|assert (norm = None) as -> by congruence; exact Logic.I]. destruct i as [i|]; destruct n as [n|]; try discriminate.
    destruct (zto_init_spec i n) as [[E Ho]|[E Ho]]; [rewrite (HLi i), (HLn n); auto| |rewrite E in EP; discriminate]. rewrite E in EP. assert (norm = Some (map2 bnd_of i n)) as -> by congruence.
    split; [now apply good_bnds|]. rewrite bnds_len; [auto|rewrite (HLi i), (HLn n); auto]. }
  assert (HR : forall r, length r = m -> length (if norm_ref then hd [] (norm_forward false norm [r]) else r) = m).
  { intros r Hr. destruct norm_ref; auto. destruct norm as [bs|]; [|exact Hr]. cbn [norm_forward]. rewrite forward_false. cbn [map hd]. rewrite length_map2. destruct HN as [_ ->]. lia. }
  destruct ref_point as [r|].
  - assert (st = (norm, if norm_ref then hd [] (norm_forward false norm [r]) else r)) as -> by congruence. split; cbn [fst snd]; auto.
  - destruct pf as [pf|]; [|discriminate]. assert (st = (norm, if norm_ref then hd [] (norm_forward false norm [col_max m pf]) else col_max m pf)) as -> by congruence. split; cbn [fst snd]; auto.
    apply HR. unfold col_max. now rewrite map_length, seq_length.
Qed.
Theorem C110_compliant m ref_point pf norm_ref zto ideal nadir st D E :
  (forall r, ref_point = Some r -> length r = m) -> (forall v, ideal = Some v -> length v = m) -> (forall v, nadir = Some v -> length v = m) ->
  hv_init m ref_point pf norm_ref zto ideal nadir = Some st -> dim m D -> dim m E -> covered_by D E ->
  exists a b, hv_do false st D = Some a /\ hv_do false st E = Some b /\ 0 <= a /\ a <= b.
Proof.
  intros H1 H2 H3 HI HD HE HC. destruct (sound_init _ _ _ _ _ _ _ _ H1 H2 H3 HI) as [Hr HN]. destruct st as [norm ref]. cbn [fst snd] in *.
  assert (G : forall X, dim m X -> exists X', dim m X' /\ hv_do false (norm, ref) X = Some (match X with [] => 0 | _ => hypervolume ref X' end) /\ X' = norm_forward false norm X).
  { intros X HX. exists (norm_forward false norm X). split; [|split; auto]; [|unfold hv_do, ind_do; destruct X; reflexivity].
    destruct norm as [bs|]; [|exact HX]. cbn [norm_forward]. rewrite forward_false. unfold dim in *. rewrite Forall_forall in *. intros p Hp. apply in_map_iff in Hp as (q & <- & Hq). rewrite length_map2, (HX q Hq). destruct HN as [_ ->]. lia. }
  destruct (G D HD) as (D' & HD' & ED & ->). destruct (G E HE) as (E' & HE' & EE & ->). do 2 eexists. split; [exact ED|]. split; [exact EE|].
  assert (P : forall X, dim m X -> 0 <= hypervolume ref X) by (intros X HX; apply (C110_reference ref X); now rewrite Hr).
  destruct D as [|p D].
  - split; [lra|]. destruct E; [lra|]. apply P; auto.
  - split; [apply P; auto|]. destruct E as [|q E]; [destruct (HC p (or_introl eq_refl)) as (? & [] & _)|]. apply C110_hv_monotone; [now rewrite Hr|now rewrite Hr|].
    destruct norm as [bs|]; [|exact HC]. cbn [norm_forward]. rewrite !forward_false. intros z Hz. apply in_map_iff in Hz as (w & <- & Hw). destruct (HC w Hw) as (v & Hv & Hvw). exists (map2 zto_forward1 bs v). split; [apply in_map_iff; eauto|]. destruct HN as [HN _]. now apply fwd_weakly.
Qed.
(** strictly: a new point below the reference point *)
Theorem C110_compliant_strict m ref pf norm_ref zto ideal nadir st D E p : length ref = m ->
  (forall v, ideal = Some v -> length v = m) -> (forall v, nadir = Some v -> length v = m) -> (zto = true -> norm_ref = true) ->
  hv_init m (Some ref) pf norm_ref zto ideal nadir = Some st -> dim m D -> dim m E -> covered_by D E ->
  In p E -> Forall2 Qlt p ref -> (forall q, In q D -> ~ weakly q p) ->
  exists a b, hv_do false st D = Some a /\ hv_do false st E = Some b /\ a < b.
Proof.
  intros Hr H2 H3 Hz HI HD HE HC Hp Hpr Hn.
  assert (HEn : E <> []) by (intros ->; destruct Hp).
  assert (Hpos : 0 < hypervolume ref E) by (apply C110_reference; [now rewrite Hr|eauto]).
  assert (Hlt : hypervolume ref D < hypervolume ref E) by (apply (C110_hv_strict ref D E p); auto; now rewrite Hr).
  destruct zto.
  - specialize (Hz eq_refl). subst norm_ref. unfold hv_init in HI. destruct (derive m pf ideal nadir) as [i0 n0] eqn:ED. destruct i0 as [i|]; [|discriminate]. destruct n0 as [n|]; [|discriminate].
    assert (HL : length i = m /\ length n = m).
    { unfold derive in ED. destruct pf as [pf|]; [|split; [apply H2|apply H3]; congruence].
      assert (i = match ideal with Some i => i | None => col_min m pf end /\ n = match nadir with Some i => i | None => col_max m pf end) as [-> ->] by (split; congruence).
      split; [destruct ideal; auto|destruct nadir; auto]; unfold col_min, col_max; now rewrite map_length, seq_length. }
    destruct HL as [Hi Hn'].
    assert (HI' : hv_init m (Some ref) pf true true ideal nadir = Some st) by (unfold hv_init; rewrite ED; exact HI).
    assert (Ho : Forall2 Qle i n).
    { cbn [pre_norm] in HI. destruct (zto_init_spec i n ltac:(congruence)) as [[E0 Ho]|[E0 Ho]]; [exact Ho|rewrite E0 in HI; discriminate]. }
    destruct (prod_widths i n Ho) as [_ HW]. destruct (C110_value m ref pf true true ideal nadir st E HEn Hr HE HI') as [_ VE]. destruct (VE i n eq_refl ED Hi Hn') as (b & Eb & Vb & _). specialize (Vb eq_refl).
    assert (Gb : 0 < b). { apply Qnot_le_lt. intros K. assert (qprod (map2 width i n) * b <= qprod (map2 width i n) * 0) by (apply qmul_le; lra). lra. }
    destruct D as [|d D]; [exists 0, b; auto|].
    destruct (C110_value m ref pf true true ideal nadir st (d :: D) ltac:(discriminate) Hr HD HI') as [_ VD]. destruct (VD i n eq_refl ED Hi Hn') as (a & Ea & Va & _). specialize (Va eq_refl).
    exists a, b. split; auto. split; auto. apply Qnot_le_lt. intros K. assert (qprod (map2 width i n) * b <= qprod (map2 width i n) * a) by (apply qmul_le; lra). lra.
  - destruct (C110_value m ref pf norm_ref false ideal nadir st E HEn Hr HE HI) as [VE _].
    destruct D as [|d D]; [exists 0, (hypervolume ref E); repeat split; auto|]. destruct (C110_value m ref pf norm_ref false ideal nadir st (d :: D) ltac:(discriminate) Hr HD HI) as [VD _].
    do 2 eexists. split; [now apply VD|]. split; [now apply VE|]. exact Hlt.
Qed.
Print Assumptions C110_compliant_strict.

(** the default reference point is the nadir of [pf]: a front of its extreme points has no volume *)
Theorem C110_default_reference_refuted : exists pf st, pf <> [] /\ hv_init 2 None (Some pf) true false None None = Some st /\ hv_do false st pf = Some 0.
Proof. exists [[0; 1]; [1; 0]], (None, [1; 1]). split; [discriminate|]. split; reflexivity. Qed.
(** an integer objective array is truncated by the normalisation: one point, at half the range, gets the whole box instead of a quarter *)
Theorem C110_integer_refuted : exists st a b, hv_init 2 (Some [10; 10]) None true true (Some [0; 0]) (Some [10; 10]) = Some st /\
  hv_do false st [[5; 5]] = Some a /\ a == 1 # 4 /\ hv_do true st [[5; 5]] = Some b /\ b == 1.
Proof. do 3 eexists. split; [reflexivity|]. split; [reflexivity|]. split; [vm_compute; reflexivity|]. split; [reflexivity|]. vm_compute; reflexivity. Qed.
(** the hypotheses are met *)
Example C110_example : hypervolume [10; 10] [[1; 8]; [4; 4]; [9; 2]; [9; 9]] == 44 /\ covered_by [[5; 5]] [[1; 8]; [4; 4]] /\
  exists st v, hv_init 2 (Some [10; 10]) (Some [[0; 10]; [5; 0]]) true true None None = Some st /\ hv_do false st [[4; 4]; [1; 8]] = Some v /\ v == 42 # 50.
Proof.
  split; [vm_compute; reflexivity|]. split.
  - intros p [<- |[]]. exists [4; 4]. split; [cbn; auto|]. repeat constructor; vm_compute; discriminate.
  - do 2 eexists. split; [vm_compute; reflexivity|]. split; [vm_compute; reflexivity|]. vm_compute; reflexivity.
Qed.
