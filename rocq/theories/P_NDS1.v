(** * fast sort on objective matrices; ENS; find_non_dominated; NonDominatedSorting.do *)
From Coq Require Import List ZArith Bool Lia Arith Permutation.
From Verif Require Import Flt ListAux M_Dominator M_NDS S_Pareto S_NDS P_Dominator P_Peel P_FastNDS.
Import ListNotations.

Lemma length_calc F G eps : length (calc_domination_matrix F G eps) = length F.
Proof. unfold calc_domination_matrix. rewrite length_map2, !length_reshape. lia. Qed.

Lemma row_dom_irrefl F i : ~ row_dom F i i.
Proof. apply dominates_irrefl. Qed.
Lemma row_dom_trans F i j k : row_dom F i j -> row_dom F j k -> row_dom F i k.
Proof. apply dominates_trans. Qed.

(** a dominator encodes [dom]: what is read from the strict upper triangle *)
Definition encodes (M : list (list Z)) (dom : nat -> nat -> Prop) : Prop :=
  forall i j, i < j -> j < length M ->
    (entry M i j = 1%Z <-> dom i j) /\ (entry M i j = (-1)%Z <-> dom j i).

Lemma fast_nds_matrix_peeling M dom :
  encodes M dom -> (forall i, i < length M -> ~ dom i i) ->
  (forall i j k, i < length M -> j < length M -> k < length M -> dom i j -> dom j k -> dom i k) ->
  exists fronts, fast_nds_matrix M = Some fronts /\ is_peeling (length M) dom fronts.
Proof.
  intros He Hi Ht. destruct (fast_nds_matrix_layered M dom) as (out & H1 & H2); auto.
  - intros i j Hin Hjn. unfold D. destruct (Nat.ltb_spec i j) as [H|H].
    + rewrite Z.eqb_eq. destruct (He i j H Hjn) as [E _]. now rewrite E.
    + destruct (Nat.ltb_spec j i) as [H'|H'].
      * rewrite Z.eqb_eq. destruct (He j i H' Hin) as [_ E]. now rewrite E.
      * assert (i = j) by lia. subst. split; [intros Hd; exfalso; eapply Hi; eauto | discriminate].
  - exists out. split; auto. now apply layered_peeling.
Qed.

Lemma calc_encodes m F : rect m F -> mat_ok F -> encodes (calc_domination_matrix F None f_zero) (row_dom F).
Proof.
  intros Hr Hok i j Hij Hj. rewrite length_calc in Hj. rewrite (matrix_entry m) by (auto; lia).
  destruct (get_relation_obj_spec (nth i F []) (nth j F [])) as (H1 & H2 & _); auto using mat_ok_nth.
  rewrite !(rect_nth m); auto; lia.
Qed.

Lemma fast_nds_peeling m F : rect m F -> mat_ok F ->
  exists fronts, fast_nds (fun F => calc_domination_matrix F None f_zero) F = Some fronts /\
                 is_peeling (length F) (row_dom F) fronts.
Proof.
  intros Hr Hok. unfold fast_nds.
  destruct (fast_nds_matrix_peeling _ _ (calc_encodes m F Hr Hok)) as (fr & H1 & H2).
  - intros; apply row_dom_irrefl.
  - intros i j k _ _ _. apply row_dom_trans.
  - rewrite length_calc in H2. eauto.
Qed.

Lemma peeling_1 dom : ~ dom 0 0 -> is_peeling 1 dom [[0]].
Proof.
  intros H. apply layered_peeling. split; [simpl; auto|]. split; [intros [|[|k]]; simpl; try lia; discriminate|]. split.
  - intros [|[|k]] [|[|k']] i j Hi Hj Hd; simpl in *; try tauto. destruct Hi as [<-|[]], Hj as [<-|[]]. tauto.
  - intros [|k] i Hi; destruct Hi.
Qed.

Lemma std_fast_nds_peeling m F I0 : 0 < m -> rect m F -> mat_ok F ->
  exists fronts, std_fast_nds (fun F => calc_domination_matrix F None f_zero) false I0 F = Some fronts /\
                 is_peeling (length F) (row_dom F) fronts.
Proof.
  intros Hm Hr Hok. unfold std_fast_nds. destruct (Nat.eqb_spec (length F) 0) as [H0|H0].
  - simpl. exists []. split; auto. rewrite H0. apply layered_peeling. split; [auto|]. split; [simpl; lia|].
    split; intros [|k]; simpl; tauto.
  - simpl. assert (length (nth 0 F []) = m) as -> by (apply rect_nth; auto; lia).
    destruct (Nat.eqb_spec m 0); [lia|]. simpl. destruct (Nat.leb_spec (length F) 1).
    + assert (length F = 1) as -> by lia. simpl. exists [[0]]. split; auto. apply peeling_1, row_dom_irrefl.
    + now apply (fast_nds_peeling m).
Qed.

(** ** find_non_dominated *)
Lemma any2_cons p x a y b : any2 p (x :: a) (y :: b) = p x y || any2 p a b.
Proof. reflexivity. Qed.

Lemma dom_scan_spec a b better : length a = length b ->
  dom_scan f_zero a b better =
    (fst (dom_scan f_zero a b better), snd (dom_scan f_zero a b better)) /\
  (fst (dom_scan f_zero a b better) && snd (dom_scan f_zero a b better) =
    (better || lt_somewhere a b) && negb (lt_somewhere b a)).
Proof.
  split; [now destruct (dom_scan f_zero a b better)|].
  revert b better H. induction a as [|x a IH]; intros [|y b] better H; simpl in H; try discriminate.
  - simpl. unfold lt_somewhere; simpl. now rewrite orb_false_r, andb_true_r.
  - injection H as H. cbn [dom_scan]. rewrite !fadd_zero_lt_l. unfold lt_somewhere in *. rewrite !any2_cons.
    destruct (fltb x y) eqn:E1.
    + rewrite IH by auto. rewrite (flt_asym _ _ E1). simpl. now rewrite orb_true_r.
    + destruct (fltb y x) eqn:E2.
      * simpl. now rewrite andb_false_r.
      * rewrite IH by auto. simpl. reflexivity.
Qed.

Lemma find_non_dominated_std_spec m F : rect m F -> mat_ok F -> forall i,
  In i (find_non_dominated_std F f_zero) <-> i < length F /\ forall j, j < length F -> ~ row_dom F j i.
Proof.
  intros Hr Hok i. unfold find_non_dominated_std. rewrite filter_In, in_seq, negb_true_iff.
  split.
  - intros [Hi Hex]. split; [lia|]. intros j Hj Hd. apply not_true_iff_false in Hex. apply Hex.
    apply existsb_exists. exists j. split; [apply in_seq; lia|].
    destruct (Nat.eqb_spec i j) as [->|Hne]; [exfalso; eapply row_dom_irrefl; eauto|]. simpl.
    assert (HL : length (nth j F []) = length (nth i F [])) by (rewrite !(rect_nth m); auto; lia).
    destruct (dom_scan_spec (nth j F []) (nth i F []) false HL) as [E1 E2]. rewrite E1, E2. simpl.
    apply dominates_iff in Hd; auto using mat_ok_nth. destruct Hd as [-> ->]. reflexivity.
  - intros [Hi Hnd]. split; [lia|]. apply not_true_iff_false. intros Hex.
    apply existsb_exists in Hex as (j & Hj & H). apply in_seq in Hj. apply andb_true_iff in H as [_ H].
    assert (HL : length (nth j F []) = length (nth i F [])) by (rewrite !(rect_nth m); auto; lia).
    destruct (dom_scan_spec (nth j F []) (nth i F []) false HL) as [E1 E2]. rewrite E1, E2 in H. simpl in H.
    apply (Hnd j); [lia|]. apply dominates_iff; auto using mat_ok_nth.
    apply andb_true_iff in H as [H1 H2]. apply negb_true_iff in H2. auto.
Qed.

Lemma calc_row_length F G eps i : i < length F ->
  length (nth i (calc_domination_matrix F (Some G) eps) []) = length G.
Proof.
  intros Hi. unfold calc_domination_matrix.
  rewrite nth_map2 with (da := []) (db := []) by (now rewrite length_reshape).
  rewrite length_map2, !length_row_reshape; auto; try lia;
    rewrite length_map2, length_repeat_rows, length_tile; lia.
Qed.

Lemma find_non_dominated_cross m F G is_nd : rect m F -> rect m G -> mat_ok F -> mat_ok G -> forall i,
  In i (find_non_dominated is_nd F (Some G)) <->
  i < length F /\ forall j, j < length G -> ~ dominates (nth j G []) (nth i F []).
Proof.
  intros HrF HrG HF HG i. unfold find_non_dominated. destruct (Nat.eqb_spec (length F) 0) as [H0|H0].
  - rewrite H0. simpl. split; [tauto | lia].
  - cbv zeta. rewrite In_where. split; intros [Hi H]; (split; [auto|]).
    + intros j Hj Hd. rewrite forallb_forall in H.
      specialize (H (entry (calc_domination_matrix F (Some G) f_zero) i j)).
      rewrite (matrix_entry_cross m) in H by auto.
      destruct (get_relation_obj_spec (nth i F []) (nth j G [])) as (_ & H2 & _); auto using mat_ok_nth.
      { rewrite !(rect_nth m); auto. }
      apply H2 in Hd. rewrite Hd in H. assert (Hf : (0 <=? -1)%Z = true); [|discriminate]. apply H.
      rewrite <- Hd. rewrite <- (matrix_entry_cross m) by auto.
      unfold entry. apply nth_In. now rewrite calc_row_length.
    + apply forallb_forall. intros v Hv. apply In_nth with (d := 0%Z) in Hv as (j & Hj & <-).
      rewrite calc_row_length in Hj by auto.
      change (nth j (nth i (calc_domination_matrix F (Some G) f_zero) []) 0%Z) with (entry (calc_domination_matrix F (Some G) f_zero) i j). rewrite (matrix_entry_cross m) by auto.
      destruct (get_relation_obj_spec (nth i F []) (nth j G [])) as (_ & H2 & _); auto using mat_ok_nth.
      { rewrite !(rect_nth m); auto. }
      specialize (H j Hj). rewrite <- H2 in H.
      destruct (get_relation_range (nth i F []) (nth j G []) None None) as [E|[E|E]]; rewrite E in *; auto.
Qed.

Lemma where_sorted p n : Sorted.StronglySorted lt (where_ p n).
Proof.
  unfold where_. assert (G : forall s k, Sorted.StronglySorted lt (filter p (seq s k))); auto.
  intros s k; revert s; induction k as [|k IH]; intros s; simpl; [constructor|].
  destruct (p s); auto. constructor; auto. apply Forall_forall. intros x Hx.
  apply filter_In in Hx as [Hx _]. apply in_seq in Hx. lia.
Qed.

(** ** lexicographic order *)

Lemma dominates_lexlt a b : vec_ok a -> vec_ok b -> dominates a b -> lexlt a b = true.
Proof.
  intros Ha Hb [H1 H2]. revert Ha Hb H2. induction H1 as [|x y a b Hxy H1 IH]; intros Ha Hb (k & u & v & Hu & Hv & Huv).
  - destruct k; discriminate.
  - simpl. destruct (fltb x y) eqn:E; auto. rewrite (fle_not_lt _ _ Hxy).
    inversion Ha; inversion Hb; subst. apply IH; auto.
    destruct k as [|k]; simpl in *; [congruence|]. exists k, u, v. auto.
Qed.

Lemma lexlt_topological F I : mat_ok F ->
  is_argsort lexlt [] F I ->
  forall p q, p < q -> q < length F -> ~ row_dom F (nth q I 0) (nth p I 0).
Proof.
  intros Hok (HP & Hs) p q Hpq Hq Hd. pose proof (perm_seq_length _ _ HP) as HL.
  specialize (Hs p q Hpq ltac:(lia)). apply dominates_lexlt in Hd; auto using mat_ok_nth. congruence.
Qed.

(** ** ENS *)
Lemma front_non_dominated_spec F cur front :
  front_non_dominated F cur front = true <->
  forall j, In j front -> get_relation cur (nth j F []) None None <> (-1)%Z.
Proof.
  unfold front_non_dominated. rewrite negb_true_iff, <- not_true_iff_false, existsb_exists. split.
  - intros H j Hj E. apply H. exists (nth j F []). split; [|now apply Z.eqb_eq].
    unfold gather. apply in_map_iff. exists j. split; auto. now apply in_rev in Hj.
  - intros H (f & Hf & E). unfold gather in Hf. apply in_map_iff in Hf as (j & <- & Hj). apply in_rev in Hj.
    apply Z.eqb_eq in E. eapply H; eauto.
Qed.

Section ENS.
  Variables (m : nat) (F : fltmat).
  Hypothesis (Hr : rect m F) (Hok : mat_ok F).
  Let dom := row_dom F.

  Lemma fnd_has_dom p front : p < length F -> (forall j, In j front -> j < length F) ->
    (front_non_dominated F (nth p F []) front = true <-> ~ has_dom dom front p).
  Proof.
    intros Hp Hb. rewrite front_non_dominated_spec. unfold has_dom, dom, row_dom. split.
    - intros H (j & Hj & Hd). apply (H j Hj).
      apply (get_relation_obj_spec (nth p F []) (nth j F [])); auto using mat_ok_nth.
      rewrite !(rect_nth m); auto.
    - intros H j Hj E. apply H. exists j. split; auto.
      apply (get_relation_obj_spec (nth p F []) (nth j F [])) in E; auto using mat_ok_nth.
      rewrite !(rect_nth m); auto.
  Qed.

  Definition good_k (fronts : list (list nat)) (p k : nat) : Prop :=
    k <= length fronts /\
    (k < length fronts -> ~ has_dom dom (nth k fronts []) p) /\
    (forall k0, k = S k0 -> has_dom dom (nth k0 fronts []) p).

  Lemma has_dom_dec p front : p < length F -> (forall j, In j front -> j < length F) ->
    has_dom dom front p \/ ~ has_dom dom front p.
  Proof.
    intros Hp Hb. destruct (front_non_dominated F (nth p F []) front) eqn:E.
    - right. now apply fnd_has_dom.
    - left. unfold front_non_dominated in E. apply negb_false_iff, existsb_exists in E as (f & Hf & E).
      unfold gather in Hf. apply in_map_iff in Hf as (j & <- & Hj). apply in_rev in Hj. exists j. split; auto.
      apply Z.eqb_eq in E. apply (get_relation_obj_spec (nth p F []) (nth j F [])) in E; auto using mat_ok_nth.
      rewrite !(rect_nth m); auto.
  Qed.

  Lemma fnd_false p front : p < length F -> (forall j, In j front -> j < length F) ->
    front_non_dominated F (nth p F []) front = false -> has_dom dom front p.
  Proof.
    intros Hp Hb E. destruct (has_dom_dec p front Hp Hb) as [|H]; auto. apply fnd_has_dom in H; auto. congruence.
  Qed.

  Lemma sequential_loop_spec fuel fronts p k :
    p < length F -> (forall k j, In j (nth k fronts []) -> j < length F) ->
    length fronts < fuel + k -> (k < length fronts \/ (length fronts = 0 /\ k = 0)) ->
    (forall k0, k = S k0 -> has_dom dom (nth k0 fronts []) p) ->
    exists r, sequential_loop fuel F (nth p F []) fronts k = Some r /\ good_k fronts p r.
  Proof.
    intros Hp Hb. revert k. induction fuel as [|fuel IH]; intros k Hf Hk Hd; [lia|].
    simpl. destruct (Nat.eqb_spec (length fronts) 0) as [H0|H0].
    - exists 0. split; auto. split; [lia|]. split; [lia|discriminate].
    - destruct (front_non_dominated F (nth p F []) (nth k fronts [])) eqn:E.
      + exists k. split; auto. split; [lia|]. split; auto. intros _. apply fnd_has_dom; eauto.
      + assert (HD : has_dom dom (nth k fronts []) p) by (apply fnd_false; eauto).
        destruct (Nat.leb_spec (length fronts) (k + 1)).
        * exists (length fronts). split; auto. split; [lia|]. split; [lia|].
          intros k0 Hk0. assert (k0 = k) by lia. now subst.
        * apply IH; try lia. intros k0 Hk0. assert (k0 = k) by lia. now subst.
  Qed.

  Lemma mid_bounds a b : a < b -> a < mid a b <= b.
  Proof.
    intros H. unfold mid. pose proof (Nat.div_mod (b + a + 1) 2 ltac:(lia)).
    pose proof (Nat.mod_upper_bound (b + a + 1) 2 ltac:(lia)). lia.
  Qed.

  Lemma mid_lt a b : a + 1 < b -> mid a b < b.
  Proof.
    intros H. unfold mid. pose proof (Nat.div_mod (b + a + 1) 2 ltac:(lia)).
    pose proof (Nat.mod_upper_bound (b + a + 1) 2 ltac:(lia)). lia.
  Qed.

  (** invariant: front kmin-1 holds a dominator (or kmin = 0); front kmax-1 is known to hold none or kmax = number of fronts.
      measure: 2*(kmax-kmin) plus one while front kmax-1 is untested *)
  Lemma binary_loop_spec fuel fronts p kmin kmax k (known : bool) :
    p < length F -> (forall k j, In j (nth k fronts []) -> j < length F) ->
    kmin < kmax -> kmax <= length fronts -> k = mid kmin kmax ->
    (forall k0, kmin = S k0 -> has_dom dom (nth k0 fronts []) p) ->
    (known = true -> ~ has_dom dom (nth (kmax - 1) fronts []) p) ->
    (known = false -> kmax = length fronts) ->
    2 * (kmax - kmin) + (if known then 0 else 1) < fuel ->
    exists r, binary_loop fuel F (nth p F []) fronts kmin kmax k = Some r /\ good_k fronts p r.
  Proof.
    intros Hp Hb. revert kmin kmax k known.
    induction fuel as [|fuel IH]; intros kmin kmax k known Hlt Hle -> Hmin Hkn Hun Hm; [lia|].
    pose proof (mid_bounds kmin kmax Hlt) as Hmb. set (k := mid kmin kmax) in *.
    cbn [binary_loop]. destruct (front_non_dominated F (nth p F []) (nth (k - 1) fronts [])) eqn:E.
    - assert (HN : ~ has_dom dom (nth (k - 1) fronts []) p) by (apply fnd_has_dom; eauto).
      destruct (Nat.eqb_spec k (kmin + 1)) as [Hk|Hk].
      + exists (k - 1). split; auto. split; [lia|]. split; auto.
        intros k0 Hk0. apply Hmin. lia.
      + destruct (Nat.eq_dec k kmax) as [Hkm|Hkm].
        * (* k = kmax only if kmax = kmin + 1 *)
          exfalso. assert (~ kmin + 1 < kmax) by (intros H; apply mid_lt in H; lia). lia.
        * apply (IH kmin k (mid kmin k) true); auto; try lia; discriminate.
    - assert (HD : has_dom dom (nth (k - 1) fronts []) p) by (apply fnd_false; eauto).
      destruct (Nat.eqb_spec kmax (k + 1)) as [Hk|Hk].
      + destruct (Nat.ltb_spec kmax (length fronts)) as [Hkl|Hkl]; simpl.
        * exists (kmax - 1). split; auto. destruct known; [|specialize (Hun eq_refl); lia].
          split; [lia|]. split; auto.
          intros k0 Hk0. assert (k0 = k - 1) by lia. now subst k0.
        * destruct (Nat.eqb_spec k (length fronts)); [lia|].
          apply (IH k kmax (mid k kmax) known); auto; try lia.
          intros k0 Hk0. assert (k0 = k - 1) by lia. now subst k0.
      + simpl. destruct (Nat.eqb_spec k (length fronts)) as [Hkl|Hkl].
        * exists (length fronts). split; auto. split; [lia|]. split; [lia|].
          intros k0 Hk0. assert (k0 = k - 1) by lia. now subst k0.
        * destruct (Nat.eq_dec k kmax) as [Hkm|Hkm].
          -- destruct known; [exfalso; apply Hkn; auto; rewrite <- Hkm; auto | specialize (Hun eq_refl); lia].
          -- apply (IH k kmax (mid k kmax) known); auto; try lia.
             intros k0 Hk0. assert (k0 = k - 1) by lia. now subst k0.
  Qed.

  Lemma search_spec s fronts p :
    p < length F -> layered p dom fronts ->
    exists k, (match s with Sequential => sequential_search F fronts p | Binary => binary_search F fronts p end) = Some k
              /\ good_k fronts p k.
  Proof.
    intros Hp HL.
    assert (Hb : forall k j, In j (nth k fronts []) -> j < length F).
    { intros k j Hj. pose proof (layered_lt _ _ _ _ _ HL Hj). lia. }
    destruct s.
    - apply sequential_loop_spec; auto; try lia; discriminate.
    - unfold binary_search. destruct (Nat.eqb_spec (length fronts) 0) as [H0|H0].
      + exists 0. split; auto. split; [lia|]. split; [lia|discriminate].
      + apply (binary_loop_spec _ _ _ _ _ _ false); auto; try lia; discriminate.
  Qed.

  Lemma ens_fold s : (forall p q, p < q -> q < length F -> ~ dom q p) ->
    exists fronts, fold_left (ens_step s F) (seq 0 (length F)) (Some []) = Some fronts /\ layered (length F) dom fronts.
  Proof.
    intros Htop. assert (G : forall q, q <= length F -> exists fronts,
      fold_left (ens_step s F) (seq 0 q) (Some []) = Some fronts /\ layered q dom fronts); [|apply G; lia].
    induction q as [|q IH]; intros Hq.
    - exists []. split; auto. split; [auto|]. split; [simpl; lia|]. split; intros [|k]; simpl; tauto.
    - destruct IH as (fronts & E & HL); [lia|]. rewrite seq_S, fold_left_app, E. cbn [fold_left plus].
      destruct (search_spec s fronts q ltac:(lia) HL) as (k & Ek & Hk1 & Hk2 & Hk3).
      unfold ens_step at 1. rewrite Ek.
      exists (add_to fronts k q). split.
      + f_equal. unfold add_to. destruct (Nat.leb_spec (length fronts) k) as [Hle|Hgt].
        * destruct (Nat.ltb_spec k (length fronts)); [lia|]. assert (k = length fronts) by lia. subst k.
          rewrite app_nth2, Nat.sub_diag by lia. simpl.
          clear. induction fronts as [|f fronts IH]; simpl; auto. now rewrite IH.
        * destruct (Nat.ltb_spec k (length fronts)); [auto|lia].
      + apply layered_add; auto.
        * intros i j k'. apply row_dom_trans.
        * intros i. apply row_dom_irrefl.
  Qed.
End ENS.

Lemma gather_rect m F I : rect m F -> (forall i, In i I -> i < length F) -> rect m (gather [] F I).
Proof.
  intros Hr HI. apply Forall_forall. intros r Hr'. unfold gather in Hr'. apply in_map_iff in Hr' as (i & <- & Hi).
  apply rect_nth; auto.
Qed.
Lemma gather_ok F I : mat_ok F -> mat_ok (gather [] F I).
Proof.
  intros Hr. apply Forall_forall. intros r Hr'. unfold gather in Hr'. apply in_map_iff in Hr' as (i & <- & Hi).
  now apply mat_ok_nth.
Qed.

Lemma layered_ext n (d d' : nat -> nat -> Prop) f :
  (forall i j, i < n -> j < n -> (d i j <-> d' i j)) -> layered n d f -> layered n d' f.
Proof.
  intros H HL. pose proof HL as (HP & HN & HA & HB). split; [auto|]. split; [auto|]. split.
  - intros k k' i j Hi Hj Hd. eapply HA; eauto. apply H; eauto using layered_lt.
  - intros k i Hi. destruct (HB _ _ Hi) as (j & Hj & Hd). exists j. split; auto. apply H; eauto using layered_lt.
Qed.

Lemma ens_nds_peeling m F I s : rect m F -> mat_ok F -> is_argsort lexlt [] F I ->
  exists fronts, ens_nds s I F = Some fronts /\ is_peeling (length F) (row_dom F) fronts.
Proof.
  intros Hr Hok HI. pose proof HI as [HP _]. pose proof (perm_seq_length _ _ HP) as HL.
  assert (HIn : forall i, In i I -> i < length F) by (intros i Hi; now apply (perm_seq_In _ _ i HP)).
  assert (HlG : length (gather [] F I) = length F) by (now rewrite length_gather).
  destruct (ens_fold m (gather [] F I)) with (s := s) as (fronts & E & HLay).
  - now apply gather_rect.
  - now apply gather_ok.
  - intros p q Hpq Hq. rewrite HlG in Hq. unfold row_dom. rewrite !nth_gather by lia.
    apply (lexlt_topological F I Hok HI); auto.
  - unfold ens_nds. rewrite HlG in *. rewrite E. exists (map (gather 0 I) fronts). split; auto.
    apply layered_peeling. apply (layered_map (length F) (row_dom F) fronts I); auto.
    eapply layered_ext; [|exact HLay]. intros i j Hi Hj. unfold row_dom. rewrite !nth_gather by lia. tauto.
Qed.

(** ** existence of a lexsort *)
Lemma lexlt_asym a b : lexlt a b = true -> lexlt b a = false.
Proof.
  revert b; induction a as [|x a IH]; intros [|y b]; simpl; auto; try discriminate.
  destruct (fltb x y) eqn:E1; [now rewrite (flt_asym _ _ E1)|].
  destruct (fltb y x); [discriminate|auto].
Qed.

Lemma lexlt_nlt_trans m a b c : length a = m -> length b = m -> length c = m -> vec_ok a -> vec_ok b -> vec_ok c ->
  lexlt b a = false -> lexlt c b = false -> lexlt c a = false.
Proof.
  revert a b c; induction m as [|m IH]; intros [|x a] [|y b] [|z c] L1 L2 L3 Ha Hb Hc; simpl in *; try discriminate; auto.
  injection L1 as L1; injection L2 as L2; injection L3 as L3.
  inversion Ha; inversion Hb; inversion Hc; subst.
  destruct (fltb y x) eqn:E1; [discriminate|]. destruct (fltb z y) eqn:E2; [discriminate|].
  assert (Hxy : fleb x y = true) by (now apply nlt_le). assert (Hyz : fleb y z = true) by (now apply nlt_le).
  assert (Hxz : fleb x z = true) by (eapply fle_trans; eauto).
  rewrite (fle_not_lt _ _ Hxz).
  destruct (fltb x z) eqn:E3; auto.
  assert (Ezx : fleb z x = true) by (now apply nlt_le).
  assert (fltb x y = false) as -> by (apply fle_not_lt; eapply fle_trans; eauto).
  assert (fltb y z = false) as -> by (apply fle_not_lt; eapply fle_trans; eauto).
  eauto.
Qed.

Lemma lexsort_exists m F : rect m F -> mat_ok F -> is_argsort lexlt [] F (argsort lexlt [] F).
Proof.
  intros Hr Hok. apply argsort_is_argsort; [apply lexlt_asym|].
  intros x y z Hx Hy Hz. unfold rect, mat_ok in *. rewrite Forall_forall in *.
  apply (lexlt_nlt_trans m); auto.
Qed.

(** ** NonDominatedSorting.do *)

Lemma do_dominator_loop_prefix raw s nr : prefix (do_dominator_loop raw s nr) raw.
Proof.
  revert nr; induction raw as [|f raw IH]; intros nr; simpl; [exists []; auto|].
  destruct (s <=? nr + length f); [exists raw; auto|]. destruct (IH (nr + length f)) as (r & Hr). exists r. simpl. now f_equal.
Qed.

(** the shortest prefix with at least [s] points (or everything), never empty unless [raw] is *)
Lemma do_dominator_loop_spec raw s nr : let out := do_dominator_loop raw s nr in
  (length out < length raw -> s <= nr + length (concat out)) /\
  (forall k, 0 < k < length out -> nr + length (concat (firstn k out)) < s) /\
  (raw <> [] -> out <> []).
Proof.
  revert nr; induction raw as [|f raw IH]; intros nr; simpl; [split; [lia|]; split; [lia|congruence]|].
  destruct (Nat.leb_spec s (nr + length f)) as [H|H]; simpl.
  - split; [intros _; rewrite app_nil_r; lia|]. split; [lia|discriminate].
  - destruct (IH (nr + length f)) as (H1 & H2 & H3). split; [|split; [|discriminate]].
    + intros Hl. rewrite app_length. assert (Hl' : length (do_dominator_loop raw s (nr + length f)) < length raw) by lia.
      specialize (H1 Hl'). lia.
    + intros [|[|k]] Hk; simpl; [lia| rewrite app_nil_r; lia |]. rewrite app_length.
      specialize (H2 (S k)). simpl in H2. rewrite Nat.add_assoc. apply H2. lia.
Qed.

(** with ranks: [full] is the list of all fronts *)

Lemma do_default_loop_spec ranks nf ns rs nr s0 :
  rs = seq s0 (length rs) ->
  let fr := map (fun r => where_ (fun i => nth i ranks 0 =? r) (length ranks)) in
  do_default_loop ranks nf ns rs nr =
    match ns with
    | None => firstn (match nf with Some k => k - s0 | None => length rs end) (fr rs)
    | Some s => do_dominator_loop (firstn (match nf with Some k => k - s0 | None => length rs end) (fr rs)) s nr
    end.
Proof.
  revert nr s0. induction rs as [|r rs IH]; intros nr s0 Hrs fr; simpl.
  - destruct ns; destruct nf; rewrite ?firstn_nil; auto.
  - simpl in Hrs. injection Hrs as -> Hrs.
    destruct nf as [k|].
    + destruct (Nat.leb_spec k s0) as [Hk|Hk].
      * replace (k - s0) with 0 by lia. destruct ns; auto.
      * replace (k - s0) with (S (k - S s0)) by lia. cbn [firstn]. rewrite (IH _ (S s0)) by auto.
        destruct ns; auto.
    + rewrite (IH _ (S s0)) by auto. simpl. destruct ns; auto.
Qed.

Lemma nds_do_default ranks raw big ns nf :
  length ranks <> 0 ->
  nds_do_fronts (length ranks) false ranks raw big false ns nf =
    let full := fronts_of_ranks ranks in
    let full := match nf with Some k => firstn k full | None => full end in
    match ns with None => full | Some s => do_dominator_loop full s 0 end.
Proof.
  intros H. unfold nds_do_fronts. destruct (Nat.eqb_spec (length ranks) 0); [lia|]. cbn [negb].
  rewrite (do_default_loop_spec _ _ _ _ _ 0) by (now rewrite seq_length). rewrite seq_length.
  unfold fronts_of_ranks. cbv zeta. destruct nf as [k|]; rewrite ?Nat.sub_0_r; auto.
  rewrite firstn_all2 by (now rewrite map_length, seq_length). auto.
Qed.

(** the contract of moocore.pareto_rank: rank = number of the front in the Pareto peeling *)

Lemma fold_max_ge l a : a <= fold_left Nat.max l a /\ forall x, In x l -> x <= fold_left Nat.max l a.
Proof.
  revert a; induction l as [|y l IH]; intros a; simpl; [split; [lia|tauto]|].
  destruct (IH (Nat.max a y)) as [H1 H2]. split; [lia|]. intros x [->|Hx]; [lia|auto].
Qed.
Lemma fold_max_in l a : fold_left Nat.max l a = a \/ In (fold_left Nat.max l a) l.
Proof.
  revert a; induction l as [|y l IH]; intros a; simpl; auto.
  destruct (IH (Nat.max a y)) as [H|H]; auto. rewrite H. destruct (Nat.max_spec a y) as [[_ ->]|[_ ->]]; auto.
Qed.

Lemma nth_fronts_of_ranks ranks k i : length ranks <> 0 ->
  (In i (nth k (fronts_of_ranks ranks) []) <-> i < length ranks /\ nth i ranks 0 = k).
Proof.
  intros Hne. unfold fronts_of_ranks. set (g := fun r => _). set (mx := fold_left Nat.max ranks 0).
  destruct (Nat.lt_ge_cases k (mx + 1)) as [Hk|Hk].
  - rewrite nth_indep with (d' := g 0) by (now rewrite map_length, seq_length).
    rewrite map_nth, seq_nth by auto. simpl. unfold g. rewrite In_where, Nat.eqb_eq. tauto.
  - rewrite nth_overflow by (rewrite map_length, seq_length; auto). split; [intros []|].
    intros [Hi <-]. exfalso. destruct (fold_max_ge ranks 0) as [_ H]. specialize (H (nth i ranks 0) (nth_In _ _ Hi)).
    fold mx in H. lia.
Qed.

Lemma fronts_of_ranks_peeling F ranks : length F <> 0 -> is_pareto_rank F ranks ->
  is_peeling (length F) (row_dom F) (fronts_of_ranks ranks).
Proof.
  intros Hne (Hl & fronts & (HP & HN & HF) & Hrk).
  assert (Heq : forall k i, In i (nth k (fronts_of_ranks ranks) []) <-> In i (nth k fronts [])).
  { intros k i. rewrite nth_fronts_of_ranks by lia. split.
    - intros [Hi Hk]. apply Hrk; auto; lia.
    - intros Hi. assert (i < length F).
      { apply (perm_seq_In _ _ i HP). apply in_concat_nth. exists k. split; auto. eapply nth_In_lt; eauto. }
      split; [lia|]. apply Hrk; auto. }
  set (mx := fold_left Nat.max ranks 0).
  assert (Hlen : length (fronts_of_ranks ranks) = length fronts).
  { unfold fronts_of_ranks. rewrite map_length, seq_length. fold mx.
    assert (Hmx : In mx ranks).
    { destruct (fold_max_in ranks 0) as [H|H]; auto. fold mx in H.
      destruct (fold_max_ge ranks 0) as [_ H2]. fold mx in H2. destruct ranks as [|r0 ranks']; [simpl in *; lia|].
      specialize (H2 r0 (or_introl eq_refl)). simpl. left. lia. }
    apply In_nth with (d := 0) in Hmx as (i & Hi & Hri).
    assert (H1 : In i (nth mx fronts [])) by (apply Hrk; auto; lia). apply nth_In_lt in H1.
    destruct (Nat.lt_ge_cases (mx + 1) (length fronts)) as [Hlt|]; [|lia]. exfalso.
    destruct (nth (mx + 1) fronts []) as [|j l] eqn:E; [eapply HN; eauto|].
    assert (Hj : In j (nth (mx + 1) fronts [])) by (rewrite E; simpl; auto).
    assert (j < length F). { apply (perm_seq_In _ _ j HP). apply in_concat_nth. eauto. }
    apply Hrk in Hj; auto. destruct (fold_max_ge ranks 0) as [_ H2]. fold mx in H2.
    assert (Hjr : j < length ranks) by lia.
    specialize (H2 (nth j ranks 0) (nth_In _ _ Hjr)). lia. }
  split; [|split].
  - apply perm_seq_of_NoDup.
    + unfold fronts_of_ranks. generalize (seq_NoDup (fold_left Nat.max ranks 0 + 1) 0). generalize (seq 0 (fold_left Nat.max ranks 0 + 1)) as rs.
      induction rs as [|r rs IH]; intros Hnd; simpl; [constructor|]. apply NoDup_cons_iff in Hnd as [Hr Hnd].
      apply NoDup_app_iff. split; [apply NoDup_where|]. split; [auto|].
      intros x Hx Hx'. apply In_where in Hx as [_ Hx]. apply Nat.eqb_eq in Hx.
      apply in_concat in Hx' as (l & Hl' & Hx'). apply in_map_iff in Hl' as (r' & <- & Hr').
      apply In_where in Hx' as [_ Hx']. apply Nat.eqb_eq in Hx'. congruence.
    + intros i. rewrite <- (perm_seq_In _ _ i HP), !in_concat_nth. split; intros (k & Hk & Hi); exists k; (split; [lia|]); now apply Heq.
  - intros k Hk E. destruct (nth k fronts []) as [|j l] eqn:E2; [eapply (HN k); auto; lia|].
    assert (In j (nth k (fronts_of_ranks ranks) [])) by (apply Heq; rewrite E2; simpl; auto). rewrite E in H. destruct H.
  - intros k i Hk.
    assert (HE : forall i, in_earlier (fronts_of_ranks ranks) k i <-> in_earlier fronts k i).
    { intros i'. split; intros (k' & Hk' & Hi); exists k'; (split; [auto|]); now apply Heq. }
    rewrite Heq, HF by lia. rewrite HE. split; intros (H1 & H2 & H3); (split; [auto|]; split; [auto|]); intros j Hj Hne'; apply H3; auto; rewrite HE in *; auto.
Qed.

(** ranks *)
Lemma rank_inner (l : list nat) v rank i :
  nth i (fold_left (fun rank i => upd rank i v) l rank) 0%Z =
  if (i <? length rank) && mem l i then v else nth i rank 0%Z.
Proof.
  revert rank; induction l as [|x l IH]; intros rank; simpl.
  - now rewrite andb_false_r.
  - rewrite IH, length_upd, nth_upd. destruct (Nat.ltb_spec i (length rank)); simpl.
    + destruct (mem l i) eqn:E; [now rewrite orb_true_r|]. rewrite orb_false_r.
      destruct (Nat.eqb_spec i x) as [->|]; simpl; auto. now rewrite (proj2 (Nat.ltb_lt _ _)).
    + destruct (Nat.eqb_spec i x) as [->|]; simpl; auto. destruct (Nat.ltb_spec x (length rank)); auto; lia.
Qed.

Lemma length_rank_inner (l : list nat) (v : Z) rank : length (fold_left (fun rank i => upd rank i v) l rank) = length rank.
Proof. revert rank; induction l as [|x l IH]; intros rank; simpl; auto. now rewrite IH, length_upd. Qed.

Lemma rank_from_fronts_spec maxsize fronts n :
  NoDup (concat fronts) ->
  (forall k i, k < length fronts -> In i (nth k fronts []) -> i < n ->
     nth i (rank_from_fronts maxsize fronts n) 0%Z = Z.of_nat k) /\
  (forall i, i < n -> ~ In i (concat fronts) -> nth i (rank_from_fronts maxsize fronts n) 0%Z = maxsize) /\
  length (rank_from_fronts maxsize fronts n) = n.
Proof.
  intros Hnd. unfold rank_from_fronts.
  assert (G : forall fr s rank, NoDup (concat fr) ->
    let out := fold_left (fun rank kf => fold_left (fun rank i => upd rank i (Z.of_nat (fst kf))) (snd kf) rank)
                 (combine (seq s (length fr)) fr) rank in
    length out = length rank /\
    (forall k i, k < length fr -> In i (nth k fr []) -> i < length rank -> nth i out 0%Z = Z.of_nat (s + k)) /\
    (forall i, i < length rank -> ~ In i (concat fr) -> nth i out 0%Z = nth i rank 0%Z)).
  { induction fr as [|f fr IH]; intros s rank Hfr; simpl.
    - split; auto. split; [intros; lia | auto].
    - simpl in Hfr. apply NoDup_app_iff in Hfr as (Hf1 & Hf2 & Hd).
      specialize (IH (S s) (fold_left (fun rank i => upd rank i (Z.of_nat s)) f rank) Hf2).
      cbn zeta in IH. rewrite length_rank_inner in IH. destruct IH as (H1 & H2 & H3). split; auto. split.
      + intros [|k] i Hk Hi Hir.
        * rewrite H3 by (auto; intros Hc; eapply Hd; eauto). rewrite rank_inner.
          rewrite (proj2 (Nat.ltb_lt _ _) Hir). rewrite (proj2 (mem_iff f i)) by auto. simpl. f_equal. lia.
        * rewrite (H2 k i) by (auto; lia). f_equal. lia.
      + intros i Hir Hn. rewrite in_app_iff in Hn. rewrite H3 by tauto. rewrite rank_inner.
        destruct (mem f i) eqn:E; [apply mem_iff in E; tauto|]. now rewrite andb_false_r. }
  destruct (G fronts 0 (repeat maxsize n) Hnd) as (H1 & H2 & H3). rewrite repeat_length in *.
  split; [intros k i Hk Hi Hin; now apply H2|]. split; auto.
  intros i Hi Hn. rewrite H3 by auto. now apply nth_repeat'.
Qed.
