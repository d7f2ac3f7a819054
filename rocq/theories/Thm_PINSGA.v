(** * C107: preference-based dominance of PINSGA2 *)
From Coq Require Import List ZArith Bool Lia Arith Permutation Floats.SpecFloat.
From Verif Require Import Flt ListAux M_Dominator M_NDS S_Pareto P_Dominator P_Peel P_FastNDS P_NDS1 M_PINSGA.
Import ListNotations.
Local Open Scope nat_scope.

(** ** Specification *)
(** what the decision maker's function says about point [i]: the value of its negated objectives *)
Definition worth (vf : list flt -> flt) (F : list (list flt)) (i : nat) : flt := vf (map fneg (nth i F [])).
Definition below (vf : list flt -> flt) (v2 : flt) (F : list (list flt)) (i : nat) : Prop := fltb (worth vf F i) v2 = true.
Definition above (vf : list flt -> flt) (v2 : flt) (F : list (list flt)) (i : nat) : Prop := fltb v2 (worth vf F i) = true.
(** [i] is better than [j] for the decision maker: worth more than v2, [j] less *)
Definition preferred (vf : list flt -> flt) (v2 : flt) (F : list (list flt)) (i j : nat) : Prop := above vf v2 F i /\ below vf v2 F j.
(** the relation intended: Pareto dominance, or preference *)
Definition pref_dom (vf : list flt -> flt) (v2 : flt) (F : list (list flt)) (i j : nat) : Prop := row_dom F i j \/ preferred vf v2 F i j.
(** the relation the sort works with: a preference counts only if the worse point comes first in the array *)
Definition seen_dom (vf : list flt -> flt) (v2 : flt) (F : list (list flt)) (i j : nat) : Prop :=
  row_dom F i j \/ (j < i /\ preferred vf v2 F i j).
(** a Pareto-better point is never worth less *)
Definition monotone_on (vf : list flt -> flt) (F : list (list flt)) : Prop :=
  forall i j, i < length F -> j < length F -> row_dom F i j -> fleb (worth vf F j) (worth vf F i) = true.

(** ** The matrix *)
Definition beq3 (b : bool) (P : Prop) : Prop := b = true <-> P.

Lemma length_vf_calc pref F F' eps : length (vf_calc pref F F' eps) = length F.
Proof.
  unfold vf_calc. rewrite length_map2, length_map2, !length_reshape.
  destruct pref as [[vf v2]|]; rewrite ?length_map2, ?length_reshape; lia.
Qed.

Lemma vf_calc_none F F' eps : vf_calc None F F' eps = calc_domination_matrix F F' eps.
Proof.
  unfold vf_calc, calc_domination_matrix. cbv zeta.
  match goal with |- map2 _ (map2 _ ?a ?b) _ = _ => generalize a; generalize b end.
  intros lg. induction lg as [|l lg IH]; intros [|s sm]; cbn [map2]; auto.
  f_equal; auto. clear. revert s. induction l as [|x l IH]; intros [|y s]; cbn [map2]; auto. f_equal; auto.
Qed.

Lemma entry_some vf v2 F F' eps i j :
  let G := match F' with None => F | Some G => G end in
  i < length F -> j < length G ->
  entry (vf_calc (Some (vf, v2)) F F' eps) i j =
    let e := entry (calc_domination_matrix F F' eps) i j in
    if fltb (worth vf F i) v2 && fltb v2 (worth vf G j) then (if Z.eqb e 1 then 0%Z else (-1)%Z) else e.
Proof.
  intros G Hi Hj. cbv zeta. rewrite calc_domination_matrix_entry by auto. fold G. unfold rel_eps. cbv zeta.
  unfold vf_calc, entry. fold G.
  set (n := length F). set (m := length G). cbv zeta.
  set (L := flat_map (fun r => repeat r m) F). set (R := concat (repeat G n)).
  set (ps := any2 (fun x y => fltb (fadd x eps) y)). set (pl := any2 (fun x y => fltb (fadd y eps) x)).
  set (Fv := map (fun r => vf (map fneg r)) F). set (Gv := map (fun r => vf (map fneg r)) G).
  set (Lv := flat_map (fun v => repeat v m) Fv). set (Rv := concat (repeat Gv n)).
  assert (HL : length L = (n * m)%nat) by apply length_repeat_rows.
  assert (HR : length R = (n * m)%nat) by apply length_tile.
  assert (HFv : length Fv = n) by (unfold Fv; now rewrite map_length).
  assert (HGv : length Gv = m) by (unfold Gv; now rewrite map_length).
  assert (HLv : length Lv = (n * m)%nat) by (unfold Lv; rewrite length_repeat_rows; now rewrite HFv).
  assert (HRv : length Rv = (n * m)%nat) by (unfold Rv; rewrite length_tile; now rewrite HGv).
  assert (Hin : (i < n /\ j < m /\ i * m + j < n * m)%nat) by (unfold n, m in *; nia). destruct Hin as (Hin & Hjm & Him).
  assert (Hrow : forall p : list flt -> list flt -> bool, length (map2 p L R) = (n * m)%nat).
  { intros p. rewrite length_map2, HL, HR. lia. }
  assert (He : forall p : list flt -> list flt -> bool, nth j (nth i (reshape n m (map2 p L R)) []) false = p (nth i F []) (nth j G [])).
  { intros p. rewrite nth_reshape by assumption.
    rewrite nth_map2 with (da := []) (db := []) by lia.
    unfold L, R. rewrite nth_repeat_rows by auto. unfold m at 1. rewrite nth_tile by auto. reflexivity. }
  assert (Hl1 : nth j (nth i (reshape n m (map (fun v => fltb v v2) Lv)) []) false = fltb (worth vf F i) v2).
  { rewrite nth_reshape by assumption. rewrite (nth_indep _ false (fltb f_nan v2)) by (rewrite map_length; lia).
    rewrite (map_nth (fun v => fltb v v2) Lv f_nan). unfold Lv. rewrite nth_repeat_rows by lia.
    unfold Fv. rewrite (nth_indep _ f_nan (vf (map fneg []))) by (rewrite map_length; auto).
    rewrite (map_nth (fun r => vf (map fneg r)) F []). reflexivity. }
  assert (Hl2 : nth j (nth i (reshape n m (map (fun v => fltb v2 v) Rv)) []) false = fltb v2 (worth vf G j)).
  { rewrite nth_reshape by assumption. rewrite (nth_indep _ false (fltb v2 f_nan)) by (rewrite map_length; lia).
    rewrite (map_nth (fun v => fltb v2 v) Rv f_nan). unfold Rv. rewrite <- HGv at 1. rewrite nth_tile by lia.
    unfold Gv. rewrite (nth_indep _ f_nan (vf (map fneg []))) by (rewrite map_length; auto).
    rewrite (map_nth (fun r => vf (map fneg r)) G []). reflexivity. }
  assert (Hr1 : forall p : list flt -> list flt -> bool, length (nth i (reshape n m (map2 p L R)) []) = m) by (intros; now apply length_row_reshape).
  assert (Hr2 : length (nth i (reshape n m (map (fun v => fltb v v2) Lv)) []) = m) by (apply length_row_reshape; auto; now rewrite map_length).
  assert (Hr3 : length (nth i (reshape n m (map (fun v => fltb v2 v) Rv)) []) = m) by (apply length_row_reshape; auto; now rewrite map_length).
  repeat first [ rewrite nth_map2 with (da := []) (db := []) by (rewrite ?length_map2, ?length_reshape; lia)
               | rewrite nth_map2 with (da := false) (db := false) by (rewrite ?length_map2, ?Hr1, ?Hr2, ?Hr3; lia) ].
  rewrite !He, Hl1, Hl2.
  destruct (ps _ _), (pl _ _), (fltb (worth vf F i) v2), (fltb v2 (worth vf G j)); reflexivity.
Qed.

(** Without a preference the matrix is the ordinary one, for every F, _F and epsilon.  With one, exactly the pairs (row worth less than v2, column worth
    more) are touched: -1 unless the row Pareto-dominates the column, and then 0. *)
Theorem C107_matrix : 
  (forall F F' eps, vf_calc None F F' eps = calc_domination_matrix F F' eps) /\
  (forall vf v2 m F i j, rect m F -> mat_ok F -> i < length F -> j < length F ->
     let e := entry (vf_calc (Some (vf, v2)) F None f_zero) i j in
     (e = 1%Z <-> row_dom F i j /\ ~ preferred vf v2 F j i) /\
     (e = (-1)%Z <-> ~ row_dom F i j /\ (row_dom F j i \/ preferred vf v2 F j i)) /\
     (e = 0%Z <-> (row_dom F i j /\ preferred vf v2 F j i) \/ (~ row_dom F i j /\ ~ row_dom F j i /\ ~ preferred vf v2 F j i))).
Proof.
  split; [apply vf_calc_none|]. intros vf v2 m F i j Hr Hok Hi Hj e.
  assert (He := entry_some vf v2 F None f_zero i j Hi Hj). cbv zeta in He. fold e in He.
  rewrite (matrix_entry m) in He by auto.
  destruct (get_relation_obj_spec (nth i F []) (nth j F [])) as (H1 & H2 & H3); auto using mat_ok_nth.
  { rewrite !(rect_nth m); auto. }
  fold (row_dom F i j) in H1. fold (row_dom F j i) in H2.
  assert (Has : row_dom F i j -> ~ row_dom F j i) by (intros Ha Hb; exact (dominates_asym _ _ Ha Hb)).
  assert (HP : fltb (worth vf F i) v2 && fltb v2 (worth vf F j) = true <-> preferred vf v2 F j i).
  { rewrite andb_true_iff. unfold preferred, above, below. tauto. }
  destruct (fltb (worth vf F i) v2 && fltb v2 (worth vf F j)) eqn:E.
  - assert (Hp : preferred vf v2 F j i) by (apply HP; auto).
    destruct (Z.eqb_spec (get_relation (nth i F []) (nth j F []) None None) 1) as [E1|E1]; rewrite He.
    + assert (row_dom F i j) by (apply H1; auto). intuition lia.
    + assert (~ row_dom F i j) by (intros Hc; apply E1, H1; auto). intuition lia.
  - assert (Hp : ~ preferred vf v2 F j i) by (rewrite <- HP; discriminate).
    destruct (get_relation_range (nth i F []) (nth j F []) None None) as [Z0|[Z1|Z2]].
    + rewrite He, Z0. rewrite Z0 in H1, H2. intuition lia.
    + rewrite He, Z1. rewrite Z1 in H1, H2. intuition lia.
    + rewrite He, Z2. rewrite Z2 in H1, H2. intuition lia.
Qed.

(** ** The fronts *)
Lemma preferred_irrefl vf v2 F i : ~ preferred vf v2 F i i.
Proof. intros [Ha Hb]. unfold above, below in *. apply flt_asym in Ha. congruence. Qed.

Lemma pref_dom_trans vf v2 F : monotone_on vf F -> forall i j k, i < length F -> j < length F -> k < length F ->
  pref_dom vf v2 F i j -> pref_dom vf v2 F j k -> pref_dom vf v2 F i k.
Proof.
  intros Hm i j k Hi Hj Hk [H|[Ha Hb]] [H'|[Ha' Hb']].
  - left. eapply row_dom_trans; eauto.
  - right. split; auto. unfold above in *. eapply flt_le_trans; [exact Ha'|]. now apply Hm.
  - right. split; auto. unfold below in *. eapply fle_lt_trans; [|exact Hb]. now apply Hm.
  - right. split; auto.
Qed.
Lemma pref_dom_irrefl vf v2 F i : ~ pref_dom vf v2 F i i.
Proof. intros [H|H]; [now apply row_dom_irrefl in H | now apply preferred_irrefl in H]. Qed.

Lemma D_seen vf v2 m F i j : rect m F -> mat_ok F -> monotone_on vf F -> i < length F -> j < length F ->
  (seen_dom vf v2 F i j <-> D (vf_calc (Some (vf, v2)) F None f_zero) i j = true).
Proof.
  intros Hr Hok Hm Hi Hj.
  assert (Hex : forall a b, a < length F -> b < length F -> row_dom F a b -> ~ preferred vf v2 F b a).
  { intros a b Ha Hb Hd [H1 H2]. unfold above, below in *.
    assert (fltb (worth vf F a) (worth vf F b) = true) by (eapply flt_trans; eauto).
    apply (Hm a b Ha Hb) in Hd. apply fle_not_lt in Hd. congruence. }
  unfold D. destruct (Nat.ltb_spec i j) as [Hlt|Hge].
  - rewrite Z.eqb_eq. destruct (proj2 C107_matrix vf v2 m F i j Hr Hok Hi Hj) as (E & _ & _). rewrite E.
    split; [intros [H|[H _]]; [split; auto|lia] | intros [H _]; now left].
  - destruct (Nat.ltb_spec j i) as [Hlt|Hge'].
    + rewrite Z.eqb_eq. destruct (proj2 C107_matrix vf v2 m F j i Hr Hok Hj Hi) as (_ & E & _). rewrite E.
      split.
      * intros [H|[_ H]]; [split; [apply dominates_asym; auto|auto]|]. split; auto. intros Hc. apply (Hex j i); auto.
      * intros [_ [H|H]]; [now left | right; auto].
    + assert (i = j) by lia. subst. split; [|discriminate].
      intros [H|[H _]]; [exfalso; now apply row_dom_irrefl in H | lia].
Qed.

(** When no Pareto-better point is worth less, the sort ends; its fronts are the layers of: Pareto dominance, or being preferred and placed later in the
    array.  So nobody in front is Pareto-dominated by someone behind or beside, and nobody in front has a preferred point behind or beside in a later place. *)
Theorem C107_fronts vf v2 m F : rect m F -> mat_ok F -> monotone_on vf F ->
  exists fronts, vf_fronts (Some (vf, v2)) F = Some fronts /\ is_peeling (length F) (seen_dom vf v2 F) fronts /\
    forall k k' i j, In i (nth k fronts []) -> In j (nth k' fronts []) ->
      row_dom F j i \/ (i < j /\ preferred vf v2 F j i) -> k' < k.
Proof.
  intros Hr Hok Hm. unfold vf_fronts, fast_nds.
  destruct (fast_nds_matrix_layered_acyclic (vf_calc (Some (vf, v2)) F None f_zero) (seen_dom vf v2 F)) as (out & H1 & H2).
  - rewrite length_vf_calc. intros i j Hi Hj. now apply (D_seen vf v2 m).
  - rewrite length_vf_calc. intros U HU HUn.
    set (dom' := fun i j => i < length F /\ j < length F /\ pref_dom vf v2 F i j).
    destruct (minimal_exists dom') with (l := U) as (x & Hx & Hmin); auto.
    + intros i j. destruct (Nat.lt_ge_cases i (length F)) as [Hi|Hi]; [|right; intros (? & _); lia].
      destruct (Nat.lt_ge_cases j (length F)) as [Hj|Hj]; [|right; intros (_ & ? & _); lia].
      destruct (get_relation_obj_spec (nth i F []) (nth j F [])) as (K & _); auto using mat_ok_nth.
      { rewrite !(rect_nth m); auto. } fold (row_dom F i j) in K.
      destruct (Z.eq_dec (get_relation (nth i F []) (nth j F []) None None) 1) as [E|E].
      { left. split; auto. split; auto. left. now apply K. }
      unfold dom', pref_dom, preferred, above, below.
      destruct (fltb v2 (worth vf F i)); [|right; intros (_ & _ & [H|[H _]]); [apply E, K; auto | discriminate]].
      destruct (fltb (worth vf F j) v2); [|right; intros (_ & _ & [H|[_ H]]); [apply E, K; auto | discriminate]].
      left. split; [auto|]. split; [auto|]. right. auto.
    + intros i (_ & _ & H). now apply pref_dom_irrefl in H.
    + intros i j k (Hi & Hj & H) (_ & Hk & H'). split; auto. split; auto. eapply pref_dom_trans with (j := j); eauto.
    + exists x. split; auto. intros y Hy Hd. apply (Hmin y Hy). split; auto. split; auto.
      destruct Hd as [Hd|[_ Hd]]; [now left | now right].
  - exists out. split; [exact H1|]. rewrite length_vf_calc in H2. split; [now apply layered_peeling|].
    destruct H2 as (_ & _ & HA & _). intros k k' i j Hi Hj H. eapply HA; eauto.
Qed.

(** in particular, when the points worth less than v2 come before those worth more, the fronts are those of the relation intended *)
Theorem C107_fronts_sorted vf v2 m F : rect m F -> mat_ok F -> monotone_on vf F ->
  (forall i j, i < length F -> j < length F -> preferred vf v2 F i j -> j < i) ->
  exists fronts, vf_fronts (Some (vf, v2)) F = Some fronts /\ is_peeling (length F) (pref_dom vf v2 F) fronts.
Proof.
  intros Hr Hok Hm Hs. destruct (C107_fronts vf v2 m F Hr Hok Hm) as (fr & H1 & (P1 & P2 & P3) & _).
  exists fr. split; auto. split; auto. split; auto. intros k i Hk. rewrite (P3 k i Hk).
  split; intros (Ha & Hb & Hc); (split; [auto|split; [auto|]]); intros j Hj He Hd; apply (Hc j Hj He).
  - destruct Hd as [Hd|Hd]; [now left | right; split; auto].
  - destruct Hd as [Hd|[_ Hd]]; [now left | now right].
Qed.

(** without a preference the fronts are the Pareto fronts *)
Theorem C107_no_preference m F : rect m F -> mat_ok F ->
  exists fronts, vf_fronts None F = Some fronts /\ is_peeling (length F) (row_dom F) fronts.
Proof.
  intros Hr Hok. unfold vf_fronts, fast_nds. rewrite vf_calc_none. exact (fast_nds_peeling m F Hr Hok).
Qed.

Lemma row_dom_test m F i j : rect m F -> mat_ok F -> i < length F -> j < length F -> row_dom F i j ->
  get_relation (nth i F []) (nth j F []) None None = 1%Z.
Proof.
  intros Hr Hok Hi Hj Hd. destruct (get_relation_obj_spec (nth i F []) (nth j F [])) as (K & _); auto using mat_ok_nth.
  { rewrite !(rect_nth m); auto. } now apply K.
Qed.

(** ** The order of the rows matters *)
(** value of a row: minus its first objective (linear, weights 1 and 0) *)
Definition ex_lin (p : list flt) : flt := nth 0 p f_nan.
Definition ex_low : list flt := [fz 3; fz 1].
Definition ex_high : list flt := [fz 1; fz 3].
(** The same two points, one preferred: listed worse first they make two fronts, listed better first one front. *)
Theorem C107_order_refuted :
  monotone_on ex_lin [ex_low; ex_high] /\ monotone_on ex_lin [ex_high; ex_low] /\
  preferred ex_lin (fz (-2)) [ex_low; ex_high] 1 0 /\ preferred ex_lin (fz (-2)) [ex_high; ex_low] 0 1 /\
  vf_fronts (Some (ex_lin, fz (-2))) [ex_low; ex_high] = Some [[1]; [0]] /\
  vf_fronts (Some (ex_lin, fz (-2))) [ex_high; ex_low] = Some [[0; 1]].
Proof.
  assert (N1 : ~ row_dom [ex_low; ex_high] 0 1 /\ ~ row_dom [ex_low; ex_high] 1 0 /\ ~ row_dom [ex_high; ex_low] 0 1 /\ ~ row_dom [ex_high; ex_low] 1 0).
  { repeat split; intros H; apply row_dom_test with (m := 2) in H; try discriminate H; repeat constructor. }
  destruct N1 as (A & B & C & E).
  assert (M : forall F, length F = 2 -> ~ row_dom F 0 1 -> ~ row_dom F 1 0 -> monotone_on ex_lin F).
  { intros F HF H1 H2 [|[|i]] [|[|j]] Hi Hj Hd; try lia; try tauto; now apply row_dom_irrefl in Hd. }
  split; [apply M; auto|]. split; [apply M; auto|].
  repeat split; vm_compute; reflexivity.
Qed.

(** ** A value function that is not monotone can make the sort run for ever *)
Definition ex_mul (p : list flt) : flt := SFmul 53 1024 (nth 0 p f_nan) (nth 1 p f_nan).
Definition ex_cycle : list (list flt) := map (map fz) [[0; 10]; [10; 0]; [12; 2]; [2; 12]; [1; 11]; [11; 1]]%Z.
(** every one of the six points is dominated in the relation the sort sees, so the loop [while n_ranked < n] never ends, whatever the number of passes *)
Theorem C107_hang_refuted :
  vf_fronts (Some (ex_mul, fz 11)) ex_cycle = None /\
  forall fuel,
    let M := vf_calc (Some (ex_mul, fz 11)) ex_cycle None f_zero in
    let '(isd, nd, cur, n_ranked) := fold_left (fast_outer M (length M)) (seq 0 (length M)) (repeat [] (length M), repeat 0%Z (length M), [], 0) in
    fast_while fuel (length M) isd nd cur n_ranked [cur] = None.
Proof.
  split; [vm_compute; reflexivity|]. intros fuel M. apply (fast_nds_matrix_stuck M).
  - vm_compute. lia.
  - intros i Hi. assert (HM : length M = 6) by reflexivity. rewrite HM in *.
    assert (G : existsb (fun j => D M j i) (seq 0 6) = true).
    { do 6 (destruct i as [|i]; [vm_compute; reflexivity|]). lia. }
    apply existsb_exists in G as (j & Hj & Hd). apply in_seq in Hj. exists j. split; [lia|auto].
Qed.

(** a concrete case of the hypotheses with both relations at work *)
Definition ex_three : list (list flt) := map (map fz) [[5; 1]; [1; 5]; [6; 2]]%Z.
Example C107_fronts_example :
  rect 2 ex_three /\ mat_ok ex_three /\ monotone_on ex_lin ex_three /\
  vf_fronts (Some (ex_lin, fz (-3))) ex_three = Some [[1]; [0]; [2]].
Proof.
  split; [repeat constructor|]. split; [repeat constructor|]. split; [|vm_compute; reflexivity].
  intros i j Hi Hj Hd. apply row_dom_test with (m := 2) in Hd; auto; [|repeat constructor|repeat constructor].
  assert (H3 : length ex_three = 3) by reflexivity. rewrite H3 in *.
  do 3 (destruct i as [|i]; [do 3 (destruct j as [|j]; [first [discriminate Hd | vm_compute; reflexivity]|]); lia|]). lia.
Qed.
