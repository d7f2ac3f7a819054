(** * C114: the indicator values of the running metric, rescaled objectives, and MIGD *)
From Coq Require Import List Arith Bool QArith Qabs ZArith Lia Lqa Reals Qreals.
From Verif Require Import ListAux M_Termination M_Default Thm_Default2 M_Indicator S_Indicator Thm_Indicator S_HV M_HV Thm_HV M_Dyn Thm_Dyn M_Running Thm_Running.
Import ListNotations.
Local Open Scope nat_scope.

(** two rows of objectives agree *)
Definition same_row (p q : list Q) : Prop := Forall2 Qeq p q.
Lemma same_row_nth m p q : length p = m -> length q = m -> (same_row p q <-> forall j, j < m -> (nth j p 0 == nth j q 0)%Q).
Proof.
  unfold same_row. revert p q. induction m as [|m IH]; intros [|x p] [|y q] Hp Hq; cbn in *; try lia; [split; [intros; lia|constructor]|].
  injection Hp as Hp. injection Hq as Hq. split.
  - intros H. inversion H; subst. intros [|j] Hj; auto. apply (IH p q); auto. lia.
  - intros H. constructor; [apply (H 0); lia|]. apply (IH p q); auto. intros j Hj. apply (H (S j)). lia.
Qed.
Lemma Q2R_same p q : same_row p q -> map Q2R p = map Q2R q.
Proof. induction 1; cbn; auto. now rewrite IHForall2, (Qeq_eqR _ _ H). Qed.
Lemma points_map m G g : gen_ok m G -> (forall r, In r G -> length (g r) = m) -> points m (map (map Q2R) (map g G)).
Proof.
  intros [HN HL] Hg. split; [destruct G; [congruence|discriminate]|]. intros r Hr. apply in_map_iff in Hr as (r1 & <- & H1). apply in_map_iff in H1 as (r2 & <- & H2). rewrite map_length. auto.
Qed.
Section N.
  Variables (bump : Q -> Q) (m : nat) (F : list (list Q)).
  Hypotheses (HB : forall v, (v <= bump v)%Q) (HF : gen_ok m F).
  Local Notation nrow := (normalize_row (e_ideal (rm_entry bump F)) (e_nadir (rm_entry bump F))).
  Lemma lo_le_hi j : j < m -> (nth j (e_ideal (rm_entry bump F)) 0 <= nth j (e_nadir (rm_entry bump F)) 0)%Q.
  Proof.
    intros Hj. destruct (entry_spec bump HB m F HF) as (_ & _ & _ & S0). destruct (S0 j Hj) as (H1 & (lo & hi & L1 & L2 & L3) & _).
    pose proof (least_unique _ _ _ _ H1 L1). destruct L3 as [[? ->]|[? ->]]; [lra|]. pose proof (HB hi). lra.
  Qed.
  Lemma nrow_mono p q j : length p = m -> length q = m -> j < m -> ((nth j (nrow p) 0 <= nth j (nrow q) 0)%Q <-> (nth j p 0 <= nth j q 0)%Q).
  Proof.
    intros Hp Hq Hj. destruct (nrow_nth bump F m p HF Hp) as [_ E1], (nrow_nth bump F m q HF Hq) as [_ E2]. rewrite (E1 j Hj), (E2 j Hj). pose proof (lo_le_hi j Hj) as HL.
    cbv zeta. set (lo := nth j (e_ideal (rm_entry bump F)) 0%Q) in *. set (hi := nth j (e_nadir (rm_entry bump F)) 0%Q) in *. destruct (Qeq_bool lo hi) eqn:E.
    - split; intros; lra.
    - apply Qeq_bool_neq in E. assert (HP : (0 < hi - lo)%Q) by (apply Qle_lteq in HL as [?|?]; [lra|tauto]). unfold Qdiv. rewrite Qmult_le_r by (now apply Qinv_lt_0_compat). split; intros; lra.
  Qed.
  Lemma nrow_inj p q j : length p = m -> length q = m -> j < m -> ((nth j (nrow p) 0 == nth j (nrow q) 0)%Q <-> (nth j p 0 == nth j q 0)%Q).
  Proof.
    intros Hp Hq Hj. pose proof (nrow_mono p q j Hp Hq Hj) as [A1 A2]. pose proof (nrow_mono q p j Hq Hp Hj) as [B1 B2]. split; intros H; apply Qle_antisym.
    - apply A1. rewrite H. apply Qle_refl.
    - apply B1. rewrite H. apply Qle_refl.
    - apply A2. rewrite H. apply Qle_refl.
    - apply B2. rewrite H. apply Qle_refl.
  Qed.
  Lemma nrow_len p : length p = m -> length (nrow p) = m.
  Proof. intros Hp. now destruct (nrow_nth bump F m p HF Hp). Qed.
  Lemma Q2R_nth j l : nth j (map Q2R l) 0%R = Q2R (nth j l 0%Q).
  Proof. rewrite <- (map_nth Q2R). f_equal. unfold Q2R. cbn. ring. Qed.
  Lemma igd_spec moo G : moo_ok false m moo -> gen_ok m G ->
    (0 <= rm_igd moo m (map nrow F) (map nrow G))%R /\
    (rm_igd moo m (map nrow F) (map nrow G) = 0%R <-> forall p, In p F -> exists q, In q G /\ same_row q p).
  Proof.
    intros HM HG. unfold rm_igd.
    assert (P1 : points m (map (map Q2R) (map nrow F))) by (apply points_map; auto; intros; apply nrow_len; now apply HF).
    assert (P2 : points m (map (map Q2R) (map nrow G))) by (apply points_map; auto; intros; apply nrow_len; now apply HG).
    destruct (C65_zero moo false m false false (map (map Q2R) (map nrow F)) None None (map (map Q2R) (map nrow G)) HM) as (_ & Z1 & _ & Z2); auto.
    { split; [auto|]. split; [discriminate|]. split; [discriminate|]. intros c j _. split; discriminate. }
    split; auto. rewrite Z2. clear Z1 Z2.
    assert (K : forall p q, length p = m -> length q = m -> (same_point m (map Q2R (nrow q)) (map Q2R (nrow p)) <-> same_row q p)).
    { intros p q Hp Hq. rewrite (same_row_nth m) by auto. unfold same_point. split; intros H j Hj.
      - apply (nrow_inj q p j); auto. specialize (H j Hj). rewrite !Q2R_nth in H. now apply eqR_Qeq in H.
      - rewrite !Q2R_nth. apply Qeq_eqR. apply nrow_inj; auto. }
    split.
    - intros H p Hp. destruct (H (map Q2R (nrow p))) as (f & Hf & E); [apply in_map, in_map, Hp|]. apply in_map_iff in Hf as (f1 & <- & H1). apply in_map_iff in H1 as (q & <- & H2).
      exists q. split; auto. apply K; auto; [now apply HF|now apply HG].
    - intros H p Hp. apply in_map_iff in Hp as (p1 & <- & H1). apply in_map_iff in H1 as (p2 & <- & H2). destruct (H p2 H2) as (q & Hq & E).
      exists (map Q2R (nrow q)). split; [apply in_map, in_map, Hq|]. apply K; auto; [now apply HF|now apply HG].
  Qed.
  Lemma hv_spec G G' : gen_ok m G -> gen_ok m G' -> covered_by G G' -> (rm_hv m (map nrow F) (map nrow G) <= rm_hv m (map nrow F) (map nrow G'))%Q.
  Proof.
    intros HG HG' HC. unfold rm_hv, moo_hypervolume.
    assert (HD : forall H, gen_ok m H -> dim (length (repeat 1%Q m)) (map nrow H)).
    { intros H [_ HL]. rewrite repeat_length. apply Forall_forall. intros r Hr. apply in_map_iff in Hr as (r' & <- & Hr'). apply nrow_len. auto. }
    destruct G as [|g G]; [destruct HG; congruence|]. destruct G' as [|g' G']; [destruct HG'; congruence|].
    cbn [map]. rewrite <- !(map_cons nrow). apply C110_hv_monotone; [now apply HD|now apply HD|].
    intros p Hp. apply in_map_iff in Hp as (p' & <- & Hp). destruct (HC p' Hp) as (q & Hq & HW). exists (nrow q). split; [apply in_map_iff; exists q; auto|].
    assert (Lq : length q = m) by now apply HG'. assert (Lp : length p' = m) by now apply HG.
    unfold weakly in *. clear Hp Hq.
    assert (J : forall n (a b : list Q), length a = n -> length b = n -> (forall j, j < n -> (nth j a 0 <= nth j b 0)%Q) -> Forall2 Qle a b).
    { clear. induction n as [|n IH]; intros [|x a] [|y b] Ha Hb H; cbn in *; try lia; constructor; [apply (H 0); lia|apply IH; try lia; intros j Hj; apply (H (S j)); lia]. }
    apply (J m); [now apply nrow_len|now apply nrow_len|]. intros j Hj. apply nrow_mono; auto.
    clear -HW Hj Lq. revert j m Lq Hj. induction HW as [|x y a b Hxy _ IH]; intros j m Lq Hj; cbn in *; [lia|]. destruct j; auto. apply (IH j (m - 1)); lia.
  Qed.
End N.
(** C114: with the indicator igd, an entry is 0 exactly if every current optimum was already among the optima of that generation; the last entry is 0 *)
Theorem C114_igd : forall bump moo period os F r m, (forall v, (v <= bump v)%Q) -> moo_ok false m moo -> Forall (fun o => o = None) r ->
  let w := recent period (somes os ++ [F]) in Forall (gen_ok m) (F :: w) ->
  exists di dn df, rm_out (rm_run bump (rm_igd moo m) period (os ++ Some F :: r)) = Some (di, dn, df) /\
    (forall k, k < length w -> (0 <= nth k df 0)%R /\ (nth k df 0%R = 0%R <-> forall p, In p F -> exists q, In q (nth k w []) /\ same_row q p)) /\
    (period <> Some 0 -> last df 1%R = 0%R).
Proof.
  intros bump moo period os F r m HB HM Hr w HW. eexists _, _, _. split; [now apply rm_result|]. fold w.
  pose proof (Forall_inv HW) as HF. apply Forall_inv_tail in HW. split.
  - intros k Hk. rewrite (nth_indep _ 0%R ((fun G => rm_igd moo m (map (normalize_row (e_ideal (rm_entry bump F)) (e_nadir (rm_entry bump F))) F)
        (map (normalize_row (e_ideal (rm_entry bump F)) (e_nadir (rm_entry bump F))) G)) [])) by (now rewrite map_length).
    rewrite (map_nth (fun G => rm_igd moo m (map (normalize_row (e_ideal (rm_entry bump F)) (e_nadir (rm_entry bump F))) F) (map (normalize_row (e_ideal (rm_entry bump F)) (e_nadir (rm_entry bump F))) G))).
    apply igd_spec; auto. rewrite Forall_forall in HW. apply HW. now apply nth_In.
  - intros Hp. destruct (recent_last period (somes os) F Hp) as [l' E]. unfold w. rewrite E, map_app. cbn [map]. rewrite last_last. apply igd_spec; auto. intros p Hp'. exists p. split; auto.
    unfold same_row. clear. induction p; constructor; auto. reflexivity.
Qed.
(** C114: with the indicator hv, a generation whose optima cover those of another never has the smaller value *)
Theorem C114_hv : forall bump period os F r m, (forall v, (v <= bump v)%Q) -> Forall (fun o => o = None) r ->
  let w := recent period (somes os ++ [F]) in Forall (gen_ok m) (F :: w) ->
  exists di dn df, rm_out (rm_run bump (rm_hv m) period (os ++ Some F :: r)) = Some (di, dn, df) /\
    forall k k', k < length w -> k' < length w -> covered_by (nth k w []) (nth k' w []) -> (nth k df 0 <= nth k' df 0)%Q.
Proof.
  intros bump period os F r m HB Hr w HW. eexists _, _, _. split; [now apply rm_result|]. fold w.
  pose proof (Forall_inv HW) as HF. apply Forall_inv_tail in HW. intros k k' Hk Hk' HC.
  set (f := fun G => rm_hv m (map (normalize_row (e_ideal (rm_entry bump F)) (e_nadir (rm_entry bump F))) F) (map (normalize_row (e_ideal (rm_entry bump F)) (e_nadir (rm_entry bump F))) G)).
  rewrite (nth_indep (n := k) (map f w) 0%Q (f [])) by (now rewrite map_length). rewrite (nth_indep (n := k') (map f w) 0%Q (f [])) by (now rewrite map_length). rewrite !(map_nth f). rewrite Forall_forall in HW. apply hv_spec; auto; apply HW; now apply nth_In.
Qed.

(** ** rescaling objectives *)
Definition rescale (ab : list (Q * Q)) (F : list (list Q)) : list (list Q) := map (fun r => map2 (fun c v => (fst c * v + snd c)%Q) ab r) F.
Definition positive_scale (m : nat) (ab : list (Q * Q)) : Prop := length ab = m /\ forall c, In c ab -> (0 < fst c)%Q.
Definition same_num (a b : num) : Prop := match a, b with Num x, Num y => (x == y)%Q | PInf, PInf | NaN, NaN => True | _, _ => False end.
Section A.
  Variables (m : nat) (ab : list (Q * Q)).
  Hypothesis HA : positive_scale m ab.
  Local Notation al j := (fst (nth j ab (0%Q, 0%Q))).
  Local Notation be j := (snd (nth j ab (0%Q, 0%Q))).
  Lemma al_pos j : j < m -> (0 < al j)%Q.
  Proof. intros Hj. destruct HA as [HL HP]. apply HP. apply nth_In. lia. Qed.
  Lemma rescale_nth r j : length r = m -> j < m -> nth j (map2 (fun c v => (fst c * v + snd c)%Q) ab r) 0%Q = (al j * nth j r 0 + be j)%Q.
  Proof. intros Hr Hj. destruct HA as [HL _]. now rewrite (nth_map2 _ _ _ _ _ (0%Q, 0%Q) 0%Q) by lia. Qed.
  Lemma rescale_ok F : gen_ok m F -> gen_ok m (rescale ab F).
  Proof.
    intros [HN HL]. destruct HA as [HL' _]. split; [destruct F; [congruence|discriminate]|]. intros r Hr. apply in_map_iff in Hr as (r' & <- & Hr). rewrite length_map2. rewrite (HL r' Hr). lia.
  Qed.
  Lemma rescale_least F j v : gen_ok m F -> j < m -> col_least F j v -> col_least (rescale ab F) j (al j * v + be j)%Q.
  Proof.
    intros [HN HL] Hj [(r & Hr & E) H]. pose proof (al_pos j Hj) as HP. split.
    - exists (map2 (fun c v => (fst c * v + snd c)%Q) ab r). split; [now apply (in_map (fun r => map2 (fun c v => (fst c * v + snd c)%Q) ab r))|]. rewrite rescale_nth by auto. now rewrite E.
    - intros r' Hr'. apply in_map_iff in Hr' as (r1 & <- & H1). rewrite rescale_nth by auto. specialize (H r1 H1). assert ((v * al j <= nth j r1 0 * al j)%Q) by (apply Qmult_le_compat_r; auto; lra). lra.
  Qed.
  Lemma rescale_greatest F j v : gen_ok m F -> j < m -> col_greatest F j v -> col_greatest (rescale ab F) j (al j * v + be j)%Q.
  Proof.
    intros [HN HL] Hj [(r & Hr & E) H]. pose proof (al_pos j Hj) as HP. split.
    - exists (map2 (fun c v => (fst c * v + snd c)%Q) ab r). split; [now apply (in_map (fun r => map2 (fun c v => (fst c * v + snd c)%Q) ab r))|]. rewrite rescale_nth by auto. now rewrite E.
    - intros r' Hr'. apply in_map_iff in Hr' as (r1 & <- & H1). rewrite rescale_nth by auto. specialize (H r1 H1). assert ((nth j r1 0 * al j <= v * al j)%Q) by (apply Qmult_le_compat_r; auto; lra). lra.
  Qed.
  Variable bump : Q -> Q.
  Hypotheses (HB : forall v, (v <= bump v)%Q).
  (** no objective is constant *)
  Definition spread (F : list (list Q)) : Prop := forall j, j < m -> exists r r', In r F /\ In r' F /\ (nth j r 0 < nth j r' 0)%Q.
  Lemma spread_lt F j lo hi : spread F -> j < m -> col_least F j lo -> col_greatest F j hi -> (lo < hi)%Q.
  Proof. intros HS Hj [_ H1] [_ H2]. destruct (HS j Hj) as (r & r' & Hr & Hr' & HL). specialize (H1 r Hr). specialize (H2 r' Hr'). lra. Qed.
  Lemma spread_rescale F : gen_ok m F -> spread F -> spread (rescale ab F).
  Proof.
    intros HF HS j Hj. destruct (HS j Hj) as (r & r' & Hr & Hr' & HL). exists (map2 (fun c v => (fst c * v + snd c)%Q) ab r), (map2 (fun c v => (fst c * v + snd c)%Q) ab r').
    split; [now apply (in_map (fun r => map2 (fun c v => (fst c * v + snd c)%Q) ab r))|]. split; [now apply (in_map (fun r => map2 (fun c v => (fst c * v + snd c)%Q) ab r))|].
    rewrite !rescale_nth by (auto; now apply HF). pose proof (al_pos j Hj) as HP. assert ((nth j r 0 * al j < nth j r' 0 * al j)%Q) by (now apply Qmult_lt_r). lra.
  Qed.
  Lemma nadir_spread F j : gen_ok m F -> spread F -> j < m -> col_greatest F j (nth j (e_nadir (rm_entry bump F)) 0%Q).
  Proof.
    intros HF HS Hj. destruct (entry_spec bump HB m F HF) as (_ & _ & _ & S0). destruct (S0 j Hj) as (_ & (lo & hi & L1 & L2 & L3) & _).
    pose proof (spread_lt F j lo hi HS Hj L1 L2). destruct L3 as [[_ ->]|[? _]]; [auto|lra].
  Qed.
  Lemma nrow_rescale F p : gen_ok m F -> spread F -> length p = m ->
    same_row (normalize_row (e_ideal (rm_entry bump (rescale ab F))) (e_nadir (rm_entry bump (rescale ab F))) (map2 (fun c v => (fst c * v + snd c)%Q) ab p))
             (normalize_row (e_ideal (rm_entry bump F)) (e_nadir (rm_entry bump F)) p).
  Proof.
    intros HF HS Hp. pose proof (rescale_ok F HF) as HF'. pose proof (spread_rescale F HF HS) as HS'.
    assert (Hp' : length (map2 (fun c v => (fst c * v + snd c)%Q) ab p) = m) by (destruct HA; rewrite length_map2; lia).
    destruct (nrow_nth bump F m p HF Hp) as [N1 N2]. destruct (nrow_nth bump _ m _ HF' Hp') as [N1' N2']. apply (same_row_nth m); auto. intros j Hj. rewrite (N2 j Hj), (N2' j Hj). cbv zeta.
    destruct (entry_spec bump HB m F HF) as (_ & _ & _ & S1). destruct (S1 j Hj) as (HI & _ & _). pose proof (nadir_spread F j HF HS Hj) as HG.
    destruct (entry_spec bump HB m _ HF') as (_ & _ & _ & S1'). destruct (S1' j Hj) as (HI' & _ & _). pose proof (nadir_spread _ j HF' HS' Hj) as HG'.
    pose proof (spread_lt F j _ _ HS Hj HI HG) as L. pose proof (spread_lt _ j _ _ HS' Hj HI' HG') as L'.
    pose proof (least_unique _ _ _ _ HI' (rescale_least F j _ HF Hj HI)) as U1. pose proof (greatest_unique _ _ _ _ HG' (rescale_greatest F j _ HF Hj HG)) as U2.
    set (lo := nth j (e_ideal (rm_entry bump F)) 0%Q) in *. set (hi := nth j (e_nadir (rm_entry bump F)) 0%Q) in *.
    set (lo' := nth j (e_ideal (rm_entry bump (rescale ab F))) 0%Q) in *. set (hi' := nth j (e_nadir (rm_entry bump (rescale ab F))) 0%Q) in *.
    destruct (Qeq_bool lo hi) eqn:E; [apply Qeq_bool_iff in E; lra|]. destruct (Qeq_bool lo' hi') eqn:E'; [apply Qeq_bool_iff in E'; lra|].
    rewrite rescale_nth by auto. pose proof (al_pos j Hj) as HP. rewrite U1, U2. field. split; [lra|].
    assert ((al j * (hi - lo) > 0)%Q) by (apply Qmult_lt_0_compat; lra). intros K. lra.
  Qed.
  Lemma map_nrow_rescale F G : gen_ok m F -> spread F -> gen_ok m G ->
    map (map Q2R) (map (normalize_row (e_ideal (rm_entry bump (rescale ab F))) (e_nadir (rm_entry bump (rescale ab F)))) (rescale ab G)) =
    map (map Q2R) (map (normalize_row (e_ideal (rm_entry bump F)) (e_nadir (rm_entry bump F))) G).
  Proof.
    intros HF HS [_ HL]. unfold rescale at 3. rewrite !map_map. apply map_ext_in. intros p Hp. apply Q2R_same. apply nrow_rescale; auto.
  Qed.
End A.
Lemma delta_same m a b r a' b' r' v v' : (forall j, j < m -> ~ (r j == 0)%Q) -> (forall j, j < m -> ~ (r' j == 0)%Q) ->
  (forall j, j < m -> (Qabs ((a j - b j) / r j) == Qabs ((a' j - b' j) / r' j))%Q) -> delta_spec m a b r v -> delta_spec m a' b' r' v' -> same_num v v'.
Proof.
  intros Hr Hr' HE. destruct v as [v| |], v' as [v'| |]; cbn.
  - intros [_ [(j & Hj & E) H]] [_ [(j' & Hj' & E') H']]. apply Qle_antisym.
    + rewrite E, (HE j Hj). now apply H'.
    + rewrite E', <- (HE j' Hj'). now apply H.
  - intros _ [(j & Hj & K) _]. now apply (Hr' j Hj).
  - intros _ (j & Hj & K & _). now apply (Hr' j Hj).
  - intros [(j & Hj & K) _]. now destruct (Hr j Hj).
  - auto.
  - intros [(j & Hj & K) _]. now destruct (Hr j Hj).
  - intros (j & Hj & K & _). now destruct (Hr j Hj).
  - intros (j & Hj & K & _). now destruct (Hr j Hj).
  - auto.
Qed.
(** C114: multiplying every objective by a positive number and adding a constant changes nothing, provided no objective is constant in the current generation
    (for the nadir point: in no generation kept) *)
Theorem C114_rescaled : forall bump moo period os F r m ab, (forall v, (v <= bump v)%Q) -> (forall v v', (v == v')%Q -> (bump v == bump v')%Q) ->
  period <> Some 0 -> Forall (fun o => o = None) r -> 1 <= m -> positive_scale m ab ->
  let w := recent period (somes os ++ [F]) in Forall (gen_ok m) w -> spread m F ->
  exists di dn df di' dn', rm_out (rm_run bump (rm_igd moo m) period (os ++ Some F :: r)) = Some (di, dn, df) /\
    rm_out (rm_run bump (rm_igd moo m) period (map (option_map (rescale ab)) (os ++ Some F :: r))) = Some (di', dn', df) /\
    (forall k, S k < length w -> same_num (nth k di NaN) (nth k di' NaN)) /\
    (Forall (spread m) w -> forall k, S k < length w -> same_num (nth k dn NaN) (nth k dn' NaN)).
Proof.
  intros bump moo period os F r m ab HB HB2 Hp Hr Hm HA w HW HS.
  assert (HF : gen_ok m F). { destruct (recent_last period (somes os) F Hp) as [l' E]. fold w in E. rewrite E in HW. apply Forall_app in HW as [_ HW]. now apply Forall_inv in HW. }
  assert (ES : somes (map (option_map (rescale ab)) os) = map (rescale ab) (somes os)) by (clear; induction os as [|[x|] os IH]; cbn; auto; now rewrite IH).
  assert (Hr' : Forall (fun o => o = None) (map (option_map (rescale ab)) r)) by (clear -Hr; induction Hr as [|o r Ho _ IH]; cbn; constructor; auto; now subst).
  assert (EW : recent period (somes (map (option_map (rescale ab)) os) ++ [rescale ab F]) = map (rescale ab) w). { unfold w. rewrite recent_map, map_app, ES. reflexivity. }
  assert (HW' : Forall (gen_ok m) (map (rescale ab) w)). { rewrite Forall_forall in *. intros G HG. apply in_map_iff in HG as (G0 & <- & HG). apply rescale_ok; auto. }
  destruct (C114_deltas R bump (rm_igd moo m) period os F r m HB HB2 Hp Hr Hm HW) as (di & dn & df & E1 & D1). fold w in D1.
  destruct (C114_deltas R bump (rm_igd moo m) period (map (option_map (rescale ab)) os) (rescale ab F) (map (option_map (rescale ab)) r) m HB HB2 Hp Hr' Hm) as (di' & dn' & df' & E2 & D2); [now rewrite EW|].
  exists di, dn, df, di', dn'. split; [auto|]. split; [|].
  - rewrite map_app. cbn [map option_map]. rewrite E2. f_equal. f_equal.
    rewrite (rm_result bump (rm_igd moo m) period os F r Hr) in E1. rewrite (rm_result bump (rm_igd moo m) period _ _ _ Hr') in E2. cbv zeta in E1, E2.
    match type of E1 with Some (_, _, ?t) = _ => assert (X1 : df = t) by congruence end. match type of E2 with Some (_, _, ?t) = _ => assert (X2 : df' = t) by congruence end.
    rewrite X1, X2. fold w. rewrite EW, map_map. apply map_ext_in. intros G HG. rewrite Forall_forall in HW. unfold rm_igd. now rewrite !(map_nrow_rescale m ab HA bump HB) by auto.
  - rewrite EW, map_length in D2.
    assert (HG : forall i, i < length w -> gen_ok m (nth i w [])). { intros i Hi. rewrite Forall_forall in HW. apply HW. now apply nth_In. }
    assert (EN : forall i, nth i (map (rescale ab) w) [] = rescale ab (nth i w [])) by (intros i; change [] with (rescale ab []) at 1; apply (map_nth (rescale ab))).
    set (lo := fun G j => nth j (e_ideal (rm_entry bump G)) 0%Q). set (hi := fun G j => nth j (e_nadir (rm_entry bump G)) 0%Q).
    assert (HLO : forall G, gen_ok m G -> forall j, j < m -> col_least G j (lo G j)) by (intros G HG' j Hj; destruct (entry_spec bump HB m G HG') as (_ & _ & _ & S0); now apply S0).
    assert (HHI : forall G, gen_ok m G -> forall j, j < m -> nadir_at bump G j (hi G j)) by (intros G HG' j Hj; destruct (entry_spec bump HB m G HG') as (_ & _ & _ & S0); now apply S0).
    assert (HGR : forall G, gen_ok m G -> spread m G -> forall j, j < m -> col_greatest G j (hi G j)) by (intros G HG' HS' j Hj; apply (nadir_spread m bump HB); auto).
    pose proof (rescale_ok m ab HA F HF) as HF'. pose proof (spread_rescale m ab HA F HF HS) as HS'.
    assert (R1 : forall G, gen_ok m G -> forall j, j < m -> (lo (rescale ab G) j == fst (nth j ab (0%Q, 0%Q)) * lo G j + snd (nth j ab (0%Q, 0%Q)))%Q).
    { intros G HG' j Hj. apply (least_unique (rescale ab G) j); [apply HLO; auto; now apply rescale_ok|]. apply (rescale_least m ab HA); auto. }
    assert (R2 : forall G, gen_ok m G -> spread m G -> forall j, j < m -> (hi (rescale ab G) j == fst (nth j ab (0%Q, 0%Q)) * hi G j + snd (nth j ab (0%Q, 0%Q)))%Q).
    { intros G HG' HS1 j Hj. apply (greatest_unique (rescale ab G) j); [apply HGR; auto; [now apply rescale_ok|now apply spread_rescale]|]. apply (rescale_greatest m ab HA); auto. }
    assert (HD : forall G, gen_ok m G -> spread m G -> forall j, j < m -> divisor bump G j (hi G j - lo G j)%Q /\ ~ (hi G j - lo G j == 0)%Q).
    { intros G HG' HS1 j Hj. pose proof (spread_lt m G j _ _ HS1 Hj (HLO G HG' j Hj) (HGR G HG' HS1 j Hj)) as L. split; [|lra]. exists (lo G j), (hi G j). split; [now apply HLO|]. split; [now apply HGR|]. left. split; auto. lra. }
    assert (HQ : forall j x y, j < m -> (Qabs ((x - y) / (hi F j - lo F j)) ==
               Qabs ((fst (nth j ab (0%Q, 0%Q)) * x + snd (nth j ab (0%Q, 0%Q)) - (fst (nth j ab (0%Q, 0%Q)) * y + snd (nth j ab (0%Q, 0%Q)))) / (hi (rescale ab F) j - lo (rescale ab F) j)))%Q).
    { intros j x y Hj. apply Qabs_wd. rewrite (R1 F HF j Hj), (R2 F HF HS j Hj). pose proof (al_pos m ab HA j Hj). destruct (HD F HF HS j Hj) as [_ N]. field. split; [|lra].
      intros K. apply N. assert (K2 : (fst (nth j ab (0%Q, 0%Q)) * (hi F j - lo F j) == 0)%Q) by lra. apply Qmult_integral in K2 as [K2|K2]; [lra|auto]. }
    split.
    + intros k Hk. destruct (D1 k (fun j => hi F j - lo F j)%Q Hk) as [A1 _]; [intros j Hj; now apply HD|].
      destruct (D2 k (fun j => hi (rescale ab F) j - lo (rescale ab F) j)%Q Hk) as [A2 _]; [intros j Hj; now apply HD|]. rewrite !EN in A2.
      eapply delta_same; [..|apply (A1 (lo (nth (S k) w [])) (lo (nth k w [])))|apply (A2 (lo (rescale ab (nth (S k) w []))) (lo (rescale ab (nth k w []))))]; intros j Hj; cbv beta.
      * now apply HD.
      * now apply HD.
      * rewrite (R1 _ (HG (S k) Hk) j Hj), (R1 _ (HG k ltac:(lia)) j Hj). now apply HQ.
      * split; apply HLO; auto; apply HG; lia.
      * split; apply HLO; auto; apply rescale_ok; auto; apply HG; lia.
    + intros HSP k Hk. assert (HSK : forall i, i < length w -> spread m (nth i w [])) by (intros i Hi; rewrite Forall_forall in HSP; apply HSP; now apply nth_In).
      destruct (D1 k (fun j => hi F j - lo F j)%Q Hk) as [_ A1]; [intros j Hj; now apply HD|].
      destruct (D2 k (fun j => hi (rescale ab F) j - lo (rescale ab F) j)%Q Hk) as [_ A2]; [intros j Hj; now apply HD|]. rewrite !EN in A2.
      eapply delta_same; [..|apply (A1 (hi (nth (S k) w [])) (hi (nth k w [])))|apply (A2 (hi (rescale ab (nth (S k) w []))) (hi (rescale ab (nth k w []))))]; intros j Hj; cbv beta.
      * now apply HD.
      * now apply HD.
      * rewrite (R2 _ (HG (S k) Hk) (HSK (S k) Hk) j Hj), (R2 _ (HG k ltac:(lia)) (HSK k ltac:(lia)) j Hj). now apply HQ.
      * split; apply HHI; auto; apply HG; lia.
      * split; apply HHI; auto; apply rescale_ok; auto; apply HG; lia.
Qed.
Example C114_rescaled_ex : let F := [[0%Q; 1%Q]; [1%Q; 0%Q]] in spread 2 F /\ gen_ok 2 F /\ positive_scale 2 [(2%Q, 1%Q); (3%Q, (-1)%Q)] /\
  rescale [(2%Q, 1%Q); (3%Q, (-1)%Q)] F <> F.
Proof.
  cbv zeta. split; [|split; [|split]].
  - intros [|[|j]] Hj; [exists [0%Q; 1%Q], [1%Q; 0%Q]|exists [1%Q; 0%Q], [0%Q; 1%Q]|lia]; cbn; repeat split; auto; lra.
  - split; [discriminate|]. intros r [<-|[<-|[]]]; reflexivity.
  - split; [reflexivity|]. intros c [<-|[<-|[]]]; cbn; lra.
  - discriminate.
Qed.
