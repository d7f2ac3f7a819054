(** * C116: optimal vectors have distance 0, and every position is reached *)
From Coq Require Import Reals List Arith ZArith Lra Lia Psatz.
From Verif Require Import ListAux M_NSGA3R M_Bench M_RealOps P_RealOps M_DTLZ M_DF S_Bench Thm_Bench Thm_Bench2 Thm_DTLZ Thm_DF Thm_DF2 M_WFG Thm_WFG Thm_WFG2 Thm_WFG3 Thm_WFG4 Thm_WFG5 Thm_WFG6.
Import ListNotations.
Local Open Scope R_scope.

(** the vector before the last reduction, and the reduction *)
Definition pre (w : wfg) (p : params) (y : list R) : list R :=
  let k := k_pos p in
  match w with
  | W1 => w1_t3 (w1_t2 k (w1_t1 k y)) | W2 | W3 | W6 => w1_t1 k y | W4 => w4_t1 y | W5 => w5_t1 y
  | W7 => w1_t1 k (w7_t1 k y) | W8 => w1_t1 k (w8_t1 k y) | W9 => w9_t2 k (w7_t1 (n_var p - 1) y)
  end.
Definition red (w : wfg) (p : params) (x : list R) : list R :=
  match w with W1 => w1_t4 p x | W2 | W3 => w2_t3 p (w2_t2 (k_pos p) x) | W4 | W5 | W7 | W8 => w4_t2 p x | W6 | W9 => w6_t2 p x end.
Lemma transformed_pre w p y : transformed w p y = red w p (pre w p y).
Proof. destruct w; reflexivity. Qed.

Lemma skipn_L {A} (X s : list A) n : length X = n -> skipn n (X ++ s) = s.
Proof. intros <-. apply skipn_app_exact. Qed.
Lemma firstn_L {A} (X s : list A) n : length X = n -> firstn n (X ++ s) = X.
Proof. intros <-. apply firstn_app_exact. Qed.

Section Valid.
  Variable even : bool.
  Variable p : params.
  Hypothesis HV : valid_params even p.
  Let M := (n_obj p - 1)%nat.
  Let gap := (k_pos p / (n_obj p - 1))%nat.
  Let l := (n_var p - k_pos p)%nat.
  Lemma t1_app (f : R -> R) K s : length K = k_pos p -> firstn (k_pos p) (K ++ s) ++ map f (skipn (k_pos p) (K ++ s)) = K ++ map f s.
  Proof. intros <-. now rewrite firstn_app_exact, skipn_app_exact. Qed.

  (** ** the optimal vectors *)
  Lemma optimal_ok w K : units K -> length K = k_pos p -> units (optimal_y w p K) /\ length (optimal_y w p K) = n_var p /\ exists s, optimal_y w p K = K ++ s /\ length s = l.
  Proof.
    intros U L. pose proof (val_l even p HV) as [L1 L2]. fold l in L1, L2. pose proof (val_k even p HV) as [_ G].
    assert (C : forall s, units s -> length s = l -> units (K ++ s) /\ length (K ++ s) = n_var p /\ exists s', K ++ s = K ++ s' /\ length s' = l) by (intros s US LS; split; [apply Forall_app; auto|split; [rewrite app_length; lia|exists s; auto]]).
    assert (C1 := C (repeat 0.35 l) (units_repeat _ _ unit_35) (repeat_length _ _)).
    destruct w; cbn [optimal_y]; fold l; auto.
    - destruct HV as (_ & _ & K4 & _). destruct (w8_extend_ok l K U ltac:(lia)) as (E1 & E2 & (s & E3) & _). rewrite E3 in *. rewrite app_length in E2. split; auto. split; [rewrite app_length; lia|]. exists s. split; auto. lia.
    - destruct (w9_suffix_ok l L1) as (E1 & E2 & _). apply C; auto. eapply Forall_impl; [|exact E2]. cbn. intros a [A1 A2]. split; lra.
  Qed.
  (** distance variables become 0, and position variables take all values *)
  Lemma pre_optimal w K : units K -> length K = k_pos p -> exists X, units X /\ length X = k_pos p /\ pre w p (optimal_y w p K) = X ++ repeat 0 l.
  Proof.
    intros U L. pose proof (val_l even p HV) as [L1 L2]. fold l in L1, L2. destruct w; cbn [pre optimal_y]; fold l.
    - exists (map poly_ K). split; [apply units_map; auto; apply poly_unit|]. split; [now rewrite map_length|]. unfold w1_t3, w1_t2, w1_t1. rewrite (t1_app _ K) by auto. rewrite (t1_app _ K) by auto. rewrite !map_app, !map_repeat, linear_0. fold (flat_ 0). rewrite flat_0. fold (poly_ 0). rewrite poly_0. reflexivity.
    - exists K. split; auto. split; auto. unfold w1_t1. rewrite t1_app, map_repeat, linear_0 by auto. reflexivity.
    - exists K. split; auto. split; auto. unfold w1_t1. rewrite t1_app, map_repeat, linear_0 by auto. reflexivity.
    - exists (map (mm_ 10) K). split; [apply units_map; auto; intros v; apply mm_unit; lra|]. split; [now rewrite map_length|]. unfold w4_t1. rewrite map_app, map_repeat. fold (mm_ 10 0.35). rewrite mm_0 by lra. reflexivity.
    - exists (map dec_ K). split; [apply units_map; auto; apply dec_unit|]. split; [now rewrite map_length|]. unfold w5_t1. rewrite map_app, map_repeat. fold (dec_ 0.35). rewrite dec_0. reflexivity.
    - exists K. split; auto. split; auto. unfold w1_t1. rewrite t1_app, map_repeat, linear_0 by auto. reflexivity.
    - destruct (w7_app K (repeat 0.35 l) 0) as (K' & LK' & E). rewrite Nat.add_0_r, L in E. rewrite E. cbn [w7_t1].
      assert (UK : units (K' ++ repeat 0.35 l)). { change (repeat 0.35 l) with (w7_t1 0 (repeat 0.35 l)). rewrite <- E. apply w7_t1_ok. apply Forall_app. split; auto. apply units_repeat, unit_35. }
      exists K'. split; [now apply Forall_app in UK as [? _]|]. split; [congruence|]. unfold w1_t1. rewrite t1_app, map_repeat, linear_0 by congruence. reflexivity.
    - destruct HV as (_ & _ & K4 & _). destruct (w8_extend_ok l K U ltac:(lia)) as (E1 & E2 & (s & E3) & E4). exists K. split; auto. split; auto.
      assert (E8 : w8_t1 (k_pos p) (w8_extend l K) = K ++ repeat 0.35 l).
      { unfold w8_t1. rewrite E2. rewrite E3 at 1. rewrite <- L, firstn_app_exact. f_equal. replace (length K + l - length K)%nat with l by lia. apply (nth_ext _ _ 0 0); [now rewrite map_length, seq_length, repeat_length|]. intros i Hi. rewrite map_length, seq_length in Hi.
        rewrite (nth_indep _ 0 (param_dependent (nth 0 (w8_extend l K) 0) (weighted_sum_uniform (firstn 0 (w8_extend l K))))) by (now rewrite map_length, seq_length).
        rewrite (map_nth (fun i => param_dependent (nth i (w8_extend l K) 0) (weighted_sum_uniform (firstn i (w8_extend l K))))), seq_nth by auto. rewrite E4 by lia. rewrite (nth_indep _ 0 0.35) by (now rewrite repeat_length). symmetry. apply nth_repeat. }
      rewrite E8. unfold w1_t1. rewrite t1_app, map_repeat, linear_0 by auto. reflexivity.
    - destruct (w9_suffix_ok l L1) as (E1 & E2 & E3). destruct (w7_app K (w9_suffix l) (l - 1)) as (K' & LK' & E). replace (length K + (l - 1))%nat with (n_var p - 1)%nat in E by lia. rewrite E, E3.
      assert (UK : units (K' ++ repeat 0.35 l)). { rewrite <- E3, <- E. apply w7_t1_ok. apply Forall_app. split; auto. eapply Forall_impl; [|exact E2]. cbn. intros a [A1 A2]. split; lra. }
      apply Forall_app in UK as [UK _]. exists (map dec_ K'). split; [apply units_map; auto; apply dec_unit|]. split; [rewrite map_length; congruence|]. unfold w9_t2. rewrite <- L, <- LK', firstn_app_exact, skipn_app_exact, map_repeat. fold (mm_ 95 0.35). rewrite mm_0 by lra. reflexivity.
  Qed.
  Lemma pre_reach w B : w <> W2 -> w <> W3 -> units B -> length B = k_pos p -> exists K, units K /\ length K = k_pos p /\ pre w p (optimal_y w p K) = B ++ repeat 0 l.
  Proof.
    intros N2 N3 U L. pose proof (val_l even p HV) as [L1 L2]. fold l in L1, L2. destruct w; try congruence; cbn [pre optimal_y]; fold l.
    - destruct (reach_map poly_ (fun z Hz => ex_intro _ _ (poly_reach z Hz)) B U) as (K & UK & EK). assert (LK : length K = k_pos p) by (now rewrite <- L, <- EK, map_length). exists K. split; auto. split; auto.
      unfold w1_t3, w1_t2, w1_t1. rewrite (t1_app _ K) by auto. rewrite (t1_app _ K) by auto. rewrite !map_app, !map_repeat, linear_0. fold (flat_ 0). rewrite flat_0. fold (poly_ 0). rewrite poly_0. change (map (fun v => bias_poly v 0.02) K) with (map poly_ K). now rewrite EK.
    - destruct (reach_map (mm_ 10) (fun z => mm_reach 10 z ltac:(lra)) B U) as (K & UK & EK). assert (LK : length K = k_pos p) by (now rewrite <- L, <- EK, map_length). exists K. split; auto. split; auto.
      unfold w4_t1. rewrite map_app, map_repeat. fold (mm_ 10 0.35). rewrite mm_0 by lra. change (map (fun v => multi_modal v 30 10 0.35) K) with (map (mm_ 10) K). now rewrite EK.
    - destruct (reach_map dec_ (fun z Hz => ex_intro _ _ (dec_reach z Hz)) B U) as (K & UK & EK). assert (LK : length K = k_pos p) by (now rewrite <- L, <- EK, map_length). exists K. split; auto. split; auto.
      unfold w5_t1. rewrite map_app, map_repeat. fold (dec_ 0.35). rewrite dec_0. change (map (fun v => deceptive v 0.35 0.001 0.05) K) with (map dec_ K). now rewrite EK.
    - exists B. split; auto. split; auto. unfold w1_t1. rewrite t1_app, map_repeat, linear_0 by auto. reflexivity.
    - destruct (w7_reach (repeat 0.35 l) 0 B (units_repeat _ _ unit_35) U) as (K & UK & LK & E). exists K. split; auto. split; [congruence|]. rewrite Nat.add_0_r, L in E. rewrite E. cbn [w7_t1]. unfold w1_t1. rewrite t1_app, map_repeat, linear_0 by congruence. reflexivity.
    - destruct (pre_optimal W8 B U L) as (X & _ & LX & E). exists B. split; auto. split; auto. cbn [pre optimal_y] in E. fold l in E. rewrite E. f_equal.
      destruct HV as (_ & _ & K4 & _). destruct (w8_extend_ok l B U ltac:(lia)) as (_ & _ & (s & E3) & _). apply (f_equal (firstn (k_pos p))) in E. assert (EX : firstn (k_pos p) (X ++ repeat 0 l) = X) by (rewrite <- LX; apply firstn_app_exact). rewrite EX in E. rewrite <- E. unfold w1_t1, w8_t1. rewrite E3. rewrite <- L. rewrite !firstn_app_exact. reflexivity.
    - destruct (w9_suffix_ok l L1) as (E1 & E2 & E3). assert (US : units (w9_suffix l)) by (eapply Forall_impl; [|exact E2]; cbn; intros a [A1 A2]; split; lra).
      destruct (reach_map dec_ (fun z Hz => ex_intro _ _ (dec_reach z Hz)) B U) as (Y & UY & EY). assert (LY : length Y = k_pos p) by (now rewrite <- L, <- EY, map_length).
      destruct (w7_reach (w9_suffix l) (l - 1) Y US UY) as (K & UK & LK & E). exists K. split; auto. split; [congruence|]. replace (length Y + (l - 1))%nat with (n_var p - 1)%nat in E by lia. rewrite E, E3.
      unfold w9_t2. rewrite <- LY, firstn_app_exact, skipn_app_exact, map_repeat. fold (mm_ 95 0.35). rewrite mm_0 by lra. change (map (fun v => deceptive v 0.35 0.001 0.05) Y) with (map dec_ Y). now rewrite EY.
  Qed.
  (** ** the reductions *)
  Lemma slice_zero (X : list R) a b : (length X <= a)%nat -> (b <= length X + l)%nat -> slice a b (X ++ repeat 0 l) = repeat 0 (b - a).
  Proof.
    intros H1 H2. unfold slice. rewrite skipn_app, skipn_all2 by lia. cbn [app]. set (j := (a - length X)%nat). destruct (le_lt_dec l j) as [LJ|LJ].
    - rewrite skipn_all2 by (rewrite repeat_length; lia). replace (b - a)%nat with 0%nat by lia. reflexivity.
    - replace l with (j + (l - j))%nat at 1 by lia. rewrite repeat_app. assert (EJ : skipn j (repeat 0 j ++ repeat 0 (l - j)) = repeat 0 (l - j)) by (rewrite <- (repeat_length 0 j) at 1; apply skipn_app_exact). rewrite EJ.
      replace (l - j)%nat with ((b - a) + (l - j - (b - a)))%nat by lia. rewrite repeat_app. rewrite <- (repeat_length 0 (b - a)) at 1. apply firstn_app_exact.
  Qed.
  Lemma w2_distance X : length X = k_pos p -> even = true -> last (w2_t3 p (w2_t2 (k_pos p) (X ++ repeat 0 l))) 0 = 0.
  Proof.
    intros L HE. pose proof (val_l even p HV) as [L1 L2]. fold l in L1, L2. destruct HV as (_ & _ & _ & _ & EV). specialize (EV HE). fold l in EV. apply Nat.even_spec in EV as (h & EH). assert (LH : (l / 2)%nat = h) by (rewrite EH, Nat.mul_comm; apply Nat.div_mul; lia).
    assert (E2 : w2_t2 (k_pos p) (X ++ repeat 0 l) = X ++ repeat 0 (l / 2)).
    { unfold w2_t2. rewrite app_length, repeat_length, L. replace (k_pos p + l - k_pos p)%nat with l by lia. replace (k_pos p + l / 2 - k_pos p)%nat with (l / 2)%nat by lia. rewrite (firstn_L X) by exact L. f_equal.
      rewrite (map_ext_in _ (fun _ => 0)).
      - clear. generalize (k_pos p + 1)%nat. induction (l / 2)%nat as [|n IH]; intros a; cbn [seq map repeat]; [auto|]. now rewrite IH.
      - intros i HI. apply in_seq in HI. rewrite slice_zero by lia. replace (k_pos p + 2 * (i - k_pos p) - (k_pos p + 2 * (i - k_pos p) - 2))%nat with 2%nat by lia. apply non_sep_zero. lia. }
    rewrite E2. unfold w2_t3. rewrite last_last. fold l. assert (ES : slice (k_pos p) (k_pos p + l / 2) (X ++ repeat 0 (l / 2)) = repeat 0 (l / 2)).
    { unfold slice. rewrite (skipn_L X) by exact L. apply firstn_all2. rewrite repeat_length. lia. }
    rewrite ES. apply uniform_repeat; [apply unit_0|lia].
  Qed.
  Lemma red_distance w X : length X = k_pos p -> (even = true \/ w <> W2 /\ w <> W3) -> last (red w p (X ++ repeat 0 l)) 0 = 0.
  Proof.
    intros L HE. pose proof (val_l even p HV) as [L1 L2]. fold l in L1, L2. destruct w; cbn [red].
    - unfold w1_t4. rewrite last_last. rewrite (skipn_L X) by exact L. set (w := skipn (k_pos p) (map _ _)). assert (WL : length w = l) by (unfold w; rewrite skipn_length, map_length, seq_length; reflexivity). rewrite <- WL.
      apply weighted_repeat; [apply unit_0| |lia]. apply Forall_skipn', (w_pos p).
    - apply w2_distance; auto. destruct HE as [|[? ?]]; congruence.
    - apply w2_distance; auto. destruct HE as [|[? ?]]; congruence.
    - unfold w4_t2. rewrite last_last. rewrite (skipn_L X) by exact L. apply uniform_repeat; [apply unit_0|lia].
    - unfold w4_t2. rewrite last_last. rewrite (skipn_L X) by exact L. apply uniform_repeat; [apply unit_0|lia].
    - unfold w6_t2. rewrite last_last. rewrite (skipn_L X) by exact L. fold l. now apply non_sep_zero.
    - unfold w4_t2. rewrite last_last. rewrite (skipn_L X) by exact L. apply uniform_repeat; [apply unit_0|lia].
    - unfold w4_t2. rewrite last_last. rewrite (skipn_L X) by exact L. apply uniform_repeat; [apply unit_0|lia].
    - unfold w6_t2. rewrite last_last. rewrite (skipn_L X) by exact L. fold l. now apply non_sep_zero.
  Qed.
  Definition block (w : wfg) (z : R) : list R := match w with W6 | W9 => pattern gap z | _ => repeat z gap end.
  Definition blocks (w : wfg) (T : list R) : list R := concat (map (block w) T).
  Lemma block_len w z : length (block w z) = gap.
  Proof. destruct w; cbn [block]; try apply repeat_length; apply pattern_len. Qed.
  Lemma blocks_ok w T : units T -> length T = M -> units (blocks w T) /\ length (blocks w T) = k_pos p /\ groups p (blocks w T ++ repeat 0 l) = map (block w) T.
  Proof.
    intros U L. pose proof (val_k even p HV) as [EK G]. fold gap in EK, G. fold M in EK, G. split; [|split].
    - unfold blocks. induction U as [|z T HZ HT IH]; [constructor|]. cbn [map concat]. apply Forall_app. split.
      + destruct w; cbn [block]; try (now apply units_repeat); now apply pattern_units.
      + clear - HT. induction HT as [|z T HZ HT IH]; [constructor|]. cbn [map concat]. apply Forall_app. split; auto. destruct w; cbn [block]; try (now apply units_repeat); now apply pattern_units.
    - rewrite EK, <- L. unfold blocks. clear. induction T as [|z T IH]; [reflexivity|]. cbn [map concat]. rewrite app_length, block_len, IH. reflexivity.
    - unfold groups. fold gap. fold M. assert (FB : Forall (fun b => length b = gap) (map (block w) T)) by (apply Forall_forall; intros b Hb; apply in_map_iff in Hb as (z & <- & _); apply block_len).
      apply (nth_ext _ _ [] []); [rewrite !map_length, seq_length; auto|]. intros i Hi. rewrite map_length, seq_length in Hi.
      rewrite (nth_indep _ [] (slice ((0 - 1) * gap) (0 * gap) (blocks w T ++ repeat 0 l))) by (now rewrite map_length, seq_length).
      rewrite (map_nth (fun m => slice ((m - 1) * gap) (m * gap) (blocks w T ++ repeat 0 l))), seq_nth by auto. replace (1 + i - 1)%nat with i by lia. apply (slice_concat gap (repeat 0 l) _ FB i). rewrite map_length. lia.
  Qed.
  Lemma red_blocks w T : w <> W2 -> w <> W3 -> units T -> length T = M -> red w p (blocks w T ++ repeat 0 l) = T ++ [0].
  Proof.
    intros N2 N3 U L. pose proof (val_k even p HV) as [EK G]. fold gap in EK, G. fold M in EK, G. destruct (blocks_ok w T U L) as (UB & LB & GB). pose proof (red_distance w (blocks w T) LB ltac:(auto)) as RD.
    assert (MU : map (fun z => weighted_sum_uniform (repeat z gap)) T = T).
    { rewrite <- (map_id T) at 2. apply map_ext_in. intros z Hz. apply uniform_repeat; [|exact G]. rewrite Forall_forall in U. auto. }
    assert (MN : map (fun z => non_sep (pattern gap z) gap) T = T).
    { rewrite <- (map_id T) at 2. apply map_ext_in. intros z Hz. apply non_sep_pattern; [|exact G]. rewrite Forall_forall in U. auto. }
    destruct w; try congruence; cbn [red] in *; unfold w1_t4, w4_t2, w6_t2 in *; rewrite last_last in RD; rewrite RD; f_equal; rewrite GB; try (rewrite map_map; cbn [block]; assumption).
    unfold groups. fold gap. fold M. set (ws := map _ (seq 0 (n_var p))). assert (WL : length ws = n_var p) by (unfold ws; now rewrite map_length, seq_length). pose proof (val_l even p HV) as [L1 L2].
    apply (nth_ext _ _ 0 0); [rewrite length_map2, !map_length, seq_length; lia|]. intros i Hi. rewrite length_map2, !map_length, seq_length in Hi.
    rewrite (nth_map2 weighted_sum _ _ i 0 [] []) by (rewrite !map_length, ?seq_length; lia).
    rewrite (nth_indep _ [] (block W1 0)) by (rewrite map_length; lia). rewrite map_nth. rewrite (nth_indep (map _ (seq 1 M)) [] (slice ((0 - 1) * gap) (0 * gap) ws)) by (rewrite map_length, seq_length; lia).
    rewrite (map_nth (fun m => slice ((m - 1) * gap) (m * gap) ws)), seq_nth by lia. cbn [block]. destruct (group_bound even p HV (1 + i)) as [B1 B2]; [fold M; lia|]. fold gap in B1, B2. fold M in B1, B2.
    assert (SL : length (slice ((1 + i - 1) * gap) ((1 + i) * gap) ws) = gap) by (rewrite slice_len; [exact B2|rewrite WL; lia]). rewrite <- SL at 1. apply weighted_repeat; [now apply units_nth| |rewrite SL; exact G]. unfold slice. now apply Forall_firstn', Forall_skipn', (w_pos p).
  Qed.
  (** ** summary *)
  Lemma optimal_distance w K : (even = true \/ w <> W2 /\ w <> W3) -> units K -> length K = k_pos p -> last (transformed w p (optimal_y w p K)) 0 = 0.
  Proof. intros HE U L. destruct (pre_optimal w K U L) as (X & _ & LX & E). rewrite transformed_pre, E. now apply red_distance. Qed.
  Lemma optimal_reach w T : w <> W2 -> w <> W3 -> units T -> length T = M -> exists K, units K /\ length K = k_pos p /\ transformed w p (optimal_y w p K) = T ++ [0].
  Proof.
    intros N2 N3 U L. destruct (blocks_ok w T U L) as (UB & LB & _). destruct (pre_reach w _ N2 N3 UB LB) as (K & UK & LK & E). exists K. split; auto. split; auto. rewrite transformed_pre, E. now apply red_blocks.
  Qed.
End Valid.
