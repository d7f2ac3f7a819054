(** * C70: pattern search *)
From Coq Require Import List Arith Bool ZArith QArith Lia Lqa.
From Verif Require Import ListAux M_Individual M_Survival M_RefDirs2 M_Nelder M_Pattern S_Local S_Pattern Thm_Nelder Thm_Nelder2.
Import ListNotations.
Local Open Scope nat_scope.

Lemma exec_bind_inv {R T} (c : co R) (f : R -> co T) tr t : exec (bind c f) tr t -> exists r tr1 tr2, tr = tr1 ++ tr2 /\ exec c tr1 r /\ exec (f r) tr2 t.
Proof.
  revert tr. induction c as [r|xs k IH]; intros tr H; cbn [bind] in H.
  - exists r, [], tr. repeat split; auto. constructor.
  - apply exec_yield_inv in H. destruct H as (inds & tr' & -> & Hm & HF & Hk). destruct (IH inds tr' Hk) as (r & tr1 & tr2 & -> & H1 & H2).
    exists r, (inds ++ tr1), tr2. split; [now rewrite app_assoc|]. split; auto. now constructor.
Qed.
Lemma exec_y1_inv {R} x (k : list nind -> co R) tr r : exec (Yield [x] k) tr r -> exists a tr', tr = a :: tr' /\ n_x a = x /\ (0 <= n_cv a)%Q /\ exec (k [a]) tr' r.
Proof.
  intros H. apply exec_yield_inv in H. destruct H as (inds & tr' & -> & Hm & HF & Hk). destruct inds as [|a [|? ?]]; try discriminate. injection Hm as Hm.
  inversion HF; subst. exists a, tr'. auto.
Qed.

(** the point tried on one axis: only this coordinate changes, by the given amount unless that leaves the box *)
Theorem C70_axis n b x d k : bounds_ok n b -> in_box n b x -> let y := step_along_axis b x d k in
  in_box n b y /\ (forall j, j <> k -> nth j y 0%Q = nth j x 0%Q) /\ (in_box n b (upd x k (nth k x 0 + nth k d 0)%Q) -> k < n -> nth k y 0%Q = (nth k x 0 + nth k d 0)%Q).
Proof.
  intros HB HX y. assert (LX : length x = n) by apply HX. assert (LU : length (upd x k (nth k x 0 + nth k d 0)%Q) = n) by (now rewrite length_upd).
  assert (I : in_box n b y) by (apply to_bounds_in; eauto). split; [exact I|]. split.
  - intros j Hj. destruct (le_lt_dec n j) as [Hl|Hl]; [rewrite !nth_overflow; auto; [lia|destruct I; lia]|].
    unfold y, step_along_axis, to_bounds. set (u := upd x k _) in *. assert (E : nth j u 0%Q = nth j x 0%Q) by (now apply nth_upd_neq).
    destruct HB as (B1 & B2). destruct HX as (_ & X2 & X3).
    set (z := match fst b with Some xl => map2 (fun x0 l => if Qle_bool l x0 then x0 else l) u xl | None => u end).
    assert (Ez : nth j z 0%Q = nth j x 0%Q).
    { unfold z. destruct (fst b) as [xl|]; auto. specialize (B1 xl eq_refl). rewrite (nth_map2 _ u xl j 0%Q 0%Q 0%Q) by lia. rewrite E. specialize (X2 xl eq_refl j Hl). apply Qle_bool_iff in X2. now rewrite X2. }
    assert (Lz : length z = n) by (unfold z; destruct (fst b) as [xl|]; auto; rewrite length_map2, (B1 xl eq_refl); lia).
    destruct (snd b) as [xu|]; auto. specialize (B2 xu eq_refl). rewrite (nth_map2 _ z xu j 0%Q 0%Q 0%Q) by lia. rewrite Ez. specialize (X3 xu eq_refl j Hl). apply Qle_bool_iff in X3. now rewrite X3.
  - intros HI Hk. unfold y, step_along_axis. rewrite (to_bounds_id n b _ HB HI). apply nth_upd_eq. lia.
Qed.

(** the neighbours tried for the k-th variable: forth and back *)
Definition tried (b : bnds) (sign delta : list Q) (rho : Q) (x : list Q) (k : nat) : list (list Q) :=
  [step_along_axis b x (vscale (nth k sign 0 * rho)%Q delta) k; step_along_axis b x (vscale (-1) (vscale (nth k sign 0 * rho)%Q delta)) k].
(** an exploration around [c] returns a point that nothing evaluated beats; it is [c] itself only after all the neighbours of [c] have been tried in vain *)
Theorem C70_exploration n b sign delta rho K c tr r : bounds_ok n b -> in_box n b (n_x c) -> Forall (fun k => k < n) K -> exec (exploration_move b sign delta rho K c) tr r ->
  (forall a, In a (c :: tr) -> at_least_as_good r a) /\ In r (c :: tr) /\ (forall a, In a tr -> in_box n b (n_x a)) /\ length K <= length tr <= 2 * length K /\
  (strictly_better r c \/ (r = c /\ map n_x tr = concat (map (tried b sign delta rho (n_x c)) K))).
Proof.
  intros HB. revert c tr. induction K as [|k K IH]; intros c tr HX HK H; cbn [exploration_move] in H.
  - apply exec_ret_inv in H. destruct H as (-> & ->). split; [intros a [<-|[]]; apply good_refl|]. split; [now left|]. split; [intros a []|]. split; [cbn; lia|]. right. auto.
  - inversion HK as [|? ? Hk HK']; subst. apply exec_y1_inv in H. destruct H as (e & tr1 & -> & Xe & _ & H). cbn [nth] in H.
    assert (Be : in_box n b (n_x e)) by (rewrite Xe; apply (C70_axis n); auto).
    destruct (better e c) eqn:E1.
    + destruct (IH e tr1 Be HK' H) as (G & HI & HBX & HL & HC). apply better_iff in E1. 
      assert (Gc : at_least_as_good r c) by (apply good_trans with e; [apply G; now left|now apply better_good]).
      split; [intros a [<-|Ha]; auto|]. split; [right; exact HI|]. split; [intros a [<-|Ha]; auto|]. split; [cbn [length]; lia|]. left.
      destruct HC as [HC|(-> & _)]; [apply (better_good_trans r e c HC); now apply better_good|exact E1].
    + apply exec_y1_inv in H. destruct H as (e2 & tr2 & -> & Xe2 & _ & H). cbn [nth] in H.
      assert (Be2 : in_box n b (n_x e2)) by (rewrite Xe2; apply (C70_axis n); auto).
      destruct (better e2 c) eqn:E2.
      * destruct (IH e2 tr2 Be2 HK' H) as (G & HI & HBX & HL & HC). apply better_iff in E2. apply not_better in E1.
        assert (Gc : at_least_as_good r c) by (apply good_trans with e2; [apply G; now left|now apply better_good]).
        split; [intros a [<-|[<-|Ha]]; [exact Gc|now apply good_trans with c|now apply G]|]. split; [right; right; exact HI|]. split; [intros a [<-|[<-|Ha]]; auto|]. split; [cbn [length]; lia|]. left.
        destruct HC as [HC|(-> & _)]; [apply (better_good_trans r e2 c HC); now apply better_good|exact E2].
      * destruct (IH c tr2 HX HK' H) as (G & HI & HBX & HL & HC). apply not_better in E1, E2. assert (Gc : at_least_as_good r c) by (apply G; now left).
        split; [intros a [<-|[<-|[<-|Ha]]]; [exact Gc|now apply good_trans with c|now apply good_trans with c|apply G; now right]|].
        split; [destruct HI as [HI|HI]; [now left|right; right; now right]|]. split; [intros a [<-|[<-|Ha]]; auto|]. split; [cbn [length]; lia|].
        destruct HC as [HC|(-> & HC)]; [now left|]. right. split; [reflexivity|]. cbn [map concat app tried]. rewrite HC, Xe, Xe2. reflexivity.
Qed.

(** one iteration: the centre never gets worse; nothing evaluated in the iteration beats the better one of the two members of the new population; all points
    are in the box; the step factor is init_rho to the power of the number of iterations without improvement *)
Definition leads (pop : list nind) (T : list nind) : Prop := exists m, In m pop /\ forall a, In a T -> at_least_as_good m a.
Theorem C70_iteration n b init_rho step_size delta K st tr st' : bounds_ok n b -> in_box n b (n_x (p_center st)) -> in_box n b (n_x (p_explr st)) -> Forall (fun k => k < n) K ->
  exec (pattern_next b init_rho step_size delta K st) tr st' ->
  at_least_as_good (p_center st') (p_center st) /\ leads (p_pop st') (p_pop st ++ tr) /\ (forall a, In a (p_pop st') -> In a (p_pop st ++ tr)) /\
  (forall a, In a tr -> in_box n b (n_x a)) /\ in_box n b (n_x (p_center st')) /\ in_box n b (n_x (p_explr st')) /\ length tr <= 2 * length K + 1 /\
  (p_center st' = p_center st /\ ~ strictly_better (p_explr st) (p_center st) /\ p_nni st' = S (p_nni st) /\ p_rho st' = qpow init_rho (p_nni st') \/
   p_center st' = p_explr st /\ strictly_better (p_explr st) (p_center st) /\ p_nni st' = p_nni st /\ p_rho st' = p_rho st).
Proof.
  intros HB HXc HXe HK H. unfold pattern_next in H. destruct (better (p_explr st) (p_center st)) eqn:E; cbn [negb] in H.
  - apply exec_y1_inv in H. destruct H as (t & tr1 & -> & Xt & _ & H). cbn [nth] in H. apply exec_bind_inv in H. destruct H as (e & tr2 & tr3 & -> & H & H2). apply exec_ret_inv in H2.
    destruct H2 as (-> & ->). rewrite app_nil_r. cbn [p_center p_explr p_nni p_rho p_pop]. apply better_iff in E.
    assert (Bt : in_box n b (n_x t)).
    { rewrite Xt. unfold pattern_move. apply to_bounds_in; eauto. destruct HXc as (L1 & _), HXe as (L2 & _). rewrite len_vadd; rewrite ?len_vscale, ?len_vsub; lia. }
    destruct (C70_exploration n b _ _ _ _ _ _ _ HB Bt HK H) as (G & HI & HBX & HL & _).
    split; [now apply better_good|]. split; [|split; [|split; [|split; [exact HXe|split; [|split; [cbn [length]; lia|right; auto]]]]]].
    + unfold leads, p_pop. cbn [p_center p_explr]. destruct (better e (p_explr st)) eqn:E2.
      * apply better_iff in E2. exists e. split; [right; now left|]. intros a Ha. apply in_app_or in Ha. destruct Ha as [[<-|[<-|[]]]|Ha].
        -- apply better_good. apply (better_good_trans _ _ _ E2). now apply better_good.
        -- now apply better_good.
        -- now apply G.
      * apply not_better in E2. exists (p_explr st). split; [now left|]. intros a Ha. apply in_app_or in Ha. destruct Ha as [[<-|[<-|[]]]|Ha]; [now apply better_good|apply good_refl|]. apply good_trans with e; [exact E2|now apply G].
    + unfold p_pop. cbn [p_center p_explr]. intros a [<-|[<-|[]]]; apply in_or_app; [left; right; now left|right; exact HI].
    + intros a [<-|Ha]; auto.
    + destruct HI as [<-|HI]; auto.
  - apply exec_bind_inv in H. destruct H as (e & tr2 & tr3 & -> & H & H2). apply exec_ret_inv in H2. destruct H2 as (-> & ->). rewrite app_nil_r. cbn [p_center p_explr p_nni p_rho p_pop].
    destruct (C70_exploration n b _ _ _ _ _ _ _ HB HXc HK H) as (G & HI & HBX & HL & _).
    split; [apply good_refl|]. split; [|split; [|split; [exact HBX|split; [exact HXc|split; [|split; [lia|]]]]]].
    + exists e. split; [right; now left|]. intros a Ha. apply in_app_or in Ha. destruct Ha as [[<-|[<-|[]]]|Ha]; [apply G; now left| |apply G; now right].
      apply good_trans with (p_center st); [apply G; now left|now apply not_better].
    + intros a [<-|[<-|[]]]; apply in_or_app; [left; now left|]. destruct HI as [<-|HI]; [left; now left|now right].
    + destruct HI as [<-|HI]; auto.
    + left. repeat split; auto. intros C. apply better_iff in C. congruence.
Qed.

(** C70: after a success the pattern is extended along the last displacement, and the next exploration starts, in each coordinate, in the direction of that displacement *)
Theorem C70_direction n b init_rho step_size delta K st tr st' : length (n_x (p_center st)) = n -> length (n_x (p_explr st)) = n ->
  exec (pattern_next b init_rho step_size delta K st) tr st' ->
  (~ strictly_better (p_explr st) (p_center st) -> p_sign st' = p_sign st) /\
  (strictly_better (p_explr st) (p_center st) ->
     (exists t tr', tr = t :: tr' /\ n_x t = to_bounds b (vadd (n_x (p_explr st)) (vscale step_size (vsub (n_x (p_explr st)) (n_x (p_center st)))))) /\
     length (p_sign st') = n /\ forall j, j < n -> let moved := (nth j (n_x (p_explr st)) 0 - nth j (n_x (p_center st)) 0)%Q in
       ((0 < moved)%Q -> (nth j (p_sign st') 0 == 1)%Q) /\ ((moved <= 0)%Q -> (nth j (p_sign st') 0 == -1)%Q)).
Proof.
  intros L1 L2 H. unfold pattern_next in H. destruct (better (p_explr st) (p_center st)) eqn:E; cbn [negb] in H.
  - apply better_iff in E. split; [intros C; now destruct C|]. intros _. apply exec_y1_inv in H. destruct H as (t & tr1 & -> & Xt & _ & H). cbn [nth] in H. apply exec_bind_inv in H. destruct H as (e & tr2 & tr3 & -> & H & H2). apply exec_ret_inv in H2.
    destruct H2 as (-> & ->). split; [exists t, (tr2 ++ []); split; [reflexivity|exact Xt]|]. cbn [p_sign]. unfold calc_sign. assert (LS : length (vsub (n_x (p_explr st)) (n_x (p_center st))) = n) by (rewrite len_vsub; lia).
    split; [now rewrite map_length|]. intros j Hj. cbv zeta. set (g := fun d : Q => if Qle_bool d 0 then (-1)%Q else 1%Q). assert (Eg : nth j (map g (vsub (n_x (p_explr st)) (n_x (p_center st)))) 0%Q = g (nth j (n_x (p_explr st)) 0 - nth j (n_x (p_center st)) 0)%Q).
    { rewrite (nth_indep _ 0%Q (g 0%Q)) by (rewrite map_length; lia). rewrite (map_nth g). now rewrite nth_vsub by lia. }
    rewrite Eg. unfold g. split; intros Hm; match goal with |- context [Qle_bool ?a 0] => destruct (Qle_bool a 0) eqn:Eq end; try reflexivity; exfalso.
    + apply Qle_bool_iff in Eq. lra.
    + apply Qle_bool_iff in Hm. congruence.
  - split; [|intros C; apply better_iff in C; congruence]. intros _. apply exec_bind_inv in H. destruct H as (e & tr2 & tr3 & -> & H & H2). apply exec_ret_inv in H2. destruct H2 as (-> & ->). reflexivity.
Qed.

(** the optimum of a population *)
Lemma first_min_spec key l : forall cur, (In (first_min key cur l) (cur :: l)) /\ forall a, In a (cur :: l) -> (key (first_min key cur l) <= key a)%Q.
Proof.
  induction l as [|x l IH]; intros cur; cbn [first_min].
  - split; [now left|]. intros a [<-|[]]. lra.
  - destruct (Qle_bool (key cur) (key x)) eqn:E; qcase; destruct (IH (if Qle_bool (key cur) (key x) then cur else x)) as (H1 & H2).
    + destruct (IH cur) as (H3 & H4). split; [destruct H3 as [<-|H3]; [now left|right; now right]|]. intros a [<-|[<-|Ha]]; [apply H4; now left| |apply H4; now right].
      specialize (H4 cur (or_introl eq_refl)). lra.
    + destruct (IH x) as (H3 & H4). split; [destruct H3 as [<-|H3]; [right; now left|right; now right]|]. intros a [<-|[<-|Ha]]; [|apply H4; now left|apply H4; now right].
      specialize (H4 x (or_introl eq_refl)). lra.
Qed.
Lemma optimum_spec pop : pop <> [] -> In (optimum pop) pop /\ forall a, In a pop -> at_least_as_good (optimum pop) a.
Proof.
  intros Hne. unfold optimum. destruct (filter n_feas pop) as [|a l] eqn:E.
  - destruct pop as [|a l]; [congruence|]. destruct (first_min_spec n_cv l a) as (H1 & H2). split; [exact H1|]. intros c Hc [[C1 C2]|(C1 & C2 & C3)]; [specialize (H2 c Hc); lra|].
    assert (F : In c (filter n_feas (a :: l))) by (apply filter_In; split; auto; apply Qle_bool_iff; auto). rewrite E in F. destruct F.
  - destruct (first_min_spec n_f l a) as (H1 & H2). rewrite <- E in H1, H2. apply filter_In in H1. destruct H1 as (H1 & F1). unfold n_feas in F1. apply Qle_bool_iff in F1. split; [exact H1|].
    intros c Hc [[C1 C2]|(C1 & C2 & C3)]; [lra|]. assert (F : In c (filter n_feas pop)) by (apply filter_In; split; auto; apply Qle_bool_iff; auto). specialize (H2 c F). lra.
Qed.
(** a run: after every iteration the reported optimum is an evaluated point that no point evaluated so far beats - be it of the initial sample or of the search -
    and all points are in the box *)
Theorem C70_run n b init_rho step_size delta sample x0 opt0 st tr st' opt' : bounds_ok n b -> in_box n b (n_x x0) ->
  In x0 sample -> opt0 = optimum sample -> st = pattern_init init_rho n x0 ->
  pattern_steps b init_rho step_size delta n (st, opt0) tr (st', opt') ->
  (forall a, In a tr -> in_box n b (n_x a)) /\ In opt' (sample ++ tr) /\ (forall a, In a (sample ++ tr) -> at_least_as_good opt' a).
Proof.
  intros HB HX HI -> -> H. destruct (optimum_spec sample ltac:(now destruct sample)) as (O1 & O2).
  enough (A : forall s tr s', pattern_steps b init_rho step_size delta n s tr s' -> forall T, in_box n b (n_x (p_center (fst s))) -> in_box n b (n_x (p_explr (fst s))) ->
     (forall a, In a (p_pop (fst s)) -> In a T) -> In (snd s) T -> (forall a, In a T -> at_least_as_good (snd s) a) ->
     (forall a, In a tr -> in_box n b (n_x a)) /\ In (snd s') (T ++ tr) /\ (forall a, In a (T ++ tr) -> at_least_as_good (snd s') a)).
  { apply (A _ _ _ H sample); cbn [fst snd pattern_init p_center p_explr]; auto. unfold p_pop. cbn. intros a [<-|[<-|[]]]; auto. }
  clear H. intros s t s' H. induction H as [s|st opt K tr1 st1 tr2 s2 HK H1 H2 IH]; intros T Bc Be HP HO HG.
  - rewrite app_nil_r. split; [intros a []|]. auto.
  - cbn [fst snd] in *. destruct (C70_iteration n b _ _ _ _ _ _ _ HB Bc Be HK H1) as (_ & (m & Hm & Gm) & HPi & HT & Bc' & Be' & _).
    destruct (optimum_spec (opt :: p_pop st1) ltac:(discriminate)) as (P1 & P2). fold (pattern_opt opt st1) in P1, P2.
    assert (HP1 : forall a, In a (p_pop st1) -> In a (T ++ tr1)).
    { intros a Ha. apply HPi in Ha. apply in_app_or in Ha. apply in_or_app. destruct Ha as [Ha|Ha]; auto. }
    destruct (IH (T ++ tr1) Bc' Be' HP1) as (I1 & I2 & I3).
    + destruct P1 as [<-|P1]; [apply in_or_app; now left|now apply HP1].
    + intros a Ha. apply in_app_or in Ha. destruct Ha as [Ha|Ha].
      * apply good_trans with opt; [apply P2; now left|now apply HG].
      * apply good_trans with m; [apply P2; now right|]. apply Gm. apply in_or_app. now right.
    + rewrite <- app_assoc in I2, I3. split; [intros a Ha; apply in_app_or in Ha; destruct Ha; auto|]. auto.
Qed.

(** the step lengths are positive, at most a quarter of the width of the box *)
Theorem C70_delta n b x0 : bounds_ok n b -> length (n_x x0) = n -> (forall xl xu, b = (Some xl, Some xu) -> forall j, j < n -> (nth j xl 0 < nth j xu 0)%Q) ->
  forall j, j < n -> (0 < nth j (pattern_delta b (1 # 4) x0) 0)%Q /\ forall xl xu, b = (Some xl, Some xu) -> (nth j (pattern_delta b (1 # 4) x0) 0 == (nth j xu 0 - nth j xl 0) / 4)%Q.
Proof.
  intros (B1 & B2) LX HL j Hj. set (g := fun x => let d := (Qabs.Qabs x / 2)%Q in if Qle_bool d 1 then 1%Q else d).
  assert (G : (0 < nth j (map g (n_x x0)) 0)%Q).
  { rewrite (nth_indep _ 0%Q (g 0%Q)) by (rewrite map_length; lia). rewrite map_nth. unfold g. cbv zeta. destruct (Qle_bool _ _) eqn:E; qcase; lra. }
  destruct b as [[xl|] [xu|]]; cbn [pattern_delta]; try (split; [exact G|discriminate]).
  specialize (B1 xl eq_refl). specialize (B2 xu eq_refl). specialize (HL xl xu eq_refl j Hj). rewrite nth_vscale, nth_vsub by (rewrite ?len_vsub; lia).
  split; [lra|]. intros xl' xu' E. injection E as <- <-. field.
Qed.

(** the order of the variables is not drawn from the algorithm's seeded generator; the result depends on it, so that a seed does not determine a run *)
Definition bumpy (x : list Q) : Q := match x with [x; y] => if Qeq_bool x 1 then (if Qeq_bool y 0 then -1 else 0) else if Qeq_bool x 0 then (if Qeq_bool y 1 then -2 else 0) else 0 | _ => 0 end%Q.
Theorem C70_seed_refuted : ~ (forall n b init_rho step_size delta st K1 K2 tr1 tr2 st1 st2 (f : list Q -> Q), NoDup K1 -> NoDup K2 -> (forall k, In k K1 <-> k < n) -> (forall k, In k K2 <-> k < n) ->
  exec (pattern_next b init_rho step_size delta K1 st) tr1 st1 -> exec (pattern_next b init_rho step_size delta K2 st) tr2 st2 ->
  (forall a, In a (tr1 ++ tr2) -> n_f a = f (n_x a) /\ n_cv a = 0%Q) -> (n_f (p_explr st1) == n_f (p_explr st2))%Q).
Proof.
  intros H. set (x0 := evald bumpy [0; 0]%Q). set (st := pattern_init (1 # 2) 2 x0).
  set (c := fun K => pattern_next (None, None) (1 # 2) 1 [2; 2]%Q K st).
  assert (E : (n_f (p_explr (snd (run bumpy (c [0; 1]%nat)))) == n_f (p_explr (snd (run bumpy (c [1; 0]%nat)))))%Q).
  { apply (H 2 (None, None) (1 # 2) 1%Q [2; 2]%Q st [0; 1] [1; 0] (fst (run bumpy (c [0; 1]))) (fst (run bumpy (c [1; 0]))) _ _ bumpy); try apply run_exec.
    - repeat constructor; cbn; intuition lia.
    - repeat constructor; cbn; intuition lia.
    - intros k. cbn. lia.
    - intros k. cbn. lia.
    - assert (A : forall R (c : co R) a, In a (fst (run bumpy c)) -> n_f a = bumpy (n_x a) /\ n_cv a = 0%Q).
      { intros R c'. induction c' as [r|xs k IH]; cbn [run]; [intros a []|]. specialize (IH (map (evald bumpy) xs)). destruct (run bumpy (k (map (evald bumpy) xs))) as [tr r]. cbn [fst] in *.
        intros a Ha. apply in_app_or in Ha. destruct Ha as [Ha|Ha]; auto. apply in_map_iff in Ha. destruct Ha as (x & <- & _). auto. }
      intros a Ha. apply in_app_or in Ha. destruct Ha as [Ha|Ha]; eauto. }
  vm_compute in E. discriminate.
Qed.
Example C70_ex : let st := pattern_init (1 # 2) 2 (evald bumpy [0; 0]%Q) in let st' := snd (run bumpy (pattern_next (None, None) (1 # 2) 1 [2; 2]%Q [0; 1] st)) in
  n_f (p_explr st') = (-1)%Q /\ p_nni st' = 1 /\ (p_rho st' == 1 # 2)%Q /\ n_f (optimum (p_pop st')) = (-1)%Q.
Proof. vm_compute. repeat split; reflexivity. Qed.
Print Assumptions C70_run. Print Assumptions C70_seed_refuted.
