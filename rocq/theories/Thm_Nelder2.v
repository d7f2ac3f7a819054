(** * C69: Nelder-Mead, a step and a run *)
From Coq Require Import List Arith Bool ZArith QArith Lia Lqa Permutation Sorted.
From Verif Require Import ListAux M_Individual M_Survival M_RefDirs2 M_Nelder S_Local Thm_Nelder.
Import ListNotations.
Local Open Scope nat_scope.

Lemma exec_ret_inv {R} (r : R) tr r' : exec (Ret r) tr r' -> tr = [] /\ r' = r.
Proof. intros H. inversion H; subst; auto. Qed.
Lemma exec_yield_inv {R} xs (k : list nind -> co R) tr r : exec (Yield xs k) tr r ->
  exists inds tr', tr = inds ++ tr' /\ map n_x inds = xs /\ Forall (fun a => 0 <= n_cv a)%Q inds /\ exec (k inds) tr' r.
Proof. intros H. inversion H; subst. eauto 10. Qed.
Lemma exec_one_inv xs k tr (r : list nind) : exec (one xs k) tr r -> exists a tr', tr = a :: tr' /\ n_x a = xs /\ (0 <= n_cv a)%Q /\ exec (k a) tr' r.
Proof.
  intros H. apply exec_yield_inv in H. destruct H as (inds & tr' & -> & Hm & HF & Hk). destruct inds as [|a [|? ?]]; try discriminate. injection Hm as Hm.
  inversion HF; subst. exists a, tr'. auto.
Qed.
Lemma sorted_iff l : StronglySorted kle l <-> ordered l.
Proof.
  split.
  - intros H i j Hij. cbn. apply kle_iff. now apply sorted_nth.
  - induction l as [|a l IH]; intros H; constructor.
    + apply IH. intros i j Hij. specialize (H (S i) (S j)). cbn [length nth] in H. apply H. lia.
    + apply Forall_forall. intros c Hc. apply kle_iff. destruct (In_nth _ _ nind0 Hc) as (j & Hj & <-). specialize (H 0 (S j)). cbn [length nth] in H. apply H. lia.
Qed.
Lemma upd_last {A} (l : list A) n x : length l = S n -> upd l n x = firstn n l ++ [x].
Proof.
  revert n. induction l as [|a l IH]; intros n H; [discriminate|]. destruct n as [|n]; cbn [upd firstn app].
  - destruct l; [reflexivity|discriminate].
  - f_equal. apply IH. cbn in H. lia.
Qed.
Lemma split_last {A} (l : list A) n d : length l = S n -> l = firstn n l ++ [nth n l d].
Proof.
  intros H. rewrite <- (firstn_skipn n l) at 1. f_equal. destruct (skipn n l) as [|a [|? ?]] eqn:E.
  - apply (f_equal (@length A)) in E. rewrite skipn_length in E. cbn in E. lia.
  - f_equal. rewrite <- (firstn_skipn n l), E, app_nth2; rewrite firstn_length; [|lia]. now replace (n - Nat.min n (length l)) with 0 by lia.
  - apply (f_equal (@length A)) in E. rewrite skipn_length in E. cbn in E. lia.
Qed.

Section Step.
  Variables (n : nat) (b : bnds) (p : params) (pop : list nind).
  Hypothesis Hn : 1 <= n.
  Hypothesis HB : bounds_ok n b.
  Hypothesis HP : params_ok p.
  Hypothesis HS : simplex n b pop.
  Let worst := nth n pop nind0.
  Let best := nth 0 pop nind0.
  Let centroid := mean n (firstn n pop).
  Let dir := vsub centroid (n_x worst).

  Lemma pop_box a : In a pop -> in_box n b (n_x a) /\ (0 <= n_cv a)%Q.
  Proof. destruct HS as (_ & H). rewrite Forall_forall in H. auto. Qed.
  Lemma worst_in : In worst pop.
  Proof. apply nth_In. destruct HS as (-> & _). lia. Qed.
  Lemma best_in : In best pop.
  Proof. apply nth_In. destruct HS as (-> & _). lia. Qed.
  Lemma centroid_box : in_box n b centroid.
  Proof.
    apply mean_in; [rewrite firstn_length; destruct HS as (-> & _); lia|]. apply Forall_forall. intros a Ha.
    destruct (pop_box a) as (H & _); auto. rewrite <- (firstn_skipn n pop). apply in_or_app. now left.
  Qed.
  Lemma dir_len : length dir = n.
  Proof. unfold dir. destruct centroid_box as (H & _). rewrite len_vsub; auto. destruct (pop_box _ worst_in) as ((Hw & _) & _). lia. Qed.
  Lemma qmin_inf_spec a u : (0 <= a)%Q -> (forall v, u = Some v -> (0 <= v)%Q) -> (0 <= qmin_inf a u)%Q /\ (qmin_inf a u <= a)%Q /\ forall v, u = Some v -> (qmin_inf a u <= v)%Q.
  Proof.
    intros Ha Hu. destruct u as [v|]; cbn [qmin_inf].
    - specialize (Hu v eq_refl). destruct (Qle_bool a v) eqn:E; qcase; repeat split; try lra; intros w Ew; injection Ew as <-; lra.
    - repeat split; try lra. discriminate.
  Qed.
  (** the point in direction [d] from the centroid, cut off at the bounds *)
  Lemma cut_in d a : length d = n -> (0 <= a)%Q -> let t := qmin_inf a (max_alpha centroid d b) in
    let x := vadd centroid (vscale t d) in in_box n b x /\ to_bounds b x = x /\ (0 <= t <= a)%Q.
  Proof.
    intros Hd Ha t x. destruct (qmin_inf_spec a (max_alpha centroid d b) Ha (fun v E => ma_nonneg _ _ _ _ E)) as (T1 & T2 & T3). fold t in T1, T2, T3.
    assert (I : in_box n b x).
    { apply (C69_max_alpha n b centroid d t x); auto using centroid_box. apply along_make. destruct centroid_box as (-> & _). exact Hd. }
    split; [exact I|]. split; [now apply (to_bounds_id n)|]. split; auto.
  Qed.
  Let alpha := fst (fst (fst p)).
  Let beta := snd (fst (fst p)).
  Let gamma := snd (fst p).
  Let delta := snd p.
  Lemma p_ok : (0 <= alpha)%Q /\ (0 <= beta)%Q /\ (0 <= gamma <= 1)%Q /\ (alpha * gamma <= 1)%Q /\ (0 <= delta <= 1)%Q.
  Proof. unfold alpha, beta, gamma, delta. destruct p as [[[? ?] ?] ?]. exact HP. Qed.
  Let xr := to_bounds b (vadd centroid (vscale (qmin_inf alpha (max_alpha centroid dir b)) dir)).
  Let xe := to_bounds b (vadd centroid (vscale (qmin_inf beta (max_alpha centroid (vsub xr centroid) b)) (vsub xr centroid))).
  Lemma xr_box : in_box n b xr.
  Proof. unfold xr. destruct (cut_in dir alpha dir_len) as (H1 & H2 & _); [apply p_ok|]. cbv zeta in *. rewrite H2. exact H1. Qed.
  Lemma xr_dir_len : length (vsub xr centroid) = n.
  Proof. destruct xr_box as (H & _), centroid_box as (H' & _). rewrite len_vsub; lia. Qed.
  Lemma xe_box : in_box n b xe.
  Proof. unfold xe. destruct (cut_in (vsub xr centroid) beta xr_dir_len) as (H1 & H2 & _); [apply p_ok|]. cbv zeta in *. rewrite H2. exact H1. Qed.
  Lemma xco_box : in_box n b (vadd centroid (vscale gamma (vsub xr centroid))).
  Proof.
    pose proof centroid_box as C. pose proof xr_box as X. pose proof xr_dir_len as L. destruct p_ok as (_ & _ & G & _).
    assert (LC : length centroid = n) by apply C. assert (LX : length xr = n) by apply X.
    apply (convex_in n b centroid xr _ gamma C X G); [rewrite len_vadd; rewrite ?len_vscale; lia|].
    intros j Hj. rewrite nth_vadd, nth_vscale, nth_vsub; rewrite ?len_vscale; try lia. reflexivity.
  Qed.
  Lemma xci_box : in_box n b (vsub centroid (vscale gamma (vsub xr centroid))).
  Proof.
    pose proof centroid_box as C. pose proof (pop_box _ worst_in) as (W & _). pose proof xr_dir_len as L. pose proof dir_len as D. pose proof xr_box as X.
    assert (LC : length centroid = n) by apply C. assert (LX : length xr = n) by apply X. assert (LW : length (n_x worst) = n) by apply W.
    destruct (cut_in dir alpha dir_len) as (H1 & H2 & H3); [apply p_ok|]. cbv zeta in *. set (t := qmin_inf alpha _) in *. destruct p_ok as (A & _ & G & AG & _).
    apply (convex_in n b centroid (n_x worst) _ (gamma * t)%Q C W); [split; nra|rewrite len_vsub; rewrite ?len_vscale; lia|].
    intros j Hj. rewrite nth_vsub, nth_vscale, nth_vsub; rewrite ?len_vscale; try lia. unfold xr. fold t. rewrite H2, nth_vadd, nth_vscale by (rewrite ?len_vscale; lia).
    unfold dir. rewrite nth_vsub by lia. ring.
  Qed.
  Lemma shrink_box a : In a pop -> in_box n b (vadd (n_x best) (vscale delta (vsub (n_x a) (n_x best)))).
  Proof.
    intros Ha. destruct (pop_box _ best_in) as (C & _), (pop_box _ Ha) as (W & _). destruct p_ok as (_ & _ & _ & _ & G).
    assert (LC : length (n_x best) = n) by apply C. assert (LX : length (n_x a) = n) by apply W.
    apply (convex_in n b (n_x best) (n_x a) _ delta C W G); [rewrite len_vadd; rewrite ?len_vscale, ?len_vsub; lia|].
    intros j Hj. rewrite nth_vadd, nth_vscale, nth_vsub; rewrite ?len_vscale, ?len_vsub; try lia. reflexivity.
  Qed.

  (** the second way a step ends *)
  Definition shrunk (tr pop' : list nind) : Prop := exists r c inds, tr = r :: c :: inds /\ pop' = fitness_sort (best :: inds) /\ length inds = n /\
    (forall i, i < n -> n_x (nth i inds nind0) = vadd (n_x best) (vscale delta (vsub (n_x (nth (S i) pop nind0)) (n_x best)))) /\ Forall (fun a => 0 <= n_cv a)%Q inds.
  Lemma keep_exec a tr pop' : exec (Ret (fitness_sort (upd pop n a))) tr pop' -> tr = [] /\ pop' = fitness_sort (firstn n pop ++ [a]).
  Proof. intros H. apply exec_ret_inv in H. destruct H as (-> & ->). split; auto. rewrite upd_last; auto. apply HS. Qed.
  Lemma shrink_exec tr pop' : exec (shrink_step p pop) tr pop' -> pop' = fitness_sort (best :: tr) /\ length tr = n /\
    (forall i, i < n -> n_x (nth i tr nind0) = vadd (n_x best) (vscale delta (vsub (n_x (nth (S i) pop nind0)) (n_x best)))) /\ Forall (fun a => 0 <= n_cv a)%Q tr.
  Proof.
    intros H. apply exec_yield_inv in H. destruct H as (inds & tr' & -> & Hm & HF & Hk). apply exec_ret_inv in Hk. destruct Hk as (-> & ->). rewrite app_nil_r.
    assert (L : length (tl pop) = n) by (destruct HS as (E & _); destruct pop; cbn in *; lia).
    assert (LI : length inds = n) by (apply (f_equal (@length _)) in Hm; rewrite !map_length in Hm; lia).
    split; [reflexivity|]. split; [exact LI|]. split; [|exact HF]. intros i Hi.
    rewrite <- (map_nth n_x), Hm. cbn [n_x nind0].
    match goal with |- nth i (map ?f _) _ = _ => rewrite (nth_indep _ [] (f nind0)) by (rewrite map_length; lia); rewrite (map_nth f) end.
    replace (nth i (tl pop) nind0) with (nth (S i) pop nind0); [reflexivity|]. destruct pop; [cbn in L; destruct i; reflexivity|reflexivity].
  Qed.
  Lemma step_cases tr pop' : exec (nm_step n b p pop) tr pop' ->
    (forall a, In a tr -> in_box n b (n_x a) /\ (0 <= n_cv a)%Q) /\
    ((exists a, In a tr /\ pop' = fitness_sort (firstn n pop ++ [a]) /\ length tr <= 2 /\ (better a worst = true \/ better a best = true \/ better a (nth (n - 1) pop nind0) = true) /\
        (forall c, In c tr -> at_least_as_good a c \/ at_least_as_good best c)) \/
     (shrunk tr pop' /\ forall c, In c (firstn 2 tr) -> at_least_as_good best c \/ at_least_as_good worst c)).
  Proof.
    unfold nm_step. fold worst best. fold centroid. fold dir. fold alpha. fold beta. fold gamma. fold xr. fold xe.
    intros H. apply exec_one_inv in H. destruct H as (r & tr' & -> & Xr & Cr & H).
    assert (Br : in_box n b (n_x r) /\ (0 <= n_cv r)%Q) by (rewrite Xr; split; auto; apply xr_box).
    destruct (better r best) eqn:E1.
    { apply exec_one_inv in H. destruct H as (e & tr'' & -> & Xe & Ce & H). assert (Be : in_box n b (n_x e) /\ (0 <= n_cv e)%Q) by (rewrite Xe; split; auto; apply xe_box).
      destruct (better e r) eqn:E2; apply keep_exec in H; destruct H as (-> & ->); (split; [intros a [<-|[<-|[]]]; auto|]); left.
      - exists e. apply better_iff in E1, E2. split; [right; now left|]. split; [reflexivity|]. split; [cbn; lia|].
        split; [right; left; apply better_iff; now apply (better_good_trans e r best E2), better_good|].
        intros c [<-|[<-|[]]]; left; [now apply better_good|apply good_refl].
      - exists r. split; [now left|]. split; [reflexivity|]. split; [cbn; lia|]. split; [auto|]. intros c [<-|[<-|[]]]; left; [apply good_refl|now apply not_better]. }
    destruct (better r (nth (n - 1) pop nind0)) eqn:E2.
    { apply keep_exec in H. destruct H as (-> & ->). split; [intros a [<-|[]]; auto|]. left. exists r. split; [now left|]. split; [reflexivity|]. split; [cbn; lia|].
      split; [auto|]. intros c [<-|[]]. left. apply good_refl. }
    destruct (better r worst) eqn:E3.
    - apply exec_one_inv in H. destruct H as (e & tr'' & -> & Xe & Ce & H). assert (Be : in_box n b (n_x e) /\ (0 <= n_cv e)%Q) by (rewrite Xe; split; auto; apply xco_box).
      destruct (better e r) eqn:E4.
      + apply keep_exec in H; destruct H as (-> & ->). split; [intros a [<-|[<-|[]]]; auto|]. left. exists e. split; [right; now left|]. split; [reflexivity|]. split; [cbn; lia|].
        apply better_iff in E3, E4. split; [left; apply better_iff; now apply (better_good_trans e r worst E4), better_good|].
        intros c [<-|[<-|[]]]; left; [now apply better_good|apply good_refl].
      + apply shrink_exec in H. destruct H as (-> & LI & HX & HC). split.
        * intros a [<-|[<-|Ha]]; auto. rewrite Forall_forall in HC. split; [|auto]. destruct (In_nth _ _ nind0 Ha) as (i & Hi & <-). rewrite HX by lia.
          apply shrink_box. apply nth_In. destruct HS as (-> & _). lia.
        * right. split; [exists r, e, tr''; auto|]. intros c [<-|[<-|[]]]; left; [now apply not_better|].
          apply good_trans with r; [now apply not_better|now apply not_better].
    - apply exec_one_inv in H. destruct H as (e & tr'' & -> & Xe & Ce & H). assert (Be : in_box n b (n_x e) /\ (0 <= n_cv e)%Q) by (rewrite Xe; split; auto; apply xci_box).
      destruct (better e worst) eqn:E4.
      + apply keep_exec in H; destruct H as (-> & ->). split; [intros a [<-|[<-|[]]]; auto|]. left. exists e. split; [right; now left|]. split; [reflexivity|]. split; [cbn; lia|].
        split; [auto|]. intros c [<-|[<-|[]]]; [right; now apply not_better|left; apply good_refl].
      + apply shrink_exec in H. destruct H as (-> & LI & HX & HC). split.
        * intros a [<-|[<-|Ha]]; auto. rewrite Forall_forall in HC. split; [|auto]. destruct (In_nth _ _ nind0 Ha) as (i & Hi & <-). rewrite HX by lia.
          apply shrink_box. apply nth_In. destruct HS as (-> & _). lia.
        * right. split; [exists r, e, tr''; auto|]. intros c [<-|[<-|[]]]; [left; now apply not_better|right; now apply not_better].
  Qed.
End Step.

Lemma step_simplex n b p pop tr pop' : 1 <= n -> bounds_ok n b -> params_ok p -> simplex n b pop -> exec (nm_step n b p pop) tr pop' ->
  simplex n b pop' /\ StronglySorted kle pop' /\ (forall a, In a pop' -> In a (pop ++ tr)) /\ (forall a, In a tr -> in_box n b (n_x a) /\ (0 <= n_cv a)%Q) /\ In (nth 0 pop nind0) pop'.
Proof.
  intros Hn HB HP HS H. destruct (step_cases n b p pop Hn HB HP HS tr pop' H) as (HT & HC).
  assert (L : length pop = S n) by apply HS.
  assert (HF : forall a, In a (firstn n pop) -> In a pop) by (intros a Ha; rewrite <- (firstn_skipn n pop); apply in_or_app; now left).
  assert (BI : In (nth 0 pop nind0) (firstn n pop)) by (destruct pop as [|a l]; [cbn in L; lia|]; destruct n as [|n']; [lia|]; cbn; auto).
  assert (X : exists l, pop' = fitness_sort l /\ length l = S n /\ (forall a, In a l -> In a (pop ++ tr)) /\ In (nth 0 pop nind0) l).
  { destruct HC as [(a & Ha & -> & _)|((r & c & inds & -> & -> & LI & _) & _)]; eexists; (split; [reflexivity|]).
    - split; [rewrite app_length, firstn_length; cbn; lia|]. split; [|apply in_or_app; now left]. intros c Hc. apply in_app_or in Hc. apply in_or_app. destruct Hc as [Hc|[<-|[]]]; auto.
    - split; [cbn; lia|]. split; [|now left]. intros a [<-|Ha]; apply in_or_app; [left; auto|right; right; now right]. }
  destruct X as (l & -> & LL & HI & HB0). pose proof (sort_perm l) as P.
  assert (HI' : forall a, In a (fitness_sort l) -> In a (pop ++ tr)) by (intros a Ha; apply HI; now apply (Permutation_in _ (Permutation_sym P))).
  split; [split; [now rewrite <- (Permutation_length P)|]|].
  - apply Forall_forall. intros a Ha. apply HI', in_app_or in Ha. destruct Ha as [Ha|Ha]; [|auto]. destruct HS as (_ & HS). rewrite Forall_forall in HS. auto.
  - split; [apply sort_sorted|]. split; [exact HI'|]. split; [exact HT|]. now apply (Permutation_in _ P).
Qed.
(** one step from any simplex: a sorted simplex again, made of old and newly evaluated points, all of them in the box; never more than n_var + 2 evaluations *)
Theorem C69_step n b p pop tr pop' : 1 <= n -> bounds_ok n b -> params_ok p -> simplex n b pop -> exec (nm_step n b p pop) tr pop' ->
  simplex n b pop' /\ ordered pop' /\ (forall a, In a pop' -> In a (pop ++ tr)) /\ (forall a, In a tr -> in_box n b (n_x a)) /\ In (nth 0 pop nind0) pop' /\
  (1 <= length tr <= 2 \/ length tr = n + 2).
Proof.
  intros Hn HB HP HS H. destruct (step_simplex n b p pop tr pop' Hn HB HP HS H) as (H1 & H2 & H3 & H4 & H5).
  split; [exact H1|]. split; [now apply sorted_iff|]. split; [exact H3|]. split; [intros a Ha; now apply H4|]. split; [exact H5|].
  destruct (step_cases n b p pop Hn HB HP HS tr pop' H) as (_ & [(a & Ha & _ & HL & _)|((r & c & inds & -> & _ & LI & _) & _)]).
  - left. destruct tr; [destruct Ha|cbn in *; lia].
  - right. cbn. lia.
Qed.
(** from a sorted simplex nothing that was known or is evaluated beats the new best point *)
Theorem C69_best n b p pop tr pop' : 1 <= n -> bounds_ok n b -> params_ok p -> simplex n b pop -> ordered pop -> exec (nm_step n b p pop) tr pop' ->
  forall a, In a (pop ++ tr) -> at_least_as_good (nth 0 pop' nind0) a.
Proof.
  intros Hn HB HP HS HO H. destruct (step_simplex n b p pop tr pop' Hn HB HP HS H) as (H1 & H2 & H3 & H4 & H5). apply sorted_iff in HO.
  assert (C : Forall (fun a => 0 <= n_cv a)%Q pop) by (destruct HS as (_ & HS); eapply Forall_impl; [|exact HS]; cbn; tauto).
  assert (C' : Forall (fun a => 0 <= n_cv a)%Q pop') by (destruct H1 as (_ & H1); eapply Forall_impl; [|exact H1]; cbn; tauto).
  assert (K : forall a, In a pop' -> at_least_as_good (nth 0 pop' nind0) a) by (intros a Ha; now apply sorted_head).
  assert (KB : at_least_as_good (nth 0 pop' nind0) (nth 0 pop nind0)) by auto.
  assert (W : at_least_as_good (nth 0 pop nind0) (nth n pop nind0)) by (apply sorted_head; auto; apply nth_In; destruct HS as (-> & _); lia).
  intros a Ha. apply in_app_or in Ha. destruct Ha as [Ha|Ha]; [apply good_trans with (nth 0 pop nind0); auto; now apply sorted_head|].
  destruct (step_cases n b p pop Hn HB HP HS tr pop' H) as (_ & [(e & He & Ep & _ & _ & HL)|((r & c & inds & -> & Ep & LI & _) & HL)]).
  - assert (Ie : In e pop') by (rewrite Ep; apply (Permutation_in _ (sort_perm _)); apply in_or_app; right; now left).
    destruct (HL a Ha) as [G|G]; [apply good_trans with e; auto|apply good_trans with (nth 0 pop nind0); auto].
  - destruct Ha as [<-|[<-|Ha]].
    + destruct (HL r ltac:(now left)) as [G|G]; [apply good_trans with (nth 0 pop nind0); auto|]. apply good_trans with (nth n pop nind0); auto. now apply good_trans with (nth 0 pop nind0).
    + destruct (HL c ltac:(right; now left)) as [G|G]; [apply good_trans with (nth 0 pop nind0); auto|]. apply good_trans with (nth n pop nind0); auto. now apply good_trans with (nth 0 pop nind0).
    + apply K. rewrite Ep. apply (Permutation_in _ (sort_perm _)). now right.
Qed.
(** ... and unless the step ends with a shrink, exactly the worst point is replaced, by a strictly better one that was evaluated in this step; a shrink
    keeps the best point and moves all others by the factor delta towards it *)
Theorem C69_worst_or_shrink n b p pop tr pop' : 1 <= n -> bounds_ok n b -> params_ok p -> simplex n b pop -> ordered pop -> exec (nm_step n b p pop) tr pop' ->
  (exists a, In a tr /\ strictly_better a (nth n pop nind0) /\ Permutation pop' (firstn n pop ++ [a])) \/
  (exists r c inds, tr = r :: c :: inds /\ Permutation pop' (nth 0 pop nind0 :: inds) /\ length inds = n /\ forall i j, i < n -> j < n ->
     let x0 := nth j (n_x (nth 0 pop nind0)) 0%Q in let x := nth j (n_x (nth (S i) pop nind0)) 0%Q in (nth j (n_x (nth i inds nind0)) 0 == x0 + snd p * (x - x0))%Q).
Proof.
  intros Hn HB HP HS HO H. apply sorted_iff in HO. assert (L : length pop = S n) by apply HS.
  assert (C : Forall (fun a => 0 <= n_cv a)%Q pop) by (destruct HS as (_ & HS); eapply Forall_impl; [|exact HS]; cbn; tauto).
  destruct (step_cases n b p pop Hn HB HP HS tr pop' H) as (_ & [(a & Ha & -> & _ & HK & _)|((r & c & inds & -> & -> & LI & HX & _) & _)]).
  - left. exists a. split; [exact Ha|]. split; [|apply Permutation_sym, sort_perm].
    assert (G : forall i, i <= n -> at_least_as_good (nth i pop nind0) (nth n pop nind0)).
    { intros i Hi. destruct (Nat.eq_dec i n) as [->|]; [apply good_refl|]. rewrite Forall_forall in C. apply kle_good; [apply C, nth_In; lia|apply C, nth_In; lia|]. apply sorted_nth; auto. lia. }
    destruct HK as [E|[E|E]]; apply better_iff in E; [exact E|apply (better_good_trans _ _ _ E), G; lia|apply (better_good_trans _ _ _ E), G; lia].
  - right. exists r, c, inds. split; [reflexivity|]. split; [apply Permutation_sym, sort_perm|]. split; [exact LI|]. intros i j Hi Hj. cbv zeta. rewrite HX by exact Hi.
    assert (L0 : length (n_x (nth 0 pop nind0)) = n) by (destruct HS as (_ & HS); rewrite Forall_forall in HS; apply HS, nth_In; lia).
    assert (L1 : length (n_x (nth (S i) pop nind0)) = n) by (destruct HS as (_ & HS); rewrite Forall_forall in HS; apply HS, nth_In; lia).
    rewrite nth_vadd, nth_vscale, nth_vsub; rewrite ?len_vscale, ?len_vsub; try lia. reflexivity.
Qed.
(** any number of steps *)
Theorem C69_run n b p pop tr pop' : 1 <= n -> bounds_ok n b -> params_ok p -> simplex n b pop -> nm_steps n b p pop tr pop' ->
  simplex n b pop' /\ (forall a, In a tr -> in_box n b (n_x a)) /\ (ordered pop -> ordered pop' /\ forall a, In a (pop ++ tr) -> at_least_as_good (nth 0 pop' nind0) a).
Proof.
  intros Hn HB HP HS H. revert HS. induction H as [pop|pop tr pop1 tr' pop2 H1 H2 IH]; intros HS.
  - split; [exact HS|]. split; [intros a []|]. intros HO. split; [exact HO|]. intros a Ha. rewrite app_nil_r in Ha. apply sorted_head; [now apply sorted_iff| |exact Ha].
    destruct HS as (_ & HS). eapply Forall_impl; [|exact HS]. cbn. tauto.
  - destruct (C69_step n b p pop tr pop1 Hn HB HP HS H1) as (S1 & O1 & _ & T1 & _). destruct (IH S1) as (S2 & T2 & O2). split; [exact S2|].
    split; [intros a Ha; apply in_app_or in Ha; destruct Ha; auto|]. intros HO. destruct (O2 O1) as (O3 & G3). split; [exact O3|].
    assert (G1 := C69_best n b p pop tr pop1 Hn HB HP HS HO H1).
    assert (B1 : at_least_as_good (nth 0 pop2 nind0) (nth 0 pop1 nind0)) by (apply G3, in_or_app; left; apply nth_In; destruct S1 as (-> & _); lia).
    intros a Ha. rewrite app_assoc in Ha. apply in_app_or in Ha. destruct Ha as [Ha|Ha]; [apply good_trans with (nth 0 pop1 nind0); auto|]. apply G3, in_or_app. now right.
Qed.

(** the parameters that come with the code are of this kind *)
Theorem C69_params n : 1 <= n -> params_ok (adaptive_params n) /\ params_ok default_params.
Proof.
  intros Hn. split; [|cbn; lra]. unfold adaptive_params, params_ok. set (q := inject_Z (Z.of_nat n)).
  assert (Q1 : (1 <= q)%Q) by (unfold q; change 1%Q with (inject_Z 1); rewrite <- Zle_Qle; lia).
  assert (I1 : (0 <= 1 / q <= 1)%Q) by (split; [apply Qle_shift_div_l|apply Qle_shift_div_r]; lra).
  assert (I2 : (1 / (2 * q) == (1 # 2) * (1 / q))%Q) by (field; lra). assert (I3 : (2 / q == 2 * (1 / q))%Q) by (field; lra). rewrite I2, I3. lra.
Qed.

(** the initial simplex: x0 itself and, for every variable, a point that differs from x0 in exactly this variable; all of them in the box *)
Theorem C69_initial_simplex n b s x0 tr pop : bounds_ok n b -> in_box n b (n_x x0) -> (0 <= n_cv x0)%Q -> (forall xl xu, b = (Some xl, Some xu) -> forall j, j < n -> (nth j xl 0 < nth j xu 0)%Q) ->
  (fst b = None <-> snd b = None) -> exec (initial_simplex s b x0) tr pop ->
  simplex n b pop /\ pop = x0 :: tr /\ forall k j, k < n -> j < n -> ((nth j (n_x (nth k tr nind0)) 0 == nth j (n_x x0) 0)%Q <-> j <> k).
Proof.
  intros HB HX HC HL HN H. apply exec_yield_inv in H. destruct H as (inds & tr' & -> & Hm & HF & Hk). apply exec_ret_inv in Hk. destruct Hk as (-> & ->). rewrite app_nil_r.
  assert (LX : length (n_x x0) = n) by apply HX.
  assert (LI : length inds = n) by (apply (f_equal (@length _)) in Hm; unfold initialize_simplex in Hm; rewrite !map_length, seq_length in Hm; lia).
  set (x := n_x x0) in *.
  (* the k-th point *)
  assert (E : forall k, k < n -> exists v, n_x (nth k inds nind0) = upd x k v /\ ~ (v == nth k x 0)%Q /\ forall xl xu, b = (Some xl, Some xu) -> (nth k xl 0 <= v <= nth k xu 0)%Q).
  { intros k Hk. rewrite <- (map_nth n_x), Hm. cbn [n_x nind0]. unfold initialize_simplex.
    match goal with |- exists v, nth k (map ?f _) _ = _ /\ _ => rewrite (nth_indep _ [] (f 0)) by (rewrite map_length, seq_length; lia); rewrite (map_nth f) end.
    rewrite seq_nth by lia. cbn [Nat.add]. destruct HX as (_ & X2 & X3). destruct HB as (B1 & B2).
    destruct b as [[xl|] [xu|]]; try (exfalso; cbn in HN; destruct HN as [N1 N2]; (discriminate (N1 eq_refl) || discriminate (N2 eq_refl))).
    - eexists. split; [reflexivity|]. specialize (X2 xl eq_refl k Hk). specialize (X3 xu eq_refl k Hk). specialize (HL xl xu eq_refl k Hk). specialize (B1 xl eq_refl). specialize (B2 xu eq_refl).
      rewrite nth_vscale, nth_vsub by (rewrite ?len_vsub; lia). destruct (Qle_bool _ _) eqn:Eq; cbn [negb]; qcase; (split; [lra|]); intros xl' xu' Eb; injection Eb as <- <-; lra.
    - eexists. split; [reflexivity|]. split; [|discriminate].
      set (g := fun d : Q => if Qeq_bool d 0 then (1 # 4000)%Q else d). rewrite (nth_indep (map g _) 0%Q (g 0%Q)) by (rewrite map_length, len_vscale; lia). rewrite (map_nth g).
      unfold g. destruct (Qeq_bool _ _) eqn:Eq; qcase; lra. }
  assert (U : forall k v j, j < n -> nth j (upd x k v) 0%Q = if k =? j then v else nth j x 0%Q).
  { intros k v j Hj. destruct (Nat.eqb_spec k j) as [->|Hne]; [apply nth_upd_eq; lia|apply nth_upd_neq; lia]. }
  split; [|split; [reflexivity|]].
  - split; [cbn; lia|]. constructor; [split; auto|]. rewrite Forall_forall in HF |- *. intros a Ha. split; [|auto]. destruct (In_nth _ _ nind0 Ha) as (k & Hk & <-).
    destruct (E k ltac:(lia)) as (v & -> & _ & Hv). destruct HX as (_ & X2 & X3). split; [now rewrite length_upd|].
    destruct b as [[xl|] [xu|]]; try (exfalso; cbn in HN; destruct HN as [N1 N2]; (discriminate (N1 eq_refl) || discriminate (N2 eq_refl))); [|split; discriminate].
    specialize (Hv xl xu eq_refl). split; intros bd Eb j Hj; injection Eb as <-; rewrite U by exact Hj; destruct (Nat.eqb_spec k j) as [->|]; cbn [fst snd] in *; try lra; eauto.
  - intros k j Hk Hj. destruct (E k Hk) as (v & -> & Hv & _). rewrite U by exact Hj. destruct (Nat.eqb_spec k j) as [->|Hne]; split; intros; try congruence; try contradiction; try reflexivity.
Qed.
(** the scale the user passes has no effect *)
Theorem C69_scale_ignored s s' b x0 : initial_simplex s b x0 = initial_simplex s' b x0.
Proof. reflexivity. Qed.

(** ** the first step *)
(** evaluation by a function without constraints *)
Definition evald (f : list Q -> Q) (x : list Q) : nind := {| n_x := x; n_f := f x; n_cv := 0 |}.
Lemma exec_yield_map {R} f xs (k : list nind -> co R) tr r : exec (k (map (evald f) xs)) tr r -> exec (Yield xs k) (map (evald f) xs ++ tr) r.
Proof.
  intros H. constructor; auto.
  - rewrite map_map. cbn. apply map_id.
  - apply Forall_forall. intros a Ha. apply in_map_iff in Ha. destruct Ha as (x & <- & _). cbn. lra.
Qed.
Fixpoint run {R} (f : list Q -> Q) (c : co R) : list nind * R :=
  match c with Ret r => ([], r) | Yield xs k => let a := map (evald f) xs in let '(tr, r) := run f (k a) in (a ++ tr, r) end.
Lemma run_exec {R} f (c : co R) : exec c (fst (run f c)) (snd (run f c)).
Proof.
  induction c as [r|xs k IH]; cbn [run]; [constructor|]. specialize (IH (map (evald f) xs)). destruct (run f (k (map (evald f) xs))) as [tr r]. cbn [fst snd] in *. now apply exec_yield_map.
Qed.
(** "the best point is never lost" is false: the first step takes x0 for the best and the last vertex for the worst point without looking at them.  Minimising the
    linear function -x without bounds from x0 = 1, the better vertex 1.05 is thrown away, and since delta = 0 for one variable the simplex collapses onto x0 *)
Definition negx (x : list Q) : Q := (- nth 0 x 0)%Q.
Theorem C69_best_refuted : exists x0 tr0 pop0 tr1 pop1,
  exec (initial_simplex (1 # 20) (None, None) x0) tr0 pop0 /\ exec (nm_step 1 (None, None) (adaptive_params 1) pop0) tr1 pop1 /\
  (forall a, In a (x0 :: tr0 ++ tr1) -> n_f a = negx (n_x a) /\ n_cv a = 0%Q) /\
  (exists a, In a pop0 /\ forall c, In c pop1 -> strictly_better a c) /\
  (forall c, In c pop1 -> (nth 0 (n_x c) 0 == nth 0 (n_x x0) 0)%Q).
Proof.
  set (x0 := evald negx [1%Q]). pose (r0 := run negx (initial_simplex (1 # 20) (None, None) x0)). pose (r1 := run negx (nm_step 1 (None, None) (adaptive_params 1) (snd r0))).
  exists x0, (fst r0), (snd r0), (fst r1), (snd r1). split; [apply run_exec|]. split; [apply run_exec|].
  assert (E0 : r0 = (fst r0, snd r0)) by (now destruct r0). 
  split; [|split].
  - vm_compute. intros a [<-|[<-|[<-|[<-|[<-|[]]]]]]; auto.
  - exists (nth 1 (snd r0) nind0). split; [vm_compute; auto|]. vm_compute. intros c [<-|[<-|[]]]; right; repeat split; (discriminate || reflexivity).
  - vm_compute. intros c [<-|[<-|[]]]; reflexivity.
Qed.
(** the collapse is general: with one variable the adaptive parameters shrink everything onto the best point *)
Theorem C69_collapse b pop tr pop' : bounds_ok 1 b -> simplex 1 b pop -> exec (nm_step 1 b (adaptive_params 1) pop) tr pop' -> length tr = 3 ->
  forall a, In a pop' -> (nth 0 (n_x a) 0 == nth 0 (n_x (nth 0 pop nind0)) 0)%Q.
Proof.
  intros HB HS H HT. destruct (step_cases 1 b (adaptive_params 1) pop (le_n 1) HB (proj1 (C69_params 1 (le_n 1))) HS tr pop' H) as (_ & [(a & Ha & _ & HL & _)|((r & c & inds & -> & -> & LI & HX & _) & _)]); [lia|].
  assert (L : length pop = 2) by apply HS.
  assert (L0 : length (n_x (nth 0 pop nind0)) = 1) by (destruct HS as (_ & HS); rewrite Forall_forall in HS; apply HS, nth_In; lia).
  assert (L1 : length (n_x (nth 1 pop nind0)) = 1) by (destruct HS as (_ & HS); rewrite Forall_forall in HS; apply HS, nth_In; lia).
  intros a Ha. apply (Permutation_in _ (Permutation_sym (sort_perm _))) in Ha. destruct Ha as [<-|Ha]; [reflexivity|]. destruct (In_nth _ _ nind0 Ha) as (i & Hi & <-). rewrite HX by lia.
  replace i with 0 by lia. rewrite nth_vadd, nth_vscale, nth_vsub; rewrite ?len_vscale, ?len_vsub; try lia. cbn [adaptive_params snd]. setoid_replace (1 - 1 / inject_Z (Z.of_nat 1))%Q with 0%Q by reflexivity. ring.
Qed.

(** a case that meets all hypotheses: two variables in a box *)
Example C69_ex : let b := (Some [0; 0], Some [10; 10])%Q in let f x := (nth 0 x 0 + 2 * nth 1 x 0)%Q in let x0 := evald f [5; 5]%Q in
  let pop0 := snd (run f (initial_simplex (1 # 20) b x0)) in let pop1 := snd (run f (nm_step 2 b (adaptive_params 2) pop0)) in
  map n_x pop0 = [[5; 5]; [110 # 20; 5]; [5; 110 # 20]]%Q /\ simplex 2 b pop0 /\ simplex 2 b pop1 /\ ordered pop1.
Proof.
  intros b f x0 pop0 pop1.
  assert (HB : bounds_ok 2 b) by (split; intros ? E; injection E as <-; reflexivity).
  assert (BX : in_box 2 b (n_x x0)).
  { split; [reflexivity|]. split; intros ? E j Hj; injection E as <-; destruct j as [|[|j]]; try lia; cbn; lra. }
  split; [vm_compute; reflexivity|].
  assert (S0 : simplex 2 b pop0).
  { apply (C69_initial_simplex 2 b (1 # 20) x0 (fst (run f (initial_simplex (1 # 20) b x0))) pop0 HB BX); [cbn; lra| |split; discriminate|apply run_exec].
    intros xl xu E j Hj. injection E as <- <-. destruct j as [|[|j]]; try lia; cbn; lra. }
  split; [exact S0|]. destruct (C69_step 2 b (adaptive_params 2) pop0 _ pop1 ltac:(lia) HB (proj1 (C69_params 2 ltac:(lia))) S0 (run_exec f _)) as (S1 & O1 & _). auto.
Qed.
Print Assumptions C69_max_alpha. Print Assumptions C69_max_alpha_exact. Print Assumptions C69_run. Print Assumptions C69_best_refuted. Print Assumptions C69_initial_simplex.
