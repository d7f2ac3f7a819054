(** * Theorems C82, continued: ideal and nadir points, adaptation of the directions, populations, budget, refutations *)
From Coq Require Import List Arith Bool ZArith Reals Lra Lia Permutation.
From Verif Require Import Flt ListAux NpSort M_NSGA3R M_RVEA M_Survival S_RVEA S_Survival P_Survival Thm_NSGA3R Thm_RVEA.
Import ListNotations.
Local Open Scope R_scope.

(** ** ideal and nadir *)
Lemma nth_map2R f (a b : list R) j m : length a = m -> length b = m -> (j < m)%nat -> nth j (map2 f a b) 0 = f (nth j a 0) (nth j b 0).
Proof. intros Ha Hb Hj. rewrite (nth_map2 f a b j 0 0 0) by lia. reflexivity. Qed.
Lemma comp_min_fold m F : forall f G, length f = m -> vectors m F -> comp_min m G f -> comp_min m (G ++ F) (fold_left (map2 Rmin) F f).
Proof.
  induction F as [|g F IH]; intros f G Lf HF HC; cbn [fold_left]; [now rewrite app_nil_r|]. inversion HF as [|? ? Hg HF']; subst. replace (G ++ g :: F) with ((G ++ [g]) ++ F) by (rewrite <- app_assoc; reflexivity).
  assert (L : length (map2 Rmin f g) = length f) by (rewrite length_map2; lia). apply IH; auto. split; auto. intros j Hj. rewrite (nth_map2R Rmin f g j (length f)) by auto. destruct HC as [_ HC]. destruct (HC j Hj) as [H1 (h & H2 & H3)]. split.
  - intros h' Hh'. apply in_app_or in Hh' as [Hh'|[<-|[]]]; [eapply Rle_trans; [apply Rmin_l|auto]|apply Rmin_r].
  - destruct (Rle_lt_dec (nth j f 0) (nth j g 0)) as [L1|L1]; [exists h; rewrite Rmin_left by auto; split; auto; apply in_or_app; auto|exists g; rewrite Rmin_right by lra; split; auto; apply in_or_app; cbn; auto].
Qed.
Lemma comp_max_fold m F : forall f G, length f = m -> vectors m F -> comp_max m G f -> comp_max m (G ++ F) (fold_left (map2 Rmax) F f).
Proof.
  induction F as [|g F IH]; intros f G Lf HF HC; cbn [fold_left]; [now rewrite app_nil_r|]. inversion HF as [|? ? Hg HF']; subst. replace (G ++ g :: F) with ((G ++ [g]) ++ F) by (rewrite <- app_assoc; reflexivity).
  assert (L : length (map2 Rmax f g) = length f) by (rewrite length_map2; lia). apply IH; auto. split; auto. intros j Hj. rewrite (nth_map2R Rmax f g j (length f)) by auto. destruct HC as [_ HC]. destruct (HC j Hj) as [H1 (h & H2 & H3)]. split.
  - intros h' Hh'. apply in_app_or in Hh' as [Hh'|[<-|[]]]; [eapply Rle_trans; [|apply Rmax_l]; auto|apply Rmax_r].
  - destruct (Rle_lt_dec (nth j f 0) (nth j g 0)) as [L1|L1]; [exists g; rewrite Rmax_right by auto; split; auto; apply in_or_app; cbn; auto|exists h; rewrite Rmax_left by lra; split; auto; apply in_or_app; auto].
Qed.
Lemma self_min f : comp_min (length f) [f] f.
Proof. split; auto. intros j Hj. split; [intros g [<-|[]]; lra|exists f; cbn; auto]. Qed.
Lemma self_max f : comp_max (length f) [f] f.
Proof. split; auto. intros j Hj. split; [intros g [<-|[]]; lra|exists f; cbn; auto]. Qed.
Lemma col_min_spec m F : vectors m F -> F <> [] -> comp_min m F (col_minR F).
Proof. intros HF HN. destruct F as [|f F]; [congruence|]. inversion HF as [|? ? H1 H2]; subst. cbn [col_minR]. apply (comp_min_fold (length f) F f [f]); auto. apply self_min. Qed.
Lemma col_max_spec m F : vectors m F -> F <> [] -> comp_max m F (col_maxR F).
Proof. intros HF HN. destruct F as [|f F]; [congruence|]. inversion HF as [|? ? H1 H2]; subst. cbn [col_maxR]. apply (comp_max_fold (length f) F f [f]); auto. apply self_max. Qed.
Lemma ideal_step m st G F : vectors m F -> F <> [] -> match st with None => G = [] | Some z => comp_min m G z end -> comp_min m (G ++ F) (new_ideal st F).
Proof.
  intros HF HN HS. pose proof (col_min_spec m F HF HN) as HC. destruct st as [z|]; cbn [new_ideal]; [|subst; auto].
  destruct HC as [L1 HC], HS as [L2 HS]. split; [rewrite length_map2; lia|]. intros j Hj. rewrite (nth_map2R Rmin _ _ j m) by auto. destruct (HC j Hj) as [A1 (f & A2 & A3)], (HS j Hj) as [B1 (g & B2 & B3)]. split.
  - intros h Hh. apply in_app_or in Hh as [Hh|Hh]; [eapply Rle_trans; [apply Rmin_r|auto]|eapply Rle_trans; [apply Rmin_l|auto]].
  - destruct (Rle_lt_dec (nth j (col_minR F) 0) (nth j z 0)) as [L|L]; [exists f; rewrite Rmin_left by auto; split; auto; apply in_or_app; auto|exists g; rewrite Rmin_right by lra; split; auto; apply in_or_app; auto].
Qed.
(** a history of survivals; after each one the directions may be adapted *)
Fixpoint rvea_history (dirs : list (list R)) (n_obj : nat) (h : list (R * list (list R) * bool)) (st : apd_state) : apd_state :=
  match h with [] => st | (w, F, ad) :: h => let st' := snd (apd_do n_obj w st F) in rvea_history dirs n_obj h (if ad then apd_adapt dirs st' else st') end.
Lemma adapt_points dirs st : s_ideal (apd_adapt dirs st) = s_ideal st /\ s_nadir (apd_adapt dirs st) = s_nadir st.
Proof. unfold apd_adapt. destruct (s_nadir st) eqn:E1; [destruct (s_ideal st) eqn:E2|]; cbn; auto. Qed.
(** the ideal point is the componentwise minimum of all objective vectors ever seen *)
Theorem C82_ideal : forall m dirs n_obj h, h <> [] -> Forall (fun x => vectors m (snd (fst x)) /\ snd (fst x) <> []) h ->
  exists z, s_ideal (rvea_history dirs n_obj h (apd_init dirs)) = Some z /\ comp_min m (concat (map (fun x => snd (fst x)) h)) z.
Proof.
  intros m dirs n_obj h. assert (G : forall h st H, Forall (fun x => vectors m (snd (fst x)) /\ snd (fst x) <> []) h -> match s_ideal st with None => H = [] | Some z => comp_min m H z end ->
    match s_ideal (rvea_history dirs n_obj h st) with None => H ++ concat (map (fun x => snd (fst x)) h) = [] | Some z => comp_min m (H ++ concat (map (fun x => snd (fst x)) h)) z end).
  { clear h. induction h as [|[[w F] ad] h IH]; intros st H HF HS; cbn [rvea_history map concat]; [rewrite app_nil_r; auto|]. inversion HF as [|? ? [H1 H2] H3]; subst. cbn [fst snd] in *. rewrite app_assoc. apply IH; auto.
    assert (E : s_ideal (if ad then apd_adapt dirs (snd (apd_do n_obj w st F)) else snd (apd_do n_obj w st F)) = Some (new_ideal (s_ideal st) F)) by (destruct ad; [rewrite (proj1 (adapt_points _ _))|]; reflexivity).
    rewrite E. now apply ideal_step. }
  intros HN HF. specialize (G h (apd_init dirs) [] HF eq_refl). cbn [app] in G. destruct (s_ideal (rvea_history dirs n_obj h (apd_init dirs))) as [z|] eqn:E; [eauto|].
  exfalso. destruct h as [|[[w F] ad] h]; [congruence|]. inversion HF as [|? ? [_ H2] _]; subst. cbn in G, H2. apply app_eq_nil in G as [G _]. contradiction.
Qed.
(** the nadir point is the componentwise maximum of the survivors *)
Theorem C82_nadir : forall m U st n_obj w F, state_ok m U st -> vectors m F -> F <> [] ->
  exists N, s_nadir (snd (apd_do n_obj w st F)) = Some N /\ comp_max m (map (fun i => nth i F []) (fst (apd_do n_obj w st F))) N.
Proof.
  intros m U st n_obj w F HS HF HN. destruct (C82_survivors m U st n_obj w F HS HF HN) as (z & _ & _ & HL & HR & _). eexists. split; [reflexivity|]. apply col_max_spec.
  - apply Forall_forall. intros f Hf. apply in_map_iff in Hf as (i & <- & Hi). apply HR in Hi. unfold vectors in HF. rewrite Forall_forall in HF. apply HF, nth_In, Hi.
  - unfold gather. intros E. apply map_eq_nil in E. unfold apd_do in HL, E. cbn [fst] in HL, E. rewrite E in HL. cbn in HL. lia.
Qed.

(** ** adaptation *)
Lemma unit_row_spec m u : length u = m -> (exists j, (j < m)%nat /\ nth j u 0 <> 0) -> exists v c, unit_row u = Some v /\ unit_vector m v /\ 0 < c /\ v = map (fun x => c * x) u.
Proof.
  intros HL (j & Hj & HZ). assert (HP : 0 < dot u u).
  { pose proof (dot_nonneg u) as [H|H]; auto. exfalso. apply HZ. clear HZ. revert m HL j Hj. symmetry in H. induction u as [|x u IH]; intros m HL j Hj; [cbn in *; lia|]. unfold dot, rsum in H. cbn in H. fold (rsum (map2 Rmult u u)) in H. fold (dot u u) in H. pose proof (dot_nonneg u). pose proof (Rle_0_sqr x) as Q. unfold Rsqr in Q.
    destruct j as [|j]; cbn [nth]; [nra|]. cbn in HL. apply (IH ltac:(lra) (m - 1)%nat); lia. }
  pose proof (norm_sq u) as HQ. pose proof (norm_nonneg u) as HN. unfold unit_row. destruct (Req_EM_T (norm u) 0) as [E|E]; [rewrite E in HQ; lra|].
  exists (map (fun x => x / norm u) u), (/ norm u). split; auto. split; [split; [now rewrite map_length|]|].
  - rewrite dot_div, dot_comm, dot_div, <- HQ. field. auto.
  - split; [apply Rinv_0_lt_compat; lra|]. apply map_ext. intros x. unfold Rdiv. ring.
Qed.
Lemma unit_row_zero u : (forall j, nth j u 0 = 0) -> unit_row u = None.
Proof.
  intros H. unfold unit_row. destruct (Req_EM_T (norm u) 0) as [E|E]; auto. exfalso. apply E. pose proof (norm_sq u) as HQ. assert (HZ : dot u u = 0).
  { clear E HQ. induction u as [|x u IH]; [reflexivity|]. unfold dot, rsum. cbn. fold (rsum (map2 Rmult u u)). fold (dot u u). rewrite IH by (intros j; apply (H (S j))). pose proof (H 0%nat) as H0. cbn in H0. rewrite H0. ring. }
  rewrite HZ in HQ. nra.
Qed.
Theorem C82_adapt : forall m dirs st N Z, s_nadir st = Some N -> s_ideal st = Some Z -> length N = m -> length Z = m -> vectors m dirs -> (2 <= length dirs)%nat ->
  (forall u, In u dirs -> exists j, (j < m)%nat /\ nth j u 0 * (nth j N 0 - nth j Z 0) <> 0) ->
  exists U, state_ok m U (apd_adapt dirs st) /\ length U = length dirs /\
    forall k, (k < length dirs)%nat -> exists c, 0 < c /\ forall j, (j < m)%nat -> nth j (nth k U []) 0 = c * (nth j (nth k dirs []) 0 * (nth j N 0 - nth j Z 0)).
Proof.
  intros m dirs st N Z EN EZ LN LZ HD H2 HNZ. unfold apd_adapt. rewrite EN, EZ. set (g := fun u => match unit_row u with None => None | Some v => unit_row (map2 Rmult v (map2 Rminus N Z)) end).
  assert (G : forall u, In u dirs -> exists v c, g u = Some v /\ unit_vector m v /\ 0 < c /\ forall j, (j < m)%nat -> nth j v 0 = c * (nth j u 0 * (nth j N 0 - nth j Z 0))).
  { intros u Hu. assert (Lu : length u = m) by (unfold vectors in HD; rewrite Forall_forall in HD; auto). destruct (HNZ u Hu) as (j & Hj & Hz). destruct (unit_row_spec m u Lu) as (v & c & E1 & [Lv _] & Hc & Ev); [exists j; split; auto; intros C; apply Hz; rewrite C; ring|].
    assert (Ez : forall i, (i < m)%nat -> nth i (map2 Rmult v (map2 Rminus N Z)) 0 = c * (nth i u 0 * (nth i N 0 - nth i Z 0))).
    { intros i Hi. rewrite (nth_map2R Rmult _ _ i m) by (auto; rewrite length_map2; lia). rewrite (nth_map2R Rminus N Z i m) by auto. rewrite Ev, (nth_indep _ 0 ((fun x => c * x) 0)) by (rewrite map_length; lia). rewrite (map_nth (fun x => c * x)). ring. }
    destruct (unit_row_spec m (map2 Rmult v (map2 Rminus N Z))) as (v' & c' & E2 & Hu' & Hc' & Ev').
    - rewrite !length_map2. lia.
    - exists j. split; auto. rewrite Ez by auto. intros C. apply Rmult_integral in C as [C|C]; [lra|auto].
    - exists v', (c' * c). unfold g. rewrite E1, E2. split; auto. split; auto. split; [now apply Rmult_lt_0_compat|]. intros i Hi. rewrite Ev', (nth_indep _ 0 ((fun x => c' * x) 0)) by (rewrite map_length, !length_map2; lia). rewrite (map_nth (fun x => c' * x)), Ez by auto. ring. }
  assert (HU : exists U, map g dirs = map Some U /\ Forall (unit_vector m) U /\ length U = length dirs /\ forall k, (k < length dirs)%nat -> exists c, 0 < c /\ forall j, (j < m)%nat -> nth j (nth k U []) 0 = c * (nth j (nth k dirs []) 0 * (nth j N 0 - nth j Z 0))).
  { clear - G. induction dirs as [|u dirs IH]; [exists []; cbn; repeat split; auto; intros; lia|]. destruct IH as (U & E & HF & HL & HK); [intros; apply G; cbn; auto|]. destruct (G u ltac:(cbn; auto)) as (v & c & E1 & Hv & Hc & Hj). exists (v :: U). cbn [map length]. rewrite E1, E, HL. repeat split; auto. intros [|k] Hk; cbn [nth]; [eauto|apply HK; lia]. }
  destruct HU as (U & E & HF & HL & HK). exists U. split; [|auto]. unfold state_ok. cbn [s_V s_gamma s_ideal]. rewrite E. repeat split; auto; [lia|]. intros z Hz. congruence.
Qed.
(** the initial state is usable *)
Theorem C82_init : forall m dirs, vectors m dirs -> (2 <= length dirs)%nat -> (forall u, In u dirs -> exists j, (j < m)%nat /\ nth j u 0 <> 0) -> exists U, state_ok m U (apd_init dirs) /\ length U = length dirs.
Proof.
  intros m dirs HD H2 HZ. assert (HU : exists U, calc_V dirs = map Some U /\ Forall (unit_vector m) U /\ length U = length dirs).
  { clear H2. induction dirs as [|u dirs IH]; [exists []; cbn; auto|]. inversion HD as [|? ? Lu HD']; subst. destruct IH as (U & E & HF & HL); auto; [intros; apply HZ; cbn; auto|]. destruct (unit_row_spec (length u) u eq_refl (HZ u ltac:(cbn; auto))) as (v & c & E1 & Hv & _). exists (v :: U). cbn [calc_V map length]. unfold calc_V in E. rewrite E1, E. auto. }
  destruct HU as (U & E & HF & HL). exists U. split; auto. unfold state_ok, apd_init. cbn [s_V s_gamma s_ideal]. rewrite E. repeat split; auto; [lia|discriminate].
Qed.

(** ** collapse: a direction of NaN takes the whole population, of which only the first individual survives *)
Lemma firstN_In (l : list (option R)) : In None l -> exists k, firstN l = Some k /\ (k < length l)%nat /\ nth k l (Some 0) = None.
Proof. induction l as [|[x|] l IH]; cbn [In firstN]; [intros []| |intros _; exists 0%nat; cbn; repeat split; lia]. intros [H|H]; [discriminate|]. destruct (IH H) as (k & -> & Hk & E). exists (S k). cbn. repeat split; auto; lia. Qed.
Theorem C82_collapse : forall n_obj w st F, In None (s_V st) -> F <> [] -> fst (apd_do n_obj w st F) = [0%nat].
Proof.
  intros n_obj w st F HI HN. unfold apd_do. cbn [fst]. set (V := s_V st) in *. set (z := new_ideal (s_ideal st) F). set (pen := pen_factor n_obj w).
  assert (HK : exists k, (k < length V)%nat /\ nth k V None = None /\ forall f, niche V z f = k).
  { assert (E : forall f, firstN (map (angle V z f) (seq 0 (length V))) = firstN (map (fun v => match v with None => None | Some _ => Some 0 end) V)).
    { intros f. unfold angle. set (h := fun k => _). assert (G : forall W P, V = P ++ W -> firstN (map h (seq (length P) (length W))) = firstN (map (fun v => match v with None => None | Some _ => Some 0 end) W)).
      { induction W as [|v W IH]; intros P EP; cbn [length seq map firstN]; auto. assert (Eh : nth (length P) V None = v) by (rewrite EP, app_nth2, Nat.sub_diag by lia; reflexivity). unfold h at 1. rewrite Eh. destruct v as [v|]; auto. specialize (IH (P ++ [Some v])). rewrite app_length in IH. cbn [length] in IH. rewrite Nat.add_1_r in IH. rewrite IH by (rewrite EP, <- app_assoc; reflexivity). reflexivity. }
      apply (G V []). reflexivity. }
    destruct (firstN_In (map (fun v : option (list R) => match v with None => None | Some _ => Some 0 end) V)) as (k & E1 & Hk & E2). { apply in_map_iff. exists None. auto. }
    rewrite map_length in Hk. exists k. split; auto. split; [|intros f; unfold niche, argminN; rewrite E, E1; auto].
    set (nf := fun v : option (list R) => match v with None => None | Some _ => Some 0 end) in *. rewrite (nth_indep _ (Some 0) (nf None)) in E2 by (now rewrite map_length). rewrite (map_nth nf) in E2. destruct (nth k V None); [discriminate|auto]. }
  destruct HK as (k & Hk & Ek & Hn). unfold apd_survivors. assert (HO : forall k', k' <> k -> niche_survivor V (s_gamma st) z pen F k' = []).
  { intros k' Hne. unfold niche_survivor. assert (E : assigned V z F k' = []). { unfold assigned. destruct (where_ _ _) as [|i l] eqn:E; auto. assert (HI' : In i (where_ (fun i => Nat.eqb (niche V z (nth i F [])) k') (length F))) by (rewrite E; cbn; auto). apply In_where in HI' as [_ H]. rewrite Hn in H. apply Nat.eqb_eq in H. congruence. } now rewrite E. }
  assert (HS : niche_survivor V (s_gamma st) z pen F k = [0%nat]).
  { unfold niche_survivor. assert (E : assigned V z F k = seq 0 (length F)). { unfold assigned, where_. generalize (seq 0 (length F)) as l. induction l as [|i l IH]; cbn [filter]; auto. rewrite Hn, Nat.eqb_refl, IH. reflexivity. }
    rewrite E. destruct F as [|f F']; [congruence|]. cbn [length seq map]. assert (EA : forall g, apd V (s_gamma st) z pen k g = None) by (intros g; unfold apd, angle; now rewrite Ek). unfold argminN. rewrite EA. reflexivity. }
  assert (G : forall n a, flat_map (niche_survivor V (s_gamma st) z pen F) (seq a n) = if ((a <=? k) && (k <? a + n))%nat then [0%nat] else []).
  { induction n as [|n IH]; intros a; cbn [seq flat_map]; [destruct (Nat.leb_spec a k), (Nat.ltb_spec k (a + 0)); auto; lia|]. rewrite IH. destruct (Nat.eq_dec a k) as [->|Hne].
    - rewrite HS. destruct (Nat.leb_spec (S k) k); [lia|]. destruct (Nat.leb_spec k k); [|lia]. destruct (Nat.ltb_spec k (k + S n)); [reflexivity|lia].
    - rewrite HO by auto. destruct (Nat.leb_spec (S a) k), (Nat.leb_spec a k), (Nat.ltb_spec k (S a + n)), (Nat.ltb_spec k (a + S n)); cbn; auto; lia. }
  rewrite G. destruct (Nat.leb_spec 0 k), (Nat.ltb_spec k (0 + length V)); cbn; auto; lia.
Qed.
