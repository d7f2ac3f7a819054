(** * Theorems C82: RVEA's survival *)
From Coq Require Import List Arith Bool Reals Lra Lia Permutation.
From Verif Require Import ListAux M_NSGA3R M_RVEA S_RVEA Thm_NSGA3R.
Import ListNotations.
Local Open Scope R_scope.

(** ** inner products *)
Lemma dot_self u : dot u u = rsum (map (fun x => x * x) u).
Proof. unfold dot. f_equal. induction u as [|x u IH]; cbn; [auto|now rewrite IH]. Qed.
Lemma dot_comm u : forall v, dot u v = dot v u.
Proof. unfold dot. induction u as [|x u IH]; intros [|y v]; cbn; auto. specialize (IH v). unfold rsum in *. cbn. rewrite IH. ring. Qed.
Lemma dot_div c u : forall v, dot (map (fun x => x / c) u) v = dot u v / c.
Proof. unfold dot. induction u as [|x u IH]; intros [|y v]; cbn; try (unfold rsum; cbn; unfold Rdiv; ring). specialize (IH v). unfold rsum in *. cbn. rewrite IH. unfold Rdiv. ring. Qed.
Lemma dot_nonneg u : 0 <= dot u u.
Proof. rewrite dot_self. apply sq_sum_nonneg. Qed.
Lemma norm_sq u : norm u * norm u = dot u u.
Proof. unfold norm. rewrite <- dot_self. apply sqrt_sqrt, dot_nonneg. Qed.
Lemma norm_nonneg u : 0 <= norm u.
Proof. apply sqrt_pos. Qed.
Lemma zero_dot u : dot u u = 0 -> forall v, dot u v = 0.
Proof.
  unfold dot. induction u as [|x u IH]; intros H [|y v]; cbn in *; auto. unfold rsum in *. cbn in *. fold (rsum (map2 Rmult u u)) in *. pose proof (dot_nonneg u) as P. unfold dot in P. unfold rsum in *.
  assert (Hx : x * x = 0) by (pose proof (Rle_0_sqr x) as Q; unfold Rsqr in Q; lra). assert (x = 0) by nra. rewrite (IH ltac:(lra)). subst x. ring.
Qed.
Lemma cauchy_schwarz u v : length u = length v -> dot u v * dot u v <= dot u u * dot v v.
Proof.
  intros HL. destruct (Req_EM_T (dot u u) 0) as [E|E]; [rewrite E, zero_dot by auto; lra|]. assert (HP : 0 < dot u u) by (pose proof (dot_nonneg u); lra).
  pose proof (sq_expand u v (dot u v / dot u u) HL) as HE. rewrite <- !dot_self in HE. rewrite (dot_comm v u) in HE.
  assert (HN : 0 <= rsum (map2 (fun x y => (x - y) * (x - y)) (on_line (dot u v / dot u u) u) v)).
  { apply rsum_nonneg, Forall_forall. intros z Hz. clear - Hz. revert Hz. generalize (on_line (dot u v / dot u u) u). intros a. revert v. induction a as [|x a IH]; intros [|y v]; cbn; try tauto. intros [<-|H]; [apply Rle_0_sqr|eapply IH; eauto]. }
  rewrite HE in HN. set (s := dot u v) in *. set (N := dot u u) in *. set (M := dot v v) in *.
  assert (E1 : s / N * (s / N) * N - 2 * (s / N) * s + M = M - s * s / N) by (field; lra). rewrite E1 in HN. assert (s * s / N <= M) by lra. apply Rmult_le_reg_r with (/ N); [now apply Rinv_0_lt_compat|]. replace (N * M * / N) with M by (field; lra). exact H.
Qed.
Lemma acos_anti x y : -1 <= x -> y <= 1 -> x < y -> acos y < acos x.
Proof.
  intros H1 H2 H. pose proof (acos_bound x). pose proof (acos_bound y). apply cos_decreasing_0; try lra. rewrite !cos_acos by lra. lra.
Qed.
Lemma acos_le x y : -1 <= x -> y <= 1 -> x <= y -> acos y <= acos x.
Proof. intros H1 H2 [H|H]; [left; now apply acos_anti|right; now subst]. Qed.
Lemma tiny_pos : 0 < tiny.
Proof. unfold tiny. apply Rinv_0_lt_compat, pow_lt. lra. Qed.
Lemma size_pos p : 0 < size p.
Proof. unfold size. pose proof tiny_pos as H. unfold tiny in H. eapply Rlt_le_trans; [exact H|apply Rmax_r]. Qed.
Lemma dist_size ideal f : dist_to_ideal ideal f = size (minus f ideal).
Proof. unfold dist_to_ideal, size, minus, shifted, tiny, Rmax. destruct (Rlt_dec (norm (map2 Rminus f ideal)) (/ 10 ^ 64)), (Rle_dec (norm (map2 Rminus f ideal)) (/ 10 ^ 64)); lra. Qed.
Lemma cos_range m p v : length p = m -> unit_vector m v -> -1 <= dot p v / size p <= 1.
Proof.
  intros Hp [Hv H1]. pose proof (cauchy_schwarz p v ltac:(congruence)) as CS. rewrite H1, Rmult_1_r, <- norm_sq in CS. pose proof (size_pos p) as HS. pose proof (norm_nonneg p) as HN. assert (HM : norm p <= size p) by apply Rmax_l.
  assert (HA : - size p <= dot p v <= size p) by (split; nra).
  split; apply Rmult_le_reg_r with (size p); auto; unfold Rdiv; rewrite Rmult_assoc, Rinv_l by lra; lra.
Qed.
Lemma argminN_some l : argminN (map Some l) = argminR l.
Proof. unfold argminN. assert (E : firstN (map Some l) = None) by (induction l as [|x l IH]; cbn; [auto|now rewrite IH]). rewrite E, map_map. f_equal. cbn. apply map_id. Qed.
Lemma argminR_In l : l <> [] -> (argminR l < length l)%nat /\ forall x, In x l -> nth (argminR l) l 0 <= x.
Proof. intros H. destruct (argminR_spec l H) as [H1 H2]. split; auto. now apply Forall_forall. Qed.

Section Niche.
  Variables (m : nat) (U : list (list R)) (ideal : list R).
  Hypothesis HU : Forall (unit_vector m) U.
  Hypothesis HI : length ideal = m.
  Let V := map Some U.
  Lemma nth_V k : (k < length U)%nat -> nth k V None = Some (nth k U []).
  Proof. intros H. unfold V. rewrite (nth_indep _ None (Some [])) by (now rewrite map_length). apply map_nth. Qed.
  Lemma unit_nth k : (k < length U)%nat -> unit_vector m (nth k U []).
  Proof. intros H. rewrite Forall_forall in HU. apply HU, nth_In, H. Qed.
  Lemma len_minus f : length f = m -> length (minus f ideal) = m.
  Proof. intros H. unfold minus. rewrite length_map2. lia. Qed.
  Lemma angle_eq f k : (k < length U)%nat -> angle V ideal f k = Some (acos (dot (minus f ideal) (nth k U []) / size (minus f ideal))).
  Proof. intros H. unfold angle. rewrite nth_V by auto. rewrite dot_div, dist_size. reflexivity. Qed.
  Lemma angles f : map (angle V ideal f) (seq 0 (length V)) = map Some (map (fun k => acos (dot (minus f ideal) (nth k U []) / size (minus f ideal))) (seq 0 (length U))).
  Proof. unfold V at 2. rewrite map_length, map_map. apply map_ext_in. intros k Hk. apply in_seq in Hk. apply angle_eq. lia. Qed.
  Lemma niche_closest f : U <> [] -> length f = m -> closest U (minus f ideal) (niche V ideal f).
  Proof.
    intros HN Hf. unfold niche. rewrite angles, argminN_some. set (a := fun k => acos (dot (minus f ideal) (nth k U []) / size (minus f ideal))).
    assert (HL : length (map a (seq 0 (length U))) = length U) by (now rewrite map_length, seq_length).
    destruct (argminR_In (map a (seq 0 (length U)))) as [H1 H2]. { intros E. rewrite E in HL. destruct U; [congruence|cbn in HL; lia]. }
    rewrite HL in H1. set (r := argminR _) in *. split; auto. intros k' Hk'. specialize (H2 (a k')). rewrite (nth_indep _ 0 (a 0%nat)) in H2 by lia. rewrite map_nth, seq_nth in H2 by auto. cbn [Nat.add] in H2.
    assert (HA : a r <= a k') by (apply H2, in_map, in_seq; lia). destruct (Rle_lt_dec (dot (minus f ideal) (nth k' U [])) (dot (minus f ideal) (nth r U []))) as [|L]; auto. exfalso.
    pose proof (size_pos (minus f ideal)) as HS. pose proof (cos_range m _ _ (len_minus f Hf) (unit_nth r H1)). pose proof (cos_range m _ _ (len_minus f Hf) (unit_nth k' Hk')).
    assert (a k' < a r); [|lra]. apply acos_anti; try tauto. apply Rmult_lt_compat_r; [now apply Rinv_0_lt_compat|auto].
  Qed.
  Variable gamma : list (option R).
  Variable pen : R.
  Hypothesis HG : forall k, (k < length U)%nat -> exists g, nth k gamma None = Some g.
  Lemma apd_eq k g f : (k < length U)%nat -> nth k gamma None = Some g -> apd V gamma ideal pen k f = Some (apd_of (nth k U []) g pen (minus f ideal)).
  Proof. intros Hk E. unfold apd. rewrite angle_eq, E by auto. unfold apd_of. now rewrite dist_size. Qed.
  Variable F : list (list R).
  Hypothesis HF : vectors m F.
  Hypothesis HN : U <> [].
  Lemma row_len i : (i < length F)%nat -> length (nth i F []) = m.
  Proof. intros H. unfold vectors in HF. rewrite Forall_forall in HF. apply HF, nth_In, H. Qed.
  Lemma In_assigned k i : In i (assigned V ideal F k) <-> (i < length F)%nat /\ niche V ideal (nth i F []) = k.
  Proof. unfold assigned. rewrite In_where, Nat.eqb_eq. tauto. Qed.
  Lemma survivor_spec k : (k < length U)%nat -> assigned V ideal F k <> [] -> exists s g, nth k gamma None = Some g /\ niche_survivor V gamma ideal pen F k = [s] /\ (s < length F)%nat /\ niche V ideal (nth s F []) = k /\
    forall j, (j < length F)%nat -> niche V ideal (nth j F []) = k -> apd_of (nth k U []) g pen (minus (nth s F []) ideal) <= apd_of (nth k U []) g pen (minus (nth j F []) ideal).
  Proof.
    intros Hk HA. destruct (HG k Hk) as [g Hg]. unfold niche_survivor. destruct (assigned V ideal F k) as [|i0 l0] eqn:EA; [congruence|]. rewrite <- EA. set (l := assigned V ideal F k) in *.
    set (b := fun i => apd_of (nth k U []) g pen (minus (nth i F []) ideal)).
    assert (E : map (fun i => apd V gamma ideal pen k (nth i F [])) l = map Some (map b l)) by (rewrite map_map; apply map_ext; intros i; now apply apd_eq).
    rewrite E, argminN_some. destruct (argminR_In (map b l)) as [H1 H2]; [rewrite EA; discriminate|]. rewrite map_length in H1. set (r := argminR _) in *.
    assert (HI' : In (nth r l 0%nat) l) by (apply nth_In; auto). exists (nth r l 0%nat), g. split; auto. split; auto. apply In_assigned in HI' as [Q1 Q2]. split; auto. split; auto.
    intros j Hj Hn. specialize (H2 (b j)). rewrite (nth_indep _ 0 (b 0%nat)), map_nth in H2 by (now rewrite map_length). apply H2, in_map. apply In_assigned. auto.
  Qed.
  Lemma niche_lt i : (i < length F)%nat -> (niche V ideal (nth i F []) < length U)%nat.
  Proof. intros H. apply niche_closest; auto. now apply row_len. Qed.
  Lemma In_surv s : In s (apd_survivors V gamma ideal pen F) <-> exists k, (k < length U)%nat /\ In s (niche_survivor V gamma ideal pen F k).
  Proof. unfold apd_survivors. rewrite in_flat_map. unfold V at 1. rewrite map_length. split; intros (k & H1 & H2); exists k; (split; auto). - apply in_seq in H1. lia. - apply in_seq. lia. Qed.
  Lemma surv_niche k s : (k < length U)%nat -> In s (niche_survivor V gamma ideal pen F k) -> (s < length F)%nat /\ niche V ideal (nth s F []) = k.
  Proof.
    intros Hk H. assert (HA : assigned V ideal F k <> []) by (intros E; unfold niche_survivor in H; rewrite E in H; destruct H). destruct (survivor_spec k Hk HA) as (s' & g & _ & E & H1 & H2 & _). rewrite E in H. destruct H as [<-|[]]. auto.
  Qed.
  Lemma surv_nodup : NoDup (apd_survivors V gamma ideal pen F) /\ (length (apd_survivors V gamma ideal pen F) <= length U)%nat.
  Proof.
    unfold apd_survivors. unfold V at 2 4. rewrite map_length. pose proof (fun k s (Hk : (k < length U)%nat) => surv_niche k s Hk) as SN.
    assert (L1 : forall k, (length (niche_survivor V gamma ideal pen F k) <= 1)%nat) by (intros k; unfold niche_survivor; destruct (assigned V ideal F k); cbn; lia).
    assert (G : forall n a, (a + n <= length U)%nat -> NoDup (flat_map (niche_survivor V gamma ideal pen F) (seq a n)) /\ (length (flat_map (niche_survivor V gamma ideal pen F) (seq a n)) <= n)%nat).
    { induction n as [|n IH]; intros a Ha; cbn [seq flat_map]; [split; [constructor|cbn; lia]|]. destruct (IH (S a) ltac:(lia)) as [N1 N2]. split.
      - apply NoDup_app_iff. split; [|split; auto].
        + specialize (L1 a). destruct (niche_survivor V gamma ideal pen F a) as [|x [|y l]]; cbn in L1; try lia; repeat constructor; auto.
        + intros x Hx Hx'. apply SN in Hx as [_ E]; [|lia]. apply in_flat_map in Hx' as (k & Hk & Hx'). apply in_seq in Hk. apply SN in Hx' as [_ E']; [|lia]. lia.
      - rewrite app_length. specialize (L1 a). lia. }
    apply G. lia.
  Qed.
End Niche.

(** ** the angle to the neighbouring direction *)
Fixpoint insR (x : R) (l : list R) : list R := match l with [] => [x] | y :: r => if Rlt_dec x y then y :: insR x r else x :: l end.
Definition sortR (l : list R) : list R := fold_right insR [] l.
Lemma sortN_some l : sortN (map Some l) = map Some (sortR l).
Proof.
  induction l as [|x l IH]; cbn [map sortN sortR fold_right]; auto. fold (sortN (map Some l)) (sortR l). rewrite IH. generalize (sortR l) as r. induction r as [|y r IHr]; cbn [map insertN insR]; auto.
  destruct (Rlt_dec x y); cbn [map]; [now rewrite IHr|auto].
Qed.
Lemma insR_perm x l : Permutation (insR x l) (x :: l).
Proof. induction l as [|y l IH]; cbn [insR]; auto. destruct (Rlt_dec x y); auto. rewrite IH. apply perm_swap. Qed.
Lemma sortR_perm l : Permutation (sortR l) l.
Proof. induction l as [|x l IH]; cbn [sortR fold_right]; auto. fold (sortR l). rewrite insR_perm. now constructor. Qed.
Inductive desc : list R -> Prop := desc_nil : desc [] | desc_cons x l : (forall y, In y l -> y <= x) -> desc l -> desc (x :: l).
Lemma insR_desc x l : desc l -> desc (insR x l).
Proof.
  induction 1 as [|y l Hy HS IH]; cbn [insR]; [constructor; [intros y []|constructor]|]. destruct (Rlt_dec x y) as [L|L].
  - constructor; auto. intros z Hz. apply (Permutation_in _ (insR_perm x l)) in Hz as [<-|Hz]; [lra|auto].
  - constructor; [|now constructor]. intros z [<-|Hz]; [lra|specialize (Hy z Hz); lra].
Qed.
Lemma sortR_desc l : desc (sortR l).
Proof. induction l as [|x l IH]; cbn [sortR fold_right]; [constructor|now apply insR_desc]. Qed.
Lemma second l a rest : Permutation l (a :: rest) -> (forall x, In x rest -> x <= a) -> rest <> [] -> exists b, nth 1 (sortR l) 0 = b /\ In b rest /\ (forall x, In x rest -> x <= b) /\ (1 < length (sortR l))%nat.
Proof.
  intros HP HA HN. pose proof (Permutation_trans (sortR_perm l) HP) as P. pose proof (sortR_desc l) as D. destruct (sortR l) as [|x [|y r]] eqn:E.
  - apply Permutation_length in P. cbn in P. lia. - apply Permutation_length in P. destruct rest; [congruence|cbn in P; lia].
  - inversion D as [|? ? H1 D2]; subst. inversion D2 as [|? ? H2 _]; subst. assert (x = a).
    { assert (In a (x :: y :: r)) by (eapply Permutation_in; [symmetry; exact P|cbn; auto]). assert (Hx : In x (a :: rest)) by (eapply Permutation_in; [exact P|cbn; auto]). destruct Hx as [->|Hx]; auto. destruct H as [->|H]; auto. specialize (HA x Hx). specialize (H1 a H). lra. }
    subst x. apply Permutation_cons_inv in P. exists y. cbn [nth length]. split; auto. split; [eapply Permutation_in; [exact P|cbn; auto]|]. split; [|lia].
    intros z Hz. apply (Permutation_in _ (Permutation_sym P)) in Hz as [<-|Hz]; [lra|auto].
Qed.
Theorem C82_gamma : forall m U k, Forall (unit_vector m) U -> (2 <= length U)%nat -> (k < length U)%nat ->
  exists j, (j < length U)%nat /\ j <> k /\ nth k (calc_gamma (map Some U)) None = Some (Rmax (acos (dot (nth k U []) (nth j U []))) (/ 10 ^ 64)) /\
    forall i, (i < length U)%nat -> i <> k -> acos (dot (nth k U []) (nth j U [])) <= acos (dot (nth k U []) (nth i U [])).
Proof.
  intros m U k HU H2 Hk. set (u := nth k U []). assert (Hun : forall j, (j < length U)%nat -> unit_vector m (nth j U [])) by (intros j Hj; rewrite Forall_forall in HU; apply HU, nth_In, Hj).
  assert (R1 : forall i, (i < length U)%nat -> -1 <= dot u (nth i U []) <= 1). { intros i Hi. destruct (Hun k Hk) as [L1 E1]. destruct (Hun i Hi) as [L2 E2]. pose proof (cauchy_schwarz u (nth i U [])) as CS. fold u in L1, E1. rewrite E1, E2 in CS. specialize (CS ltac:(congruence)). split; nra. }
  unfold calc_gamma. rewrite map_map.
  assert (EN : nth k (map (fun x => option_map (fun c => Rmax (acos c) tiny) (nth 1 (sortN (map (dotN (Some x)) (map Some U))) None)) U) None = option_map (fun c => Rmax (acos c) tiny) (nth 1 (sortN (map (dotN (Some u)) (map Some U))) None)).
  { set (f := fun x => option_map _ _). rewrite (nth_indep _ None (f [])) by (now rewrite map_length). now rewrite map_nth. }
  rewrite EN. clear EN. rewrite map_map. assert (E : map (fun x => dotN (Some u) (Some x)) U = map Some (map (dot u) U)) by (rewrite map_map; apply map_ext; auto). rewrite E, sortN_some. clear E.
  destruct (nth_split U [] Hk) as (A & B & EU & LA). fold u in EU.
  assert (Hidx : forall x, In x (A ++ B) <-> exists j, (j < length U)%nat /\ j <> k /\ nth j U [] = x).
  { intros x. rewrite EU. split.
    - intros H. apply in_app_or in H as [H|H]; apply (In_nth _ _ []) in H as (j & Hj & <-).
      + exists j. rewrite app_length. cbn [length]. split; [lia|]. split; [lia|]. now rewrite app_nth1.
      + exists (length A + S j)%nat. rewrite app_length. cbn [length]. split; [lia|]. split; [lia|]. rewrite app_nth2 by lia. replace (length A + S j - length A)%nat with (S j) by lia. reflexivity.
    - intros (j & Hj & Hn & <-). rewrite app_length in Hj. cbn [length] in Hj. apply in_or_app. destruct (Nat.lt_ge_cases j (length A)) as [L|L]; [left; rewrite app_nth1 by auto; now apply nth_In|right].
      rewrite app_nth2 by auto. destruct (j - length A)%nat as [|q] eqn:Eq; [lia|]. cbn [nth]. apply nth_In. lia. }
  destruct (second (map (dot u) U) (dot u u) (map (dot u) (A ++ B))) as (b & Hb & Hin & Hmax & Hlen).
  - rewrite EU at 1. rewrite !map_app. cbn [map]. symmetry. apply Permutation_middle.
  - intros x Hx. apply in_map_iff in Hx as (y & <- & Hy). apply Hidx in Hy as (j & Hj & _ & <-). destruct (Hun k Hk) as [_ E1]. fold u in E1. rewrite E1. apply R1, Hj.
  - intros E. apply map_eq_nil in E. apply (f_equal (@length _)) in EU. rewrite app_length in EU. cbn [length] in EU. apply (f_equal (@length _)) in E. rewrite app_length in E. cbn [length] in E. lia.
  - apply in_map_iff in Hin as (y & Ey & Hy). apply Hidx in Hy as (j & Hj & Hjk & Ej). exists j. split; auto. split; auto. rewrite Ej, Ey. split.
    + rewrite (nth_indep _ None (Some 0)) by (now rewrite map_length). rewrite map_nth, Hb. reflexivity.
    + intros i Hi Hik. apply acos_le; [apply R1, Hi| |].
      * rewrite <- Ey, <- Ej. apply R1, Hj.
      * apply Hmax. apply in_map. apply Hidx. eauto.
Qed.
Print Assumptions C82_gamma.

(** ** the survivors *)
Lemma new_ideal_len m st F : vectors m F -> F <> [] -> (forall z, st = Some z -> length z = m) -> length (new_ideal st F) = m.
Proof.
  intros HF HN HS. assert (L : length (col_minR F) = m). { destruct F as [|f F]; [congruence|]. inversion HF as [|? ? H1 H2]; subst. cbn [col_minR]. clear - H2. revert f H2. induction F as [|g F IH]; intros f H2; cbn [fold_left]; auto. inversion H2 as [|? ? H3 H4]; subst. rewrite IH; rewrite length_map2; [lia|]. rewrite H3, Nat.min_id. auto. }
  destruct st as [z|]; cbn [new_ideal]; auto. rewrite length_map2, L, (HS z) by auto. lia.
Qed.
(** a usable state: unit vectors (at least two), their angles, an ideal point of the right length *)
Definition state_ok (m : nat) (U : list (list R)) (st : apd_state) : Prop :=
  s_V st = map Some U /\ s_gamma st = calc_gamma (map Some U) /\ Forall (unit_vector m) U /\ (2 <= length U)%nat /\ forall z, s_ideal st = Some z -> length z = m.
Theorem C82_survivors : forall m U st n_obj w F, state_ok m U st -> vectors m F -> F <> [] ->
  let S := fst (apd_do n_obj w st F) in let pen := (if (2 <? n_obj)%nat then INR n_obj else 1) * w in
  exists z, s_ideal (snd (apd_do n_obj w st F)) = Some z /\ NoDup S /\ (1 <= length S <= length U)%nat /\ (forall i, In i S -> (i < length F)%nat) /\
  exists ni, (forall i, (i < length F)%nat -> closest U (minus (nth i F []) z) (ni i)) /\
    (forall i j, In i S -> In j S -> ni i = ni j -> i = j) /\
    (forall j, (j < length F)%nat -> exists i g, In i S /\ ni i = ni j /\ nth (ni j) (s_gamma st) None = Some g /\
       apd_of (nth (ni j) U []) g pen (minus (nth i F []) z) <= apd_of (nth (ni j) U []) g pen (minus (nth j F []) z)).
Proof.
  intros m U st n_obj w F (EV & EG & HU & H2 & HI) HF HN. cbv zeta. unfold apd_do. cbn [fst snd s_ideal]. rewrite EV, EG. set (z := new_ideal (s_ideal st) F). fold (pen_factor n_obj w). set (pen := pen_factor n_obj w).
  assert (HZ : length z = m) by (apply new_ideal_len; auto). assert (HUN : U <> []) by (intros ->; cbn in H2; lia).
  assert (HG : forall k, (k < length U)%nat -> exists g, nth k (calc_gamma (map Some U)) None = Some g) by (intros k Hk; destruct (C82_gamma m U k HU H2 Hk) as (j & _ & _ & E & _); eauto).
  exists z. split; auto. destruct (surv_nodup m U z HZ (calc_gamma (map Some U)) pen HG F) as [N1 N2].
  assert (SN := surv_niche U z (calc_gamma (map Some U)) pen HG F).
  set (S := apd_survivors (map Some U) (calc_gamma (map Some U)) z pen F) in *. set (ni := fun i => niche (map Some U) z (nth i F [])).
  assert (HS : forall s, In s S <-> exists k, (k < length U)%nat /\ In s (niche_survivor (map Some U) (calc_gamma (map Some U)) z pen F k)) by (intros s; apply (In_surv m); auto).
  assert (HC : forall i, (i < length F)%nat -> closest U (minus (nth i F []) z) (ni i)) by (intros i Hi; apply (niche_closest m); auto; apply (row_len m F HF); auto).
  assert (HSel : forall j, (j < length F)%nat -> exists i g, In i S /\ ni i = ni j /\ nth (ni j) (calc_gamma (map Some U)) None = Some g /\ apd_of (nth (ni j) U []) g pen (minus (nth i F []) z) <= apd_of (nth (ni j) U []) g pen (minus (nth j F []) z)).
  { intros j Hj. destruct (HC j Hj) as [Hk _]. destruct (survivor_spec U z (calc_gamma (map Some U)) pen HG F (ni j) Hk) as (s & g & Hg & E & H3 & H4 & H5).
    - intros E. assert (HJ : In j (assigned (map Some U) z F (ni j))) by (apply In_assigned; auto). rewrite E in HJ. destruct HJ.
    - exists s, g. split; [apply HS; exists (ni j); split; auto; rewrite E; cbn; auto|]. split; auto. }
  split; auto. split; [split; auto|].
  { destruct F as [|f F']; [congruence|]. destruct (HSel 0%nat ltac:(cbn; lia)) as (i & _ & Hi & _). destruct S; [destruct Hi|cbn; lia]. }
  split; [intros i Hi; apply HS in Hi as (k & Hk & Hi); now apply (SN k i)|].
  exists ni. split; auto. split; auto. intros i j Hi Hj E. apply HS in Hi as (k & Hk & Hi), Hj as (k' & Hk' & Hj). pose proof (proj2 (SN k i Hk Hi)) as Ei. pose proof (proj2 (SN k' j Hk' Hj)) as Ej. fold (ni i) in Ei. fold (ni j) in Ej.
  assert (HK : k' = k) by congruence. rewrite HK in Hj. assert (L1 : (length (niche_survivor (map Some U) (calc_gamma (map Some U)) z pen F k) <= 1)%nat) by (unfold niche_survivor; destruct (assigned (map Some U) z F k); cbn; lia).
  revert Hi Hj L1. destruct (niche_survivor _ _ _ _ _ k) as [|x [|y l]]; cbn [In length]; intros Hi Hj L1; [destruct Hi| |lia]. destruct Hi as [<-|[]], Hj as [<-|[]]; auto.
Qed.
Print Assumptions C82_survivors.
