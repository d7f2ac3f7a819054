(** * Theorems C90: high trade-off points, compromise programming *)
From Coq Require Import String List Arith Bool Reals Lra Lia.
From Verif Require Import ListAux M_NSGA3R M_Indicator M_MCDM S_Bench P_Perm Thm_Bench Thm_DTLZ Thm_Indicator Thm_NSGA3R Thm_MCDM.
Import ListNotations.
Local Open Scope R_scope.

(** ** specification: the finite values of a list, with their positions; average and standard deviation *)
Definition value_at (mu : list xr) (i : nat) (v : R) : Prop := nth_error mu i = Some (XFin v).
Fixpoint finite_values (mu : list xr) : list R := match mu with [] => [] | XFin v :: mu => v :: finite_values mu | _ :: mu => finite_values mu end.
Definition average (l : list R) : R := rsum l / INR (length l).
Definition deviation (l : list R) : R := sqrt (average (map (fun v => (v - average l)^2) l)).

Lemma finite_pos_from mu : forall k, flat_map (fun kv => match snd kv with XFin r => [(fst kv, r)] | _ => [] end) (combine (seq k (length mu)) mu) = map (fun p => (k + fst p, snd p)%nat) (finite_pos mu).
Proof.
  unfold finite_pos. induction mu as [|x mu IH]; intros k; [reflexivity|]. cbn [length seq combine flat_map]. rewrite (IH (S k)), (IH 1%nat). rewrite map_app, map_map. f_equal; [destruct x; cbn; auto; now rewrite Nat.add_0_r|]. apply map_ext. intros [a b]. cbn. f_equal. lia.
Qed.
Lemma finite_pos_cons x mu : finite_pos (x :: mu) = (match x with XFin r => [(0%nat, r)] | _ => [] end) ++ map (fun p => (S (fst p), snd p)) (finite_pos mu).
Proof. unfold finite_pos at 1. cbn [length seq combine flat_map]. rewrite finite_pos_from. f_equal. Qed.
Lemma finite_pos_values mu : map snd (finite_pos mu) = finite_values mu.
Proof. induction mu as [|x mu IH]; [reflexivity|]. rewrite finite_pos_cons, map_app, map_map. cbn [snd]. change (map (fun p : nat * R => snd p) (finite_pos mu)) with (map snd (finite_pos mu)). rewrite IH. destruct x; reflexivity. Qed.
Lemma finite_pos_In mu : forall i v, In (i, v) (finite_pos mu) <-> value_at mu i v.
Proof.
  unfold value_at. induction mu as [|x mu IH]; intros i v; [cbn; destruct i; split; [intros []|discriminate|intros []|discriminate]|]. rewrite finite_pos_cons, in_app_iff, in_map_iff. split.
  - intros [H|([a b] & E & H)]; [destruct x; cbn in H; try tauto; destruct H as [H|[]]; injection H as <- <-; reflexivity|]. cbn in E. injection E as <- <-. cbn. now apply IH.
  - destruct i as [|i]; cbn [nth_error]; intros H; [left; injection H as ->; now left|]. right. exists (i, v). split; auto. now apply IH.
Qed.
Lemma finite_pos_NoDup mu : NoDup (map fst (finite_pos mu)).
Proof.
  induction mu as [|x mu IH]; [constructor|]. rewrite finite_pos_cons, map_app, map_map. cbn [fst]. assert (HN : NoDup (map (fun p : nat * R => S (fst p)) (finite_pos mu))). { rewrite <- (map_map fst S). apply FinFun.Injective_map_NoDup; auto. intros a b. lia. }
  destruct x; cbn; auto. constructor; auto. intros H. apply in_map_iff in H as (p & E & _). discriminate.
Qed.

(** ** Chebyshev *)
Lemma rsum_perm_filter {A} (f : A -> R) (p : A -> bool) l : rsum (map f l) = rsum (map f (filter p l)) + rsum (map f (filter (fun a => negb (p a)) l)).
Proof. induction l as [|a l IH]; unfold rsum in *; cbn; [ring|]. rewrite IH. destruct (p a); cbn; ring. Qed.
Lemma rsum_lower {A} (f : A -> R) c l : (forall a, In a l -> c <= f a) -> INR (length l) * c <= rsum (map f l).
Proof.
  induction l as [|a l IH]; intros H; [cbn; lra|]. change (length (a :: l)) with (S (length l)). rewrite S_INR. cbn [map]. unfold rsum in *. cbn [fold_right]. pose proof (H a (or_introl eq_refl)). assert (INR (length l) * c <= fold_right Rplus 0 (map f l)) by (apply IH; intros; apply H; now right). lra.
Qed.
Lemma variance_pos l : 0 <= variance l.
Proof. unfold variance, mean. destruct l as [|a l]; [cbn; unfold Rdiv; rewrite Rmult_0_l; lra|]. apply Rmult_le_pos; [apply rsum_ge0; intros v Hv; apply in_map_iff in Hv as (w & <- & _); apply sq_ge0|]. left. apply Rinv_0_lt_compat. rewrite map_length. apply lt_0_INR. cbn. lia. Qed.
Lemma std_dev l : std l = deviation l.
Proof. reflexivity. Qed.
Lemma std_nonneg l : 0 <= std l.
Proof. apply sqrt_pos. Qed.
Lemma ge_iff l k v : dev_ge l k v = true <-> 0 < std l /\ mean l + k * std l <= v.
Proof.
  unfold dev_ge. pose proof (std_nonneg l). destruct (Req_EM_T (std l) 0) as [E|E]; [split; [discriminate|lra]|]. assert (HP : 0 < std l) by lra. assert (EV : v - mean l = (v - mean l) / std l * std l) by (field; lra). destruct (Rle_dec k ((v - mean l) / std l)) as [H1|H1]; (split; [intros E1; try discriminate|intros [_ H2]; auto]).
  - split; auto. assert (k * std l <= (v - mean l) / std l * std l) by (apply Rmult_le_compat_r; lra). lra.
  - exfalso. apply H1. apply Rmult_le_reg_r with (std l); auto. lra.
Qed.
Lemma gt_iff l k v : dev_gt l k v = true <-> 0 < std l /\ mean l + k * std l < v.
Proof.
  unfold dev_gt. pose proof (std_nonneg l). destruct (Req_EM_T (std l) 0) as [E|E]; [split; [discriminate|lra]|]. assert (HP : 0 < std l) by lra. assert (EV : v - mean l = (v - mean l) / std l * std l) by (field; lra). destruct (Rlt_dec k ((v - mean l) / std l)) as [H1|H1]; (split; [intros E1; try discriminate|intros [_ H2]; auto]).
  - split; auto. assert (k * std l < (v - mean l) / std l * std l) by (apply Rmult_lt_compat_r; lra). lra.
  - exfalso. apply H1. apply Rmult_lt_reg_r with (std l); auto. lra.
Qed.
Lemma chebyshev l : (4 * length (filter (dev_ge l 2) l) <= length l)%nat.
Proof.
  destruct (filter (dev_ge l 2) l) as [|a0 r0] eqn:E0; [cbn; lia|]. assert (HP : 0 < std l). { assert (Ha : In a0 (filter (dev_ge l 2) l)) by (rewrite E0; now left). apply filter_In in Ha as [_ Ha]. now apply ge_iff in Ha. } rewrite <- E0. set (S2 := filter (dev_ge l 2) l).
  assert (HL : 0 < INR (length l)). { destruct l; [discriminate|]. apply lt_0_INR. cbn. lia. }
  assert (HV : std l * std l * INR (length l) = rsum (map (fun v => (v - mean l)^2) l)). { unfold std. rewrite sqrt_sqrt by apply variance_pos. unfold variance. unfold mean at 1. rewrite map_length. field. lra. }
  rewrite (rsum_perm_filter _ (dev_ge l 2)) in HV. fold S2 in HV. assert (H1 : INR (length S2) * (4 * (std l * std l)) <= rsum (map (fun v => (v - mean l)^2) S2)). { apply rsum_lower. intros v Hv. apply filter_In in Hv as [_ Hv]. apply ge_iff in Hv as [_ Hv]. assert (2 * std l <= v - mean l) by lra. nra. }
  assert (H2 : 0 <= rsum (map (fun v => (v - mean l)^2) (filter (fun v => negb (dev_ge l 2 v)) l))) by (apply rsum_ge0; intros v Hv; apply in_map_iff in Hv as (w & <- & _); apply sq_ge0).
  assert (H3 : INR (length S2) * 4 <= INR (length l)). { apply Rmult_le_reg_r with (std l * std l); [nra|]. lra. } apply INR_le. rewrite mult_INR. cbn [INR]. lra.
Qed.
Lemma argmax_spec (l : list (nat * R)) : l <> [] -> In (argmax_pos l) l /\ forall p, In p l -> snd p <= snd (argmax_pos l).
Proof.
  intros HN. unfold argmax_pos. destruct l as [|a l]; [congruence|]. cbn [hd]. assert (G : forall l b, In b (a :: l) \/ True -> let r := fold_left (fun b kv => if Rlt_dec (snd b) (snd kv) then kv else b) l b in (r = b \/ In r l) /\ snd b <= snd r /\ forall p, In p l -> snd p <= snd r).
  { clear. induction l as [|c l IH]; intros b _; cbn [fold_left]; [split; [now left|split; [lra|intros p []]]|]. destruct (Rlt_dec (snd b) (snd c)) as [H|H].
    - destruct (IH c (or_intror Logic.I)) as (A & B & C). split; [right; destruct A as [->|A]; [now left|now right]|]. split; [lra|]. intros p [<-|Hp]; auto.
    - destruct (IH b (or_intror Logic.I)) as (A & B & C). split; [destruct A as [A|A]; [left; auto|right; now right]|]. split; [lra|]. intros p [<-|Hp]; auto. lra. }
  destruct (G (a :: l) a (or_intror Logic.I)) as (A & B & C). split; [destruct A as [->|A]; [now left|auto]|]. intros p Hp. now apply C.
Qed.
Lemma map_filter_snd (p : R -> bool) (J : list (nat * R)) : map snd (filter (fun kv => p (snd kv)) J) = filter p (map snd J).
Proof. induction J as [|[i v] J IH]; [reflexivity|]. cbn [map filter snd]. destruct (p v); cbn [map snd]; now rewrite IH. Qed.

(** C90: the outliers of a list of trade-offs: it raises exactly when no value is finite; None means that every finite value is within one standard deviation above the average; otherwise the
    positions returned hold finite values above average plus deviation, among them a largest one, every value of at least average + 2 deviations (if they differ) is returned, and there is one position or at
    most a quarter of all finite values *)
Theorem C90_outliers : forall mu, let l := finite_values mu in
  match find_outliers mu with
  | None => forall i v, ~ value_at mu i v
  | Some None => l <> [] /\ forall i v, value_at mu i v -> v <= average l + deviation l
  | Some (Some T) => NoDup T /\ (length T = 1%nat \/ (4 * length T <= length l)%nat) /\
      (forall i, In i T -> exists v, value_at mu i v /\ average l + deviation l < v) /\
      (exists i v, In i T /\ value_at mu i v /\ forall k w, value_at mu k w -> w <= v) /\
      (0 < deviation l -> forall i v, value_at mu i v -> average l + 2 * deviation l <= v -> In i T)
  end.
Proof.
  intros mu l. unfold find_outliers. rewrite finite_pos_values. fold l. set (J := finite_pos mu). set (K := filter (fun kv => dev_ge l 2 (snd kv)) J).
  assert (HJ : forall i v, In (i, v) J <-> value_at mu i v) by apply finite_pos_In. assert (EL : length l = length J) by (unfold l, J; rewrite <- finite_pos_values; apply map_length).
  assert (HK : forall p, In p K <-> In p J /\ 0 < deviation l /\ average l + 2 * deviation l <= snd p). { intros p. unfold K. rewrite filter_In, ge_iff. reflexivity. }
  assert (LK : (4 * length K <= length l)%nat). { pose proof (chebyshev l) as H. assert (E : filter (dev_ge l 2) l = map snd K) by (unfold K; rewrite map_filter_snd; unfold J; now rewrite finite_pos_values). now rewrite E, map_length in H. }
  assert (NT : NoDup (map fst K)). { pose proof (finite_pos_NoDup mu) as H. fold J in H. unfold K. clear - H. induction J as [|p J IH]; [constructor|]. cbn [map filter] in *. inversion H as [|? ? H1 H2]; subst. destruct (dev_ge l 2 (snd p)); cbn [map]; auto. constructor; auto. intros HI. apply H1. apply in_map_iff in HI as (q & E & Hq). apply filter_In in Hq. apply in_map_iff. exists q. tauto. }
  destruct (map fst K) as [|t T] eqn:ET.
  - assert (EK : K = []) by (destruct K; [auto|discriminate]). destruct J as [|p0 J0] eqn:EJ; [intros i v H; apply HJ in H; destruct H|]. rewrite <- EJ in *. assert (HNJ : J <> []) by (rewrite EJ; discriminate). assert (HNl : l <> []) by (intros E; rewrite E in EL; destruct J; [congruence|discriminate]).
    destruct (rmax_spec l HNl) as [M1 M2]. assert (HV : forall i v, value_at mu i v -> In v l). { intros i v H. apply HJ in H. unfold l. rewrite <- finite_pos_values. apply in_map_iff. exists (i, v). auto. }
    destruct (dev_gt l 1 (rmax_list l)) eqn:EG.
    + apply gt_iff in EG as [HP HG]. rewrite Rmult_1_l in HG. destruct (argmax_spec J HNJ) as [A1 A2]. destruct (argmax_pos J) as [i v] eqn:EA. cbn [fst snd] in *.
      assert (EV : v = rmax_list l). { assert (In v l) by (apply (HV i); now apply HJ). pose proof (M2 v H). assert (HM : In (rmax_list l) (map snd J)) by (unfold J; rewrite finite_pos_values; exact M1). apply in_map_iff in HM as ([k w] & E & Hk). pose proof (A2 _ Hk) as Hw. cbn [snd] in E, Hw. rewrite E in Hw. apply Rle_antisym; assumption. }
      split; [repeat constructor; auto|]. split; [now left|]. split; [|split].
      * intros k [<-|[]]. exists v. split; [now apply HJ|]. rewrite EV. exact HG.
      * exists i, v. split; [now left|]. split; [now apply HJ|]. intros k w H. apply HJ in H. now apply A2 in H.
      * intros HD k w H1 H2. assert (In (k, w) K) by (apply HK; split; [now apply HJ|auto]). rewrite EK in *. destruct H.
    + split; auto. intros i v H. apply HV in H. apply M2 in H. destruct (Rle_lt_dec v (average l + deviation l)) as [|HL]; auto. exfalso. apply not_true_iff_false in EG. apply EG. apply gt_iff. rewrite Rmult_1_l. change (mean l) with (average l). change (std l) with (deviation l). split; [|lra].
      pose proof (std_nonneg l) as HS. destruct (Rle_lt_or_eq_dec _ _ HS) as [|HZ]; auto. exfalso. symmetry in HZ.
      assert (HVar : variance l = 0) by (unfold std in HZ; apply sqrt_eq_0; auto; apply variance_pos). unfold variance in HVar. unfold mean at 1 in HVar. assert (HLn : 0 < INR (length l)) by (destruct l; [congruence|apply lt_0_INR; cbn; lia]).
      assert (HR : rsum (map (fun v => (v - mean l)^2) l) = 0). { rewrite map_length in HVar. apply Rmult_integral in HVar as [|HH]; auto. exfalso. apply Rinv_neq_0_compat in HH; [auto|lra]. }
      assert (HA : forall w, In w l -> w = mean l). { intros w Hw. assert (Z : (w - mean l)^2 = 0). { apply (rsum_0 (map (fun v => (v - mean l)^2) l)); auto; [intros u Hu; apply in_map_iff in Hu as (z & <- & _); apply sq_ge0|]. apply in_map_iff. eauto. } assert (w - mean l = 0) by nra. lra. }
      specialize (HA _ M1). change (average l) with (mean l) in HL. change (deviation l) with (std l) in HL. lra.
  - assert (HNK : K <> []) by (intros E; rewrite E in ET; discriminate). rewrite <- ET in *. split; auto. split; [right; now rewrite map_length|]. split; [|split].
    + intros i Hi. apply in_map_iff in Hi as ([k v] & E & Hk). cbn in E. subst k. apply HK in Hk as (H1 & H2 & H3). exists v. split; [now apply HJ|]. cbn in H3. lra.
    + destruct (argmax_spec K HNK) as [A1 A2]. destruct (argmax_pos K) as [i v] eqn:EA. exists i, v. split; [apply in_map_iff; exists (i, v); auto|]. apply HK in A1 as (H1 & H2 & H3). split; [now apply HJ|]. cbn in *. intros k w H. destruct (Rle_lt_dec w v) as [|HL]; auto. exfalso. assert (HI : In (k, w) K) by (apply HK; split; [now apply HJ|]; cbn; lra). apply A2 in HI. cbn in HI. lra.
    + intros HD i v H1 H2. apply in_map_iff. exists (i, v). split; auto. apply HK. split; [now apply HJ|auto].
Qed.

(** ** the trade-offs of mutually non-dominated, distinct solutions *)
Definition loss (m : nat) (f g : list R) : R := rsum (map (fun j => Rmax 0 (nth j g 0 - nth j f 0)) (seq 0 m)).
(** what the tree queries return *)
Definition ball_ok (F : list (list R)) (ball : nat -> R -> list nat) : Prop := forall i r, (i < length F)%nat -> NoDup (ball i r) /\ forall k, In k (ball i r) <-> (k < length F)%nat /\ euclid (nth i F []) (nth k F []) <= r.
Definition knn_ok (n : nat) (knn : nat -> nat -> list nat) : Prop := forall i k, (i < n)%nat -> (k <= n)%nat -> NoDup (knn i k) /\ length (knn i k) = k /\ forall j, In j (knn i k) -> (j < n)%nat.
Lemma loss_ge0 m f g : 0 <= loss m f g.
Proof. apply rsum_ge0. intros v Hv. apply in_map_iff in Hv as (j & <- & _). apply Rmax_l. Qed.
Lemma loss_pos m f g : length f = m -> length g = m -> f <> g -> ~ pareto_dom g f -> 0 < loss m f g.
Proof.
  intros Lf Lg HD HN. destruct (Rle_lt_or_eq_dec _ _ (loss_ge0 m f g)) as [|E]; auto. exfalso. symmetry in E.
  assert (HZ : forall j, (j < m)%nat -> nth j g 0 <= nth j f 0). { intros j Hj. pose proof (Rmax_r 0 (nth j g 0 - nth j f 0)) as H. replace (Rmax 0 (nth j g 0 - nth j f 0)) with 0 in H; [lra|]. symmetry. apply (rsum_0 (map (fun j => Rmax 0 (nth j g 0 - nth j f 0)) (seq 0 m))); auto; [intros v Hv; apply in_map_iff in Hv as (k & <- & _); apply Rmax_l|]. apply in_map_iff. exists j. split; auto. apply in_seq. lia. }
  apply HN. split; [lia|]. rewrite Lf. split; auto. destruct (list_eq_dec Req_EM_T f g); [contradiction|].
  assert (HX : ~ (forall j, (j < m)%nat -> nth j g 0 = nth j f 0)). { intros H. apply HD. apply nth_ext with (d := 0) (d' := 0); [lia|]. intros j Hj. symmetry. apply H. lia. }
  assert (HE : forall n, (n <= m)%nat -> (exists i, (i < n)%nat /\ nth i g 0 < nth i f 0) \/ forall j, (j < n)%nat -> nth j g 0 = nth j f 0).
  { induction n0 as [|n0 IH]; intros Hn; [right; intros; lia|]. destruct IH as [(i & Hi & H)|H]; [lia|left; exists i; split; [lia|auto]|]. destruct (Rlt_dec (nth n0 g 0) (nth n0 f 0)) as [HL|HL]; [left; exists n0; split; [lia|auto]|]. right. intros j Hj. destruct (Nat.eq_dec j n0) as [->|]; [specialize (HZ n0 ltac:(lia)); lra|apply H; lia]. }
  destruct (HE m (le_n m)) as [H|H]; [auto|contradiction].
Qed.
Lemma gain_loss m f g : gain m f g = loss m g f.
Proof. unfold gain, loss. f_equal. apply map_ext. intros j. f_equal. ring. Qed.
Lemma loss_self m f : loss m f f = 0.
Proof. unfold loss. rewrite (map_ext _ (fun _ => 0)). - generalize (seq 0 m). induction l as [|a l IH]; unfold rsum in *; cbn; [auto|rewrite IH; ring]. - intros j. rewrite Rminus_eq_0. apply Rmax_left. lra. Qed.
Lemma fold_xmin l : forall a, let r := fold_left (fun a b => if xltb b a then b else a) (map XFin l) (XFin a) in exists v, r = XFin v /\ (v = a \/ In v l) /\ v <= a /\ forall w, In w l -> v <= w.
Proof.
  induction l as [|b l IH]; intros a; cbn [map fold_left xltb]; [exists a; split; auto; split; auto; split; [lra|intros w []]|]. destruct (Rlt_dec b a) as [H|H].
  - destruct (IH b) as (v & E & V1 & V2 & V3). exists v. split; auto. split; [right; destruct V1 as [->|V1]; [now left|now right]|]. split; [lra|]. intros w [<-|Hw]; auto.
  - destruct (IH a) as (v & E & V1 & V2 & V3). exists v. split; auto. split; [destruct V1; [now left|right; now right]|]. split; [lra|]. intros w [<-|Hw]; auto. lra.
Qed.

(** C90: with at least three mutually non-dominated distinct solutions every trade-off is positive and finite: the least ratio of sacrifice to gain when moving to one of the neighbours,
    which are the solutions within distance 1/8 or, if they are too few, the nearest ones - at least one other solution in any case *)
Theorem C90_tradeoffs : forall m ball knn F, (2 <= m)%nat -> (3 <= length F)%nat -> Forall (fun f => length f = m) F -> NoDup F -> mutually_nondominated F -> ball_ok F ball -> knn_ok (length F) knn ->
  forall i, (i < length F)%nat -> exists v nb, nth i (tradeoffs m ball knn F) XNaN = XFin v /\ 0 < v /\
    nb <> [] /\ NoDup nb /\ (forall k, In k nb -> (k < length F)%nat /\ k <> i) /\
    ((forall k, In k nb <-> (k < length F)%nat /\ k <> i /\ euclid (nth i F []) (nth k F []) <= 1/8) \/ forall k, In k nb <-> k <> i /\ In k (knn i (Nat.min (2 * m) (length F - 1) + 1)%nat)) /\
    (exists k, In k nb /\ v = loss m (nth i F []) (nth k F []) / loss m (nth k F []) (nth i F [])) /\
    forall k, In k nb -> v <= loss m (nth i F []) (nth k F []) / loss m (nth k F []) (nth i F []).
Proof.
  intros m ball knn F Hm Hn HL HD HND HB HK i Hi. rewrite Forall_forall in HL. unfold tradeoffs. rewrite nth_map_seq0 by auto. set (N := ht_neighbors m ball knn (length F) i). set (fi := nth i F []).
  set (nb := filter (fun k => negb (k =? i)) N). assert (Hmin : (2 <= ht_n_min m (length F) <= length F - 1)%nat) by (unfold ht_n_min; lia).
  assert (HN : NoDup N /\ (2 <= length N)%nat /\ (forall k, In k N -> (k < length F)%nat) /\ (N = ball i (1/8) \/ N = knn i (ht_n_min m (length F) + 1)%nat)).
  { unfold N, ht_neighbors. cbv zeta. destruct (HB i (1/8) Hi) as [B1 B2]. destruct (HK i (ht_n_min m (length F) + 1)%nat Hi ltac:(lia)) as (K1 & K2 & K3). destruct (Nat.ltb_spec (length (ball i (1/8))) (ht_n_min m (length F))) as [H|H].
    - split; auto. split; [lia|]. split; auto.
    - split; auto. split; [lia|]. split; [|now left]. intros k Hk. now apply B2 in Hk. }
  destruct HN as (N1 & N2 & N3 & N4). assert (HnbI : forall k, In k nb <-> In k N /\ k <> i). { intros k. unfold nb. rewrite filter_In, negb_true_iff, Nat.eqb_neq. tauto. }
  assert (Hnb : nb <> []). { intros E. assert (HA : forall k, In k N -> k = i) by (intros k Hk; destruct (Nat.eq_dec k i); auto; exfalso; assert (In k nb) by (apply HnbI; auto); rewrite E in *; auto). destruct N as [|a [|b N']]; cbn in N2; try lia. inversion N1 as [|? ? H1 H2]; subst. apply H1. left. rewrite (HA a), (HA b); cbn; auto. }
  assert (HP : forall k, In k nb -> 0 < loss m fi (nth k F []) /\ 0 < loss m (nth k F []) fi).
  { intros k Hk. apply HnbI in Hk as [Hk1 Hk2]. apply N3 in Hk1. assert (A : In fi F) by now apply nth_In. assert (B : In (nth k F []) F) by now apply nth_In. assert (NE : fi <> nth k F []) by (intros E; apply Hk2; symmetry; eapply (proj1 (NoDup_nth F [])); eauto). split; apply loss_pos; auto. }
  set (t := fun k => loss m fi (nth k F []) / loss m (nth k F []) fi).
  assert (EF : filter (fun x => negb (is_nan x)) (map (fun k => xdiv (sacrifice m fi (nth k F [])) (gain m fi (nth k F []))) N) = map XFin (map t nb)).
  { rewrite map_map. unfold nb. assert (HP' : forall k, In k N -> k <> i -> 0 < loss m fi (nth k F []) /\ 0 < loss m (nth k F []) fi) by (intros k H1 H2; apply HP, HnbI; auto). clear - HP'. induction N as [|k N IH]; [reflexivity|]. cbn [map filter]. rewrite gain_loss. change (sacrifice m fi (nth k F [])) with (loss m fi (nth k F [])).
    assert (IH' := IH (fun k' H => HP' k' (or_intror H))). destruct (Nat.eqb_spec k i) as [->|HNE]; cbn [negb].
    - fold fi. rewrite loss_self. unfold xdiv at 1. destruct (Req_EM_T 0 0); [|lra]. cbn [is_nan negb]. exact IH'.
    - destruct (HP' k (or_introl eq_refl) HNE) as [P1 P2]. unfold xdiv at 1 2. destruct (Req_EM_T (loss m (nth k F []) fi) 0); [lra|]. cbn [is_nan negb map]. f_equal. exact IH'. }
  unfold nanmin. rewrite EF. destruct nb as [|k0 nb0] eqn:ENB; [congruence|]. cbn [map]. destruct (fold_xmin (map t nb0) (t k0)) as (v & E & V1 & V2 & V3). exists v, (k0 :: nb0). split; auto.
  assert (VI : exists k, In k (k0 :: nb0) /\ v = t k). { destruct V1 as [->|V1]; [exists k0; split; [now left|auto]|]. apply in_map_iff in V1 as (k & <- & Hk). exists k. split; [now right|auto]. }
  split; [destruct VI as (k & Hk & ->); destruct (HP k Hk) as [P1 P2]; unfold t; now apply Rdiv_lt_0_compat|]. split; auto. rewrite <- ENB in *. split; [apply NoDup_filter; auto|]. split; [intros k Hk; apply HnbI in Hk as [H1 H2]; split; auto|]. split; [|split; auto].
  - destruct N4 as [E4|E4]; [left|right]; intros k.
    + rewrite HnbI, E4. destruct (HB i (1/8) Hi) as [_ B2]. rewrite B2. fold fi. tauto.
    + rewrite HnbI, E4. unfold ht_n_min. tauto.
  - intros k Hk. rewrite ENB in Hk. destruct Hk as [<-|Hk]; auto. apply V3. change (In (t k) (map t nb0)). now apply in_map.
Qed.
Lemma nan_alone m ball knn F i : (i < length F)%nat -> ht_neighbors m ball knn (length F) i = [i] -> nth i (tradeoffs m ball knn F) XNaN = XNaN.
Proof.
  intros Hi E. unfold tradeoffs. rewrite nth_map_seq0 by auto. rewrite E. cbn [map]. rewrite gain_loss. change (sacrifice m (nth i F []) (nth i F [])) with (loss m (nth i F []) (nth i F [])). rewrite loss_self. unfold xdiv. destruct (Req_EM_T 0 0); [reflexivity|lra].
Qed.
(** C90: with a single solution, or two that are more than 1/8 apart, the call raises *)
Theorem C90_tradeoff_few_refuted : forall m ball knn eps F, (2 <= m)%nat -> Forall (fun f => length f = m) F -> ball_ok F ball -> length F = 1%nat \/ (length F = 2%nat /\ 1/8 < euclid (nth 0 F []) (nth 1 F [])) ->
  high_tradeoff m ball knn eps F = None.
Proof.
  intros m ball knn eps F Hm HL HB HF. assert (HI : forall i, (i < length F)%nat -> ht_neighbors m ball knn (length F) i = [i]).
  { intros i Hi. destruct (HB i (1/8) Hi) as [B1 B2]. assert (HA : forall k, In k (ball i (1/8)) <-> k = i).
    { intros k. rewrite B2. split.
      - intros [H1 H2]. destruct HF as [E|[E HE]]; [lia|]. destruct (Nat.eq_dec k i); auto. exfalso. rewrite E in *. assert (C : ((i = 0 /\ k = 1) \/ (i = 1 /\ k = 0))%nat) by lia. destruct C as [[-> ->]|[-> ->]]; [lra|]. assert (HSy : euclid (nth 1 F []) (nth 0 F []) = euclid (nth 0 F []) (nth 1 F [])). { unfold euclid. f_equal. f_equal. generalize (nth 0 F []) (nth 1 F []). induction l as [|u l IH]; intros [|w l0]; cbn; auto. rewrite IH. f_equal. ring. } lra.
      - intros ->. split; auto. replace (euclid (nth i F []) (nth i F [])) with 0; [lra|]. unfold euclid. rewrite <- sqrt_0. f_equal. symmetry. generalize (nth i F []). induction l as [|u l IH]; cbn; [reflexivity|]. unfold rsum in *. cbn. rewrite IH. ring. }
    assert (EB : ball i (1/8) = [i]). { destruct (ball i (1/8)) as [|a [|b l]]; [exfalso; apply (proj2 (HA i)); auto|f_equal; apply HA; now left|]. exfalso. inversion B1 as [|? ? H1 _]; subst. apply H1. left. transitivity i; [apply HA; right; now left|symmetry; apply HA; now left]. }
    unfold ht_neighbors. cbv zeta. rewrite EB. cbn [length]. destruct (Nat.ltb_spec 1 (ht_n_min m (length F))) as [H|H]; auto. unfold ht_n_min in H. exfalso. lia. }
  unfold high_tradeoff. destruct F as [|f0 F0] eqn:EF; [cbn in HF; lia|]. rewrite <- EF in *. destruct (Nat.eqb_spec m 1); [lia|].
  assert (HV : forall i v, ~ value_at (tradeoffs m ball knn F) i v). { intros i v H. unfold value_at in H. assert (Hi : (i < length F)%nat). { assert (HL' : length (tradeoffs m ball knn F) = length F) by (unfold tradeoffs; now rewrite map_length, seq_length). rewrite <- HL'. apply nth_error_Some. congruence. } apply (nth_error_nth _ _ XNaN) in H. rewrite nan_alone in H; auto. discriminate. }
  pose proof (C90_outliers (tradeoffs m ball knn F)) as HO. cbv zeta in HO. destruct (find_outliers _) as [[T|]|]; auto; exfalso.
  - destruct HO as (_ & _ & _ & (i & v & _ & H & _) & _). now apply HV in H.
  - destruct HO as [H _]. apply H. clear - HV. revert HV. generalize (tradeoffs m ball knn F). intros mu. induction mu as [|x mu IH]; intros HV; [reflexivity|]. destruct x; cbn; try (apply IH; intros i v H; apply (HV (S i) v); exact H). exfalso. apply (HV 0%nat r). reflexivity.
Qed.
(** C90: the epsilon given to the constructor has no effect; CompromiseProgramming raises on every non-empty set *)
Theorem C90_epsilon_refuted : forall m ball knn e1 e2 F, high_tradeoff m ball knn e1 F = high_tradeoff m ball knn e2 F.
Proof. reflexivity. Qed.
Theorem C90_compromise_refuted : forall F, F <> [] -> compromise F = None.
Proof. intros [|f F] H; [congruence|reflexivity]. Qed.
(** the hypotheses of the theorems above are met *)
Example C90_meets : matrix 2 [[0; 2]; [1; 1]; [2; 0]] /\ varied 2 [[0; 2]; [1; 1]; [2; 0]] /\ mutually_nondominated [[0; 2]; [1; 1]; [2; 0]] /\ NoDup [[0; 2]; [1; 1]; [2; 0]] /\
  (exists ball, ball_ok [[0; 2]; [1; 1]; [2; 0]] ball) /\ exists knn, knn_ok 3 knn.
Proof.
  assert (E : forall a b c d : R, [a; b] = [c; d] -> a = c). { intros a b c d H. now injection H. }
  split; [split; [discriminate|repeat constructor]|]. split.
  { intros j Hj. exists [0; 2], [2; 0]. split; [now left|]. split; [right; right; now left|]. destruct j as [|[|j]]; cbn; lra || lia. }
  split.
  { intros f g Hf Hg (_ & H1 & (i & Hi & H2)). destruct Hg as [<-|[<-|[<-|[]]]], Hf as [<-|[<-|[<-|[]]]]; cbn [length] in *; pose proof (H1 0%nat ltac:(lia)) as A; pose proof (H1 1%nat ltac:(lia)) as B; cbn in A, B; destruct i as [|[|i]]; cbn in H2; try lra; lia. }
  split; [repeat apply NoDup_cons; [..|apply NoDup_nil]; intros H; repeat (destruct H as [H|H]; [apply E in H; lra|]); destruct H|]. split.
  - exists (fun i r => filter (fun k => if Rle_dec (euclid (nth i [[0; 2]; [1; 1]; [2; 0]] []) (nth k [[0; 2]; [1; 1]; [2; 0]] [])) r then true else false) (seq 0 3)). intros i r Hi. split; [apply NoDup_filter, seq_NoDup|]. intros k. rewrite filter_In, in_seq. cbn [length]. destruct (Rle_dec _ r); intuition (try lia; try discriminate).
  - exists (fun i k => seq 0 k). intros i k Hi Hk. split; [apply seq_NoDup|]. split; [apply seq_length|]. intros j Hj. apply in_seq in Hj. lia.
Qed.
