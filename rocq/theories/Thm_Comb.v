(** * Theorems C89: traveling salesman, flow shop and knapsack problems *)
From Coq Require Import String List Arith Bool Reals Lra Lia.
From Verif Require Import Flt ListAux M_Params M_Evaluate M_NSGA3R M_Comb Thm_NSGA3R Thm_RVEA.
Import ListNotations.
Local Open Scope R_scope.

(** ** specification: the length of a closed tour through the cities, in the order of [x] *)
Definition tour (d : nat -> nat -> R) (x : list nat) : R := rsum (map (fun i => d (nth i x 0%nat) (nth ((i + 1) mod length x) x 0%nat)) (seq 0 (length x))).
Definition euclid_between (cities : list (list R)) (i j : nat) : R := euclid (nth i cities []) (nth j cities []).
(** cities of one dimension; a route through existing cities *)
Definition cities_ok (m : nat) (cities : list (list R)) : Prop := Forall (fun c => length c = m) cities.
Definition route_ok (cities : list (list R)) (x : list nat) : Prop := x <> [] /\ Forall (fun i => (i < length cities)%nat) x.

(** ** euclidean distance *)
Lemma city_euclid a b : city_dist a b = euclid a b.
Proof.
  unfold city_dist, norm, euclid. f_equal. f_equal. revert b. induction a as [|u a IH]; intros [|v b]; cbn; auto. now rewrite IH.
Qed.
Lemma minus_sum a b c : length a = length b -> length b = length c -> map2 Rminus a c = map2 Rplus (map2 Rminus a b) (map2 Rminus b c).
Proof.
  revert b c. induction a as [|u a IH]; intros [|v b] [|w c]; cbn; try discriminate; auto. intros H1 H2. f_equal; [ring|apply IH; lia].
Qed.
Lemma dot_plus_self u : forall v, length u = length v -> dot (map2 Rplus u v) (map2 Rplus u v) = dot u u + 2 * dot u v + dot v v.
Proof.
  unfold dot, rsum. induction u as [|a u IH]; intros [|b v] H; cbn in *; try discriminate; [ring|]. rewrite IH by lia. ring.
Qed.
Lemma norm_triangle u v : length u = length v -> norm (map2 Rplus u v) <= norm u + norm v.
Proof.
  intros HL. pose proof (norm_nonneg u). pose proof (norm_nonneg v). pose proof (norm_nonneg (map2 Rplus u v)). pose proof (norm_sq u) as E1. pose proof (norm_sq v) as E2. pose proof (norm_sq (map2 Rplus u v)) as E3. rewrite dot_plus_self in E3 by auto.
  pose proof (cauchy_schwarz u v HL) as CS. rewrite <- E1, <- E2 in CS. set (a := norm u) in *. set (b := norm v) in *. set (c := norm (map2 Rplus u v)) in *. assert (HD : dot u v <= a * b). { destruct (Rle_lt_dec (dot u v) (a * b)) as [|HH]; auto. assert (0 <= a * b) by now apply Rmult_le_pos. nra. }
  rewrite <- E1, <- E2 in E3. destruct (Rle_lt_dec c (a + b)) as [HH|HH]; [exact HH|]. exfalso. assert ((a + b) * (a + b) < c * c) by (apply Rmult_le_0_lt_compat; lra). lra.
Qed.
Lemma euclid_tri a b c : length a = length b -> length b = length c -> euclid a c <= euclid a b + euclid b c.
Proof.
  intros H1 H2. rewrite <- !city_euclid. unfold city_dist. rewrite (minus_sum a b c) by auto. apply norm_triangle. rewrite !length_map2. lia.
Qed.
Lemma euclid_sym a : forall b, euclid a b = euclid b a.
Proof.
  intros b. unfold euclid. f_equal. f_equal. revert b. induction a as [|u a IH]; intros [|v b]; cbn; auto. rewrite IH. f_equal. ring.
Qed.
Lemma euclid_self a : euclid a a = 0.
Proof. unfold euclid. rewrite <- sqrt_0. f_equal. induction a as [|u a IH]; cbn; [reflexivity|]. unfold rsum in *. cbn. rewrite IH. ring. Qed.
Lemma euclid_pos a b : 0 <= euclid a b.
Proof. apply sqrt_pos. Qed.

(** ** paths *)
Fixpoint path (d : nat -> nat -> R) (a : nat) (l : list nat) : R := match l with [] => 0 | b :: l => d a b + path d b l end.
Definition closed (d : nat -> nat -> R) (x : list nat) : R := match x with [] => 0 | a :: l => path d a (l ++ [a]) end.
Lemma path_app d l1 : forall a b l2, path d a (l1 ++ b :: l2) = path d a (l1 ++ [b]) + path d b l2.
Proof. induction l1 as [|c l1 IH]; intros a b l2; cbn; [ring|]. rewrite IH. ring. Qed.
Lemma path_nth d l : forall a, path d a l = rsum (map (fun i => d (nth i (a :: l) 0%nat) (nth i l 0%nat)) (seq 0 (length l))).
Proof.
  induction l as [|b l IH]; intros a; [reflexivity|]. cbn [path length seq map]. unfold rsum in *. cbn [fold_right nth]. rewrite IH. f_equal. rewrite <- seq_shift, map_map. reflexivity.
Qed.
Lemma closed_tour d x : closed d x = tour d x.
Proof.
  destruct x as [|a l]; [reflexivity|]. cbn [closed]. rewrite path_nth. unfold tour. rewrite app_length. cbn [length]. rewrite Nat.add_1_r. f_equal. apply map_ext_in. intros i Hi. apply in_seq in Hi.
  assert (E1 : nth i (a :: l ++ [a]) 0%nat = nth i (a :: l) 0%nat). { change (a :: l ++ [a]) with ((a :: l) ++ [a]). apply app_nth1. cbn. lia. } rewrite E1. f_equal.
  destruct (Nat.eq_dec i (length l)) as [->|HN]; [rewrite app_nth2, Nat.sub_diag by lia; rewrite Nat.add_1_r, Nat.mod_same by lia; reflexivity|]. rewrite app_nth1 by lia. rewrite Nat.mod_small by lia. now rewrite Nat.add_1_r.
Qed.
Lemma closed_rot1 d a l : closed d (l ++ [a]) = closed d (a :: l).
Proof. destruct l as [|b l]; [reflexivity|]. cbn [closed app]. rewrite <- app_assoc. cbn [app]. rewrite path_app. cbn [path]. ring. Qed.
Lemma closed_rot d l1 : forall l2, closed d (l2 ++ l1) = closed d (l1 ++ l2).
Proof.
  induction l1 as [|a l1 IH]; intros l2; [now rewrite app_nil_r|]. change ((a :: l1) ++ l2) with (a :: (l1 ++ l2)). rewrite <- (closed_rot1 d a (l1 ++ l2)), <- (app_assoc l1 l2 [a]), <- IH, <- (app_assoc l2 [a] l1). reflexivity.
Qed.
Lemma path_rev d : (forall a b, d a b = d b a) -> forall l a b, path d a (l ++ [b]) = path d b (rev l ++ [a]).
Proof.
  intros HS. induction l as [|c l IH]; intros a b; cbn [app rev path]; [now rewrite HS|]. rewrite IH, <- app_assoc. cbn [app]. rewrite (path_app d (rev l) b c [a]). cbn [path]. rewrite (HS a c). ring.
Qed.
Lemma closed_rev d x : (forall a b, d a b = d b a) -> closed d (rev x) = closed d x.
Proof. intros HS. destruct x as [|a l]; [reflexivity|]. cbn [rev]. rewrite closed_rot1. cbn [closed]. now rewrite (path_rev d HS (rev l)), rev_involutive. Qed.

(** ** the code's route length *)
Section TSP.
  Variables (m : nat) (cities : list (list R)).
  Let d := euclid_between cities.
  Let D := tsp_D cities.
  Lemma entry_ok i j : (i < length cities)%nat -> (j < length cities)%nat -> entry D i j = Some (d i j).
  Proof.
    intros Hi Hj. unfold entry, D, tsp_D. rewrite (nth_error_nth' _ []) by now rewrite map_length. rewrite (nth_indep _ [] (map (city_dist []) cities)) by now rewrite map_length. rewrite (map_nth (fun a => map (city_dist a) cities)).
    rewrite (nth_error_nth' _ 0) by now rewrite map_length. rewrite (nth_indep _ 0 (city_dist (nth i cities []) [])) by now rewrite map_length. rewrite map_nth. now rewrite city_euclid.
  Qed.
  Lemma entry_bad i j : (length cities <= i \/ length cities <= j)%nat -> entry D i j = None.
  Proof.
    intros H. unfold entry, D, tsp_D. destruct (nth_error (map _ cities) i) as [row|] eqn:E; auto. apply nth_error_None. assert (Hi : (i < length cities)%nat) by (rewrite <- (map_length (fun a => map (city_dist a) cities)); apply nth_error_Some; congruence). apply nth_error_In in E. apply in_map_iff in E as (a & <- & _). rewrite map_length. lia.
  Qed.
  Lemma walk ks : forall x acc, (forall k, In k ks -> (nth k x 0 < length cities)%nat /\ (nth (k + 1) x 0 < length cities)%nat) ->
    fold_left (fun dist k => oadd dist (entry D (nth k x 0%nat) (nth (k + 1) x 0%nat))) ks (Some acc) = Some (acc + rsum (map (fun k => d (nth k x 0%nat) (nth (k + 1) x 0%nat)) ks)).
  Proof.
    induction ks as [|k ks IH]; intros x acc H; [cbn; f_equal; ring|]. cbn [fold_left map]. destruct (H k (or_introl eq_refl)). rewrite entry_ok by auto. cbn [oadd]. rewrite IH by (intros; apply H; now right). unfold rsum. cbn [fold_right]. f_equal. ring.
  Qed.
  Lemma route_closed x : route_ok cities x -> route_length D x = Some (closed d x).
  Proof.
    intros [HN HF]. rewrite Forall_forall in HF. assert (HX : forall k, (k < length x)%nat -> (nth k x 0 < length cities)%nat) by (intros; apply HF, nth_In; auto). unfold route_length. rewrite walk by (intros k Hk; apply in_seq in Hk; split; apply HX; lia).
    destruct x as [|a l]; [congruence|]. cbn [length]. rewrite Nat.sub_succ, Nat.sub_0_r. assert (EL : last (a :: l) 0%nat = nth (length l) (a :: l) 0%nat) by (clear; revert a; induction l as [|b l IH]; intros a; [reflexivity|]; change (last (a :: b :: l) 0%nat) with (last (b :: l) 0%nat); rewrite IH; reflexivity).
    rewrite EL, entry_ok; [|apply HX; cbn; lia|apply HF; now left]. cbn [oadd closed]. f_equal. rewrite path_nth, app_length. cbn [length]. rewrite Nat.add_1_r, seq_S, map_app. cbn [map]. rewrite Nat.add_0_l.
    assert (ER : forall l1 v, rsum (l1 ++ [v]) = rsum l1 + v) by (clear; intros l1 v; unfold rsum; induction l1 as [|w l1 IH]; cbn; [ring|rewrite IH; ring]). rewrite ER, Rplus_0_l. change (a :: l ++ [a]) with ((a :: l) ++ [a]). rewrite (app_nth1 (a :: l) [a]) by (cbn; lia). rewrite (app_nth2 l [a]), Nat.sub_diag by lia. cbn [nth]. f_equal. f_equal. apply map_ext_in. intros k Hk. apply in_seq in Hk. rewrite (app_nth1 (a :: l) [a]) by (cbn; lia). rewrite app_nth1 by lia. now rewrite Nat.add_1_r.
  Qed.
  Lemma d_sym a b : d a b = d b a.
  Proof. apply euclid_sym. Qed.
  Hypothesis HC : cities_ok m cities.
  Lemma d_tri a b c : (a < length cities)%nat -> (b < length cities)%nat -> (c < length cities)%nat -> d a c <= d a b + d b c.
  Proof. unfold cities_ok in HC. rewrite Forall_forall in HC. intros Ha Hb Hc. apply euclid_tri; rewrite !HC; auto; now apply nth_In. Qed.
  Lemma path_ge l : forall a b, (a < length cities)%nat -> Forall (fun i => (i < length cities)%nat) (l ++ [b]) -> d a b <= path d a (l ++ [b]).
  Proof.
    induction l as [|c l IH]; intros a b Ha HF; cbn [app path]; [lra|]. cbn [app] in HF. inversion HF as [|? ? Hc HF']; subst. specialize (IH c b Hc HF'). pose proof (d_tri a c b Ha Hc) as T. assert (Hb : (b < length cities)%nat) by (rewrite Forall_forall in HF'; apply HF', in_or_app; right; now left). specialize (T Hb). lra.
  Qed.
  Lemma closed_ge x a b : route_ok cities x -> In a x -> In b x -> 2 * d a b <= closed d x.
  Proof.
    intros [HN HF] Ha Hb. apply in_split in Ha as (l1 & l2 & ->). rewrite closed_rot. cbn [app closed]. assert (HF2 : Forall (fun i => (i < length cities)%nat) (a :: l2 ++ l1)). { rewrite Forall_forall in *. intros i Hi. apply HF. rewrite in_app_iff in *. cbn in *. rewrite in_app_iff in *. tauto. }
    assert (Hb' : b = a \/ In b (l2 ++ l1)) by (rewrite in_app_iff in *; cbn in *; rewrite ?in_app_iff in *; intuition). clear HF HN Hb. set (l := l2 ++ l1) in *. clearbody l. inversion HF2 as [|? ? Hia HFl]; subst. destruct Hb' as [->|Hb].
    - assert (Z : d a a = 0) by apply euclid_self. pose proof (path_ge l a a Hia) as P. rewrite Z in *. lapply P; [lra|]. apply Forall_app. split; auto.
    - apply in_split in Hb as (m1 & m2 & ->). rewrite <- app_assoc. cbn [app]. rewrite path_app. apply Forall_app in HFl as [F1 F2]. inversion F2 as [|? ? Hib F3]; subst.
      pose proof (path_ge m1 a b Hia) as P1. lapply P1; [clear P1; intros P1|apply Forall_app; split; auto]. pose proof (path_ge m2 b a Hib) as P2. lapply P2; [clear P2; intros P2|apply Forall_app; split; auto]. rewrite (d_sym b a) in P2. lra.
  Qed.
End TSP.

(** C89: the value of a route is the length of the closed tour *)
Theorem C89_tsp_length : forall cities x, route_ok cities x -> route_length (tsp_D cities) x = Some (tour (euclid_between cities) x).
Proof. intros cities x H. rewrite route_closed by auto. now rewrite closed_tour. Qed.
(** it does not depend on the city the tour starts from *)
Theorem C89_tsp_rotate : forall cities x y, route_ok cities (x ++ y) -> route_length (tsp_D cities) (y ++ x) = route_length (tsp_D cities) (x ++ y).
Proof.
  intros cities x y H. assert (H' : route_ok cities (y ++ x)). { destruct H as [HN HF]. apply Forall_app in HF as [F1 F2]. split; [|apply Forall_app; auto]. intros E. apply app_eq_nil in E as [-> ->]. now apply HN. }
  rewrite !route_closed by auto. now rewrite closed_rot.
Qed.
(** nor on its direction *)
Theorem C89_tsp_reverse : forall cities x, route_ok cities x -> route_length (tsp_D cities) (rev x) = route_length (tsp_D cities) x.
Proof.
  intros cities x H. assert (H' : route_ok cities (rev x)). { destruct H as [HN HF]. split; [intros E; apply HN; rewrite <- (rev_involutive x), E; reflexivity|]. rewrite Forall_forall in *. intros i Hi. apply HF. now apply in_rev. }
  rewrite !route_closed by auto. now rewrite (closed_rev _ _ (d_sym cities)).
Qed.
(** it is at least twice the distance of any two cities on the route, in particular non-negative *)
Theorem C89_tsp_lower : forall m cities x, cities_ok m cities -> route_ok cities x -> exists L, route_length (tsp_D cities) x = Some L /\ 0 <= L /\ forall a b, In a x -> In b x -> 2 * euclid_between cities a b <= L.
Proof.
  intros m cities x HC H. exists (closed (euclid_between cities) x). split; [now apply route_closed|]. assert (G : forall a b, In a x -> In b x -> 2 * euclid_between cities a b <= closed (euclid_between cities) x) by (intros; eapply closed_ge; eauto).
  split; auto. destruct x as [|a l]; [destruct H; congruence|]. specialize (G a a (or_introl eq_refl) (or_introl eq_refl)). unfold euclid_between in G at 1. rewrite euclid_self in G. lra.
Qed.
(** the declared upper bound is not an index of a city: a route that uses it raises *)
Theorem C89_tsp_bounds_refuted : forall cities x, In (snd (tsp_bounds (length cities))) x -> route_length (tsp_D cities) x = None.
Proof.
  intros cities x Hx. cbn [tsp_bounds snd] in Hx. unfold route_length. set (D := tsp_D cities).
  assert (NN : forall ks, fold_left (fun dist k => oadd dist (entry D (nth k x 0%nat) (nth (k + 1) x 0%nat))) ks None = None) by (induction ks; auto).
  assert (BAD : forall ks acc, (exists k, In k ks /\ entry D (nth k x 0%nat) (nth (k + 1) x 0%nat) = None) -> fold_left (fun dist k => oadd dist (entry D (nth k x 0%nat) (nth (k + 1) x 0%nat))) ks acc = None).
  { induction ks as [|k ks IH]; intros acc (j & Hj & E); [destruct Hj|]. cbn [fold_left]. destruct Hj as [->|Hj]; [rewrite E; destruct acc; apply NN|apply IH; eauto]. }
  apply (In_nth _ _ 0%nat) in Hx as (k & Hk & E). destruct x as [|a l]; [reflexivity|]. destruct (Nat.eq_dec (k + 1) (length (a :: l))) as [EL|HL].
  - assert (ELast : last (a :: l) 0%nat = length cities). { rewrite <- E. replace k with (length l) by (cbn in EL; lia). clear. revert a; induction l as [|b l IH]; intros a; [reflexivity|]; change (last (a :: b :: l) 0%nat) with (last (b :: l) 0%nat); rewrite IH; reflexivity. }
    rewrite ELast. unfold D. rewrite entry_bad by (left; lia). destruct (fold_left _ _ _); reflexivity.
  - rewrite BAD; [reflexivity|]. exists k. split; [apply in_seq; cbn in *; lia|]. rewrite E. unfold D. apply entry_bad. left; lia.
Qed.
