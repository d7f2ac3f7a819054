(** * C47: decompositions *)
From Coq Require Import List Arith Bool ZArith QArith Qabs Qround Lia Lqa Permutation.
From Verif Require Import ListAux M_Individual M_Survival M_Decomp S_Decomp.
Import ListNotations.
Local Open Scope nat_scope.

(** ** shapes *)
Lemma map2_repeat {A B C} (f : A -> B -> C) x (W : list B) : map2 f (repeat x (length W)) W = map (f x) W.
Proof. induction W; cbn; f_equal; auto. Qed.
Lemma map2_app {A B C} (f : A -> B -> C) a a' b b' : length a = length b -> map2 f (a ++ a') (b ++ b') = map2 f a b ++ map2 f a' b'.
Proof. revert b. induction a as [|x a IH]; intros [|y b] H; try discriminate; auto. cbn. f_equal. auto. Qed.
Lemma map2_rep_tile {A B C} (f : A -> B -> C) F (W : list B) : map2 f (np_repeat F (length W)) (np_tile W (length F)) = flat_map (fun x => map (f x) W) F.
Proof. unfold np_repeat, np_tile. induction F as [|x F IH]; auto. cbn [flat_map length repeat concat]. rewrite map2_app by apply repeat_length. now rewrite map2_repeat, IH. Qed.
Lemma map2_rep_r {A B C} (f : A -> B -> C) F w : map2 f F (np_repeat [w] (length F)) = map (fun x => f x w) F.
Proof. unfold np_repeat. cbn [flat_map]. rewrite app_nil_r. induction F; cbn; f_equal; auto. Qed.
Lemma length_np_repeat {A} (l : list A) k : length (np_repeat l k) = length l * k.
Proof. unfold np_repeat. induction l; cbn [flat_map length]; auto. rewrite app_length, repeat_length. lia. Qed.
Lemma length_np_tile {A} (l : list A) k : length (np_tile l k) = k * length l.
Proof. unfold np_tile. induction k; cbn [repeat concat]; auto. rewrite app_length, IHk. lia. Qed.
Lemma reshape_flat {A B} (f : A -> list B) F k : (forall x, length (f x) = k) -> reshape (length F) k (flat_map f F) = map f F.
Proof.
  intros H. induction F as [|x F IH]; auto. cbn [length reshape flat_map map]. rewrite firstn_app, skipn_app, (H x), Nat.sub_diag. rewrite firstn_all2, skipn_all2 by (rewrite H; lia).
  cbn [firstn skipn app]. rewrite app_nil_r. f_equal. exact IH.
Qed.

Lemma map_repeat_ {A B} (f : A -> B) x n : map f (repeat x n) = repeat (f x) n.
Proof. induction n; cbn; congruence. Qed.
(** the result pairs points and weights as named, whatever the scalarisation: [D] evaluates one point with one weight vector *)
Theorem C47_shapes : forall sc rnd eps init F W ideal utop u, reference_point rnd eps (cols_of F) ideal utop u ->
  let D := sc u in
  let n := length (rows_of F) in let k := length (rows_of W) in
  let f i := nth i (rows_of F) [] in let w j := nth j (rows_of W) [] in
  (exists M, decomp_do sc rnd eps init F W TManyToMany ideal utop = Some (D2 M) /\ length M = n /\ Forall (fun r => length r = k) M /\
     forall i j, i < n -> j < k -> nth j (nth i M []) 0%Q = D (f i) (w j)) /\
  (n = k -> exists v, decomp_do sc rnd eps init F W TOneToOne ideal utop = Some (D1 v) /\ length v = n /\ forall i, i < n -> nth i v 0%Q = D (f i) (w i)) /\
  (n = 1 -> exists v, decomp_do sc rnd eps init F W TOneToMany ideal utop = Some (D1 v) /\ length v = k /\ forall j, j < k -> nth j v 0%Q = D (f 0) (w j)) /\
  (k = 1 -> exists v, decomp_do sc rnd eps init F W TManyToOne ideal utop = Some (D1 v) /\ length v = n /\ forall i, i < n -> nth i v 0%Q = D (f i) (w 0)).
Proof.
  intros sc rnd eps init F W ideal utop u HU D n k f w.
  assert (EU : u = utopian rnd eps (cols_of F) ideal utop).
  { destruct HU as (H1 & H2 & H3). unfold utopian. destruct utop as [v|]; [now apply H1|]. destruct ideal as [z|]; [now apply H2|]. rewrite H3 by reflexivity. now rewrite map_repeat_. }
  unfold decomp_do. rewrite <- EU. fold D. set (Fr := rows_of F) in *. set (Wr := rows_of W) in *. fold n k.
  split; [|split; [|split]].
  - unfold bcast. rewrite length_np_repeat, length_np_tile. fold n k. rewrite Nat.eqb_refl. cbn [option_map].
    unfold n, k. rewrite map2_rep_tile. rewrite (reshape_flat (fun x => map (D x) Wr)) by (intros; apply map_length).
    eexists. split; [reflexivity|]. split; [apply map_length|]. split; [apply Forall_map, Forall_forall; intros; apply map_length|]. intros i j Hi Hj.
    rewrite (nth_indep _ [] (map (D []) Wr)) by (now rewrite map_length). rewrite (map_nth (fun x => map (D x) Wr)).
    rewrite (nth_indep _ 0%Q (D (nth i Fr []) [])) by (now rewrite map_length). apply (map_nth (D (nth i Fr []))).
  - intros H. unfold bcast. fold n k. rewrite H, Nat.eqb_refl. cbn [option_map]. eexists. split; [reflexivity|]. split; [rewrite length_map2; fold n k; lia|].
    intros i Hi. apply nth_map2; fold n k; lia.
  - intros H. unfold bcast. rewrite length_np_repeat. fold n k. rewrite H, Nat.mul_1_l, Nat.eqb_refl. cbn [option_map].
    assert (E : Fr = [f 0]) by (unfold f; destruct Fr as [|x [|y Fr']]; try discriminate H; reflexivity). rewrite E. unfold np_repeat. cbn [flat_map]. rewrite app_nil_r. unfold k. rewrite map2_repeat.
    eexists. split; [reflexivity|]. split; [apply map_length|]. intros j Hj. rewrite (nth_indep _ 0%Q (D (f 0) [])) by (now rewrite map_length). apply map_nth.
  - intros H. unfold bcast. rewrite length_np_repeat. fold n k. rewrite H, Nat.mul_1_l, Nat.eqb_refl. cbn [option_map].
    assert (E : Wr = [w 0]) by (unfold w; destruct Wr as [|x [|y Wr']]; try discriminate H; reflexivity). rewrite E. unfold n. rewrite map2_rep_r.
    eexists. split; [reflexivity|]. split; [apply map_length|]. intros i Hi. rewrite (nth_indep _ 0%Q (D [] (w 0))) by (now rewrite map_length). apply (map_nth (fun x => D x (w 0))).
Qed.
Print Assumptions C47_shapes.

(** which type "auto" chooses, for matrices with at least two columns (a vector counts as a matrix of one row) *)
Theorem C47_auto : forall sc rnd eps init F W ideal utop, 2 <= cols_of F -> 2 <= cols_of W ->
  let n := length (rows_of F) in let k := length (rows_of W) in
  decomp_do sc rnd eps init F W TAuto ideal utop =
  decomp_do sc rnd eps init F W (if (n =? 1) && negb (k =? 1) then TOneToMany else if negb (n =? 1) && (k =? 1) then TManyToOne else if (n =? k) && negb (n =? 1) then TOneToOne else TManyToMany) ideal utop.
Proof.
  intros sc rnd eps init F W ideal utop HF HW n k.
  assert (HN : forall a, 2 <= cols_of a -> ndim a = if length (rows_of a) =? 1 then 1 else 2).
  { intros [v|m r] H; cbn in *; auto. destruct (length r =? 1); cbn; auto. destruct (m =? 1) eqn:E; auto. apply Nat.eqb_eq in E. lia. }
  assert (HT : auto_type F W = if (n =? 1) && negb (k =? 1) then TOneToMany else if negb (n =? 1) && (k =? 1) then TManyToOne else if (n =? k) && negb (n =? 1) then TOneToOne else TManyToMany).
  { unfold auto_type. rewrite (HN F HF), (HN W HW). fold n k. destruct (n =? 1) eqn:E1; destruct (k =? 1) eqn:E2; cbn; auto. - now rewrite andb_false_r. - now rewrite andb_true_r. }
  unfold decomp_do at 1. rewrite HT. unfold decomp_do. destruct ((n =? 1) && negb (k =? 1)); auto. destruct (negb (n =? 1) && (k =? 1)); auto. destruct ((n =? k) && negb (n =? 1)); auto.
Qed.
Print Assumptions C47_auto.

(** the claim that a type given to the constructor is used *)
Theorem C47_init_type_refuted :
  ~ (forall sc rnd eps init F W ideal utop, init <> TAuto -> decomp_do sc rnd eps init F W TAuto ideal utop = decomp_do sc rnd eps init F W init ideal utop).
Proof.
  intros H. specialize (H (weighted_sum (fun x => x) (SNode (SLeaf 0) (SLeaf 1))) (fun x => x) 0%Q TManyToMany (A2 2 [[1; 2]; [3; 4]]%Q) (A2 2 [[1; 0]; [0; 1]]%Q) None None ltac:(discriminate)).
  vm_compute in H. discriminate.
Qed.
Print Assumptions C47_init_type_refuted.

(** ** values *)
Lemma q_max_spec x l : (exists i, i < S (length l) /\ q_max_list (x :: l) = nth i (x :: l) 0%Q) /\ forall i, i < S (length l) -> (nth i (x :: l) 0 <= q_max_list (x :: l))%Q.
Proof.
  cbn [q_max_list]. revert x. induction l as [|y l IH]; intros x; cbn [qmax length].
  - split; [exists 0; split; [lia|reflexivity]|]. intros [|i] H; [apply Qle_refl|lia].
  - destruct (IH (if Qle_bool x y then y else x)) as [(i & Hi & E) HB]. destruct (Qle_bool x y) eqn:Exy.
    + apply Qle_bool_iff in Exy. split; [exists (S i); split; [lia|exact E]|]. intros [|j] Hj; [specialize (HB 0 ltac:(lia)); cbn [nth] in *; lra|]. apply (HB j). lia.
    + assert (Hyx : (y <= x)%Q) by (destruct (Qlt_le_dec x y) as [Hl|Hl]; auto; assert (Qle_bool x y = true) by (apply Qle_bool_iff; lra); congruence).
      split; [destruct i as [|i]; [exists 0; split; [lia|exact E]|exists (S (S i)); split; [lia|exact E]]|].
      intros [|[|j]] Hj; [apply (HB 0); lia| |apply (HB (S j)); lia]. specialize (HB 0 ltac:(lia)). cbn [nth] in *. lra.
Qed.
Lemma q_max_is_max m l x : length l = m -> 1 <= m -> (forall i, i < m -> (nth i l 0%Q == x i)%Q) -> is_max m x (q_max_list l).
Proof.
  intros <- Hm Hx. destruct l as [|y l]; [cbn in Hm; lia|]. destruct (q_max_spec y l) as [(i & Hi & E) HB]. split.
  - exists i. split; auto. rewrite E. apply Hx. exact Hi.
  - intros j Hj. rewrite <- (Hx j Hj). apply HB. exact Hj.
Qed.
Fixpoint leaves (t : stree) : list nat := match t with SLeaf i => [i] | SNode a b => leaves a ++ leaves b end.
Lemma qsum_app_ a b : (qsum (a ++ b) == qsum a + qsum b)%Q.
Proof. unfold qsum. induction a as [|x a IH]; cbn [app fold_right]; [ring|]. rewrite IH. ring. Qed.
Lemma tsum_leaves t v : (tsum (fun x => x) t v == qsum (map (fun i => nth i v 0%Q) (leaves t)))%Q.
Proof. induction t as [i|a IHa b IHb]; cbn [tsum leaves map]; [cbn; ring|]. rewrite map_app, qsum_app_, IHa, IHb. reflexivity. Qed.
Lemma qsum_perm a b : Permutation a b -> (qsum a == qsum b)%Q.
Proof. unfold qsum. induction 1; cbn [fold_right] in *; lra. Qed.
Lemma sum_seq m x : (qsum (map x (seq 0 m)) == sum_upto m x)%Q.
Proof. induction m as [|m IH]; [reflexivity|]. rewrite seq_S, map_app, qsum_app_. cbn [sum_upto]. rewrite IH. cbn. ring. Qed.
Lemma sum_upto_ext m x y : (forall i, i < m -> (x i == y i)%Q) -> (sum_upto m x == sum_upto m y)%Q.
Proof. induction m as [|m IH]; intros H; [reflexivity|]. cbn [sum_upto]. rewrite IH by (intros; apply H; lia). rewrite (H m) by lia. reflexivity. Qed.
(** the additions of a row of [m] numbers use each of them once *)
Definition adds_all (m : nat) (t : stree) : Prop := Permutation (leaves t) (seq 0 m).
Lemma tsum_exact m t v x : adds_all m t -> (forall i, i < m -> (nth i v 0%Q == x i)%Q) -> (tsum (fun x => x) t v == sum_upto m x)%Q.
Proof. intros HP Hx. rewrite tsum_leaves. rewrite (qsum_perm _ _ (Permutation_map _ HP)), sum_seq. apply sum_upto_ext. exact Hx. Qed.

(** C47: exact values *)
Theorem C47_values : forall m t u f w, 1 <= m -> length u = m -> length f = m -> length w = m -> adds_all m t ->
  let f_ i := nth i f 0%Q in let u_ i := nth i u 0%Q in let w_ i := nth i w 0%Q in let id := fun x : Q => x in
  (weighted_sum id t u f w == sum_upto m (fun i => f_ i * w_ i))%Q /\
  is_max m (fun i => Qabs (f_ i - u_ i) * w_ i)%Q (tchebicheff id u f w) /\
  (forall w0, is_max m (fun i => (f_ i - u_ i) / (if Qeq_bool (w_ i) 0 then w0 else w_ i))%Q (asf id w0 u f w)) /\
  (forall rho w0 clip, exists a, is_max m (fun i => (f_ i - u_ i) / (if Qeq_bool (w_ i) 0 then w0 else w_ i))%Q a /\
     (aasf id t rho w0 clip u f w == a + rho * sum_upto m (fun i => (f_ i - u_ i) / (if Qle_bool clip (w_ i) then w_ i else clip)))%Q).
Proof.
  intros m t u f w Hm Hu Hf Hw HT f_ u_ w_ id.
  assert (HA : forall w0, is_max m (fun i => (f_ i - u_ i) / (if Qeq_bool (w_ i) 0 then w0 else w_ i))%Q (asf id w0 u f w)).
  { intros w0. unfold asf. apply q_max_is_max; auto; [rewrite !length_map2, map_length; lia|]. intros i Hi.
    rewrite (nth_map2 _ _ _ _ _ 0%Q w0) by (rewrite ?length_map2, ?map_length; lia). rewrite (nth_map2 _ _ _ _ _ 0%Q 0%Q) by lia.
    rewrite (nth_indep _ w0 (if Qeq_bool 0 0 then w0 else 0%Q)) by (rewrite map_length; lia). rewrite (map_nth (fun x => if Qeq_bool x 0 then w0 else x)). reflexivity. }
  split; [|split; [|split]]; auto.
  - unfold weighted_sum. apply tsum_exact; auto. intros i Hi. rewrite (nth_map2 _ _ _ _ _ 0%Q 0%Q) by lia. reflexivity.
  - unfold tchebicheff. apply q_max_is_max; auto; [rewrite !length_map2; lia|]. intros i Hi.
    rewrite (nth_map2 _ _ _ _ _ 0%Q 0%Q) by (rewrite ?length_map2; lia). rewrite (nth_map2 _ _ _ _ _ 0%Q 0%Q) by lia.
    assert (HQ : (qabs (id (nth i f 0 - nth i u 0)) == Qabs (f_ i - u_ i))%Q); [|cbn beta; unfold id in *; now rewrite HQ].
    unfold qabs, id, f_, u_. destruct (Qle_bool 0 (nth i f 0 - nth i u 0)%Q) eqn:E.
    + apply Qle_bool_iff in E. now rewrite Qabs_pos.
    + assert (nth i f 0 - nth i u 0 <= 0)%Q by (destruct (Qlt_le_dec (nth i f 0 - nth i u 0)%Q 0%Q) as [Hl|Hl]; [lra|apply Qle_bool_iff in Hl; congruence]). now rewrite Qabs_neg.
  - intros rho w0 clip. exists (asf id w0 u f w). split; auto. unfold aasf. unfold id at 1. apply Qplus_comp; [reflexivity|]. unfold id at 1. apply Qmult_comp; [reflexivity|].
    apply tsum_exact; auto. intros i Hi. rewrite (nth_map2 _ _ _ _ _ 0%Q clip) by (rewrite ?length_map2, ?map_length; lia). rewrite (nth_map2 _ _ _ _ _ 0%Q 0%Q) by lia.
    rewrite (nth_indep _ clip ((fun x => if Qle_bool clip x then x else clip) 0%Q)) by (rewrite map_length; lia). rewrite (map_nth (fun x => if Qle_bool clip x then x else clip)). reflexivity.
Qed.
Print Assumptions C47_values.

(** ** monotonicity, in rounded arithmetic *)
Lemma Forall2_length {A B} (R : A -> B -> Prop) l m : Forall2 R l m -> length l = length m.
Proof. induction 1; cbn; congruence. Qed.
Lemma F2_nth a b : weakly_le a b -> length a = length b /\ forall i, (nth i a 0 <= nth i b 0)%Q.
Proof. intros H. split; [now apply Forall2_length in H|]. induction H; intros [|i]; cbn [nth]; try lra; auto. Qed.
Lemma tsum_mono rnd t a b : rounding rnd -> (forall i, nth i a 0 <= nth i b 0)%Q -> (tsum rnd t a <= tsum rnd t b)%Q.
Proof. intros [HR _] H. induction t as [i|x IHx y IHy]; cbn [tsum]; [apply H|]. apply HR. lra. Qed.
Lemma qmax_mono a b : weakly_le a b -> (q_max_list a <= q_max_list b)%Q.
Proof.
  intros H. destruct (F2_nth a b H) as [HL HN]. destruct a as [|x a]; destruct b as [|y b]; try discriminate HL; [apply Qle_refl|].
  destruct (q_max_spec x a) as [(i & Hi & ->) _]. destruct (q_max_spec y b) as [_ HB]. injection HL as HL. specialize (HB i ltac:(lia)). specialize (HN i). lra.
Qed.
Lemma map2_wle (h h' : Q -> Q -> Q) a b w : weakly_le a b -> length w = length a -> (forall x y z, In z w -> In x a -> x <= y -> h x z <= h' y z)%Q -> weakly_le (map2 h a w) (map2 h' b w).
Proof.
  intros H. revert w. induction H as [|x y a b Hxy H IH]; intros [|z w] HL Hm; try discriminate; cbn [map2]; constructor; [apply Hm; cbn; auto|]. apply IH; [now injection HL|]. intros; apply Hm; cbn; auto.
Qed.
Lemma wle_refl a : weakly_le a a.
Proof. induction a; constructor; auto. apply Qle_refl. Qed.
Lemma sub_wle rnd u f g : rounding rnd -> weakly_le f g -> length u = length f -> weakly_le (map2 (fun a b => rnd (a - b)%Q) f u) (map2 (fun a b => rnd (a - b)%Q) g u).
Proof. intros [HR _] H HL. apply map2_wle; auto. intros; apply HR. lra. Qed.
Lemma wle_nth_map2 (h : Q -> Q -> Q) a w i : h 0%Q 0%Q = 0%Q -> length a = length w -> nth i (map2 h a w) 0%Q = h (nth i a 0%Q) (nth i w 0%Q).
Proof. intros Hz HL. destruct (lt_dec i (length a)); [apply nth_map2; lia|]. rewrite !nth_overflow; auto; rewrite ?length_map2; lia. Qed.
Lemma div_wle rnd a b w : rounding rnd -> weakly_le a b -> length w = length a -> Forall (fun x => 0 < x)%Q w -> weakly_le (map2 (fun x y => rnd (x / y)%Q) a w) (map2 (fun x y => rnd (x / y)%Q) b w).
Proof.
  intros [HR _] H HL HP. apply map2_wle; auto. intros x y z Hz _ Hxy. apply HR. rewrite Forall_forall in HP. specialize (HP z Hz). cbn beta in HP. unfold Qdiv.
  assert (0 <= / z)%Q by (apply Qinv_le_0_compat; lra). apply Qmult_le_compat_r; auto.
Qed.
Lemma asf_mono rnd w0 u f g w : rounding rnd -> weakly_le f g -> length u = length f -> length w = length f -> Forall (fun x => 0 <= x)%Q w -> (0 < w0)%Q -> (asf rnd w0 u f w <= asf rnd w0 u g w)%Q.
Proof.
  intros HR H Hu Hw HP H0. unfold asf. apply qmax_mono, div_wle; auto; [apply sub_wle; auto|rewrite map_length, length_map2; lia|].
  apply Forall_map. rewrite Forall_forall in *. intros x Hx. specialize (HP x Hx). cbn beta in *. destruct (Qeq_bool x 0%Q) eqn:E; auto. assert (~ x == 0)%Q by (intros HE; apply Qeq_bool_iff in HE; congruence). lra.
Qed.
Lemma wle_length a b : weakly_le a b -> length a = length b. Proof. intros H. now apply Forall2_length in H. Qed.

(** C47: a point that is no worse in every objective never gets a larger value; arithmetic may be rounded *)
Theorem C47_monotone : forall rnd t u f g w, rounding rnd -> weakly_le f g -> length u = length f -> length w = length f -> Forall (fun x => 0 <= x)%Q w ->
  (weighted_sum rnd t u f w <= weighted_sum rnd t u g w)%Q /\
  (weakly_le u f -> (tchebicheff rnd u f w <= tchebicheff rnd u g w)%Q) /\
  (forall w0, 0 < w0 -> asf rnd w0 u f w <= asf rnd w0 u g w)%Q /\
  (forall rho w0 clip, 0 <= rho -> 0 < w0 -> 0 < clip -> aasf rnd t rho w0 clip u f w <= aasf rnd t rho w0 clip u g w)%Q.
Proof.
  intros rnd t u f g w HR H Hu Hw HP. pose proof HR as [HR1 HR0]. split; [|split; [|split]].
  - unfold weighted_sum. apply tsum_mono; auto. apply F2_nth. apply map2_wle; auto. intros x y z Hz _ Hxy. apply HR1. rewrite Forall_forall in HP. apply Qmult_le_compat_r; [auto|now apply HP].
  - intros Huf. unfold tchebicheff. apply qmax_mono. apply map2_wle; [|rewrite length_map2; lia|].
    + clear Hw HP. revert g H Hu. induction Huf as [|a b u f Hab Huf IH]; intros g H Hu; inversion H; subst; cbn [map2]; constructor; [|apply IH; auto].
      assert (rnd 0%Q <= rnd (b - a)%Q)%Q by (apply HR1; lra). assert (rnd (b - a) <= rnd (y - a))%Q by (apply HR1; lra). rewrite HR0 in H0.
      unfold qabs. replace (Qle_bool 0%Q (rnd (b - a)%Q)) with true by (symmetry; now apply Qle_bool_iff). replace (Qle_bool 0%Q (rnd (y - a)%Q)) with true by (symmetry; apply Qle_bool_iff; lra). auto.
    + intros x y z Hz _ Hxy. apply HR1. rewrite Forall_forall in HP. apply Qmult_le_compat_r; [auto|now apply HP].
  - intros w0 H0. apply asf_mono; auto.
  - intros rho w0 clip Hr H0 Hc. unfold aasf. apply HR1. apply Qplus_le_compat; [apply asf_mono; auto|]. apply HR1. rewrite !(Qmult_comm rho). apply Qmult_le_compat_r; auto.
    apply tsum_mono; auto. apply F2_nth, div_wle; auto; [apply sub_wle; auto|rewrite map_length, length_map2; lia|].
    apply Forall_map, Forall_forall. intros x _. destruct (Qle_bool clip x) eqn:E; auto. apply Qle_bool_iff in E. lra.
Qed.
Print Assumptions C47_monotone.

Lemma sum_upto_le m x y : (forall i, i < m -> (x i <= y i)%Q) -> (sum_upto m x <= sum_upto m y)%Q.
Proof. induction m as [|m IH]; intros H; cbn [sum_upto]; [lra|]. specialize (IH ltac:(intros; apply H; lia)). specialize (H m ltac:(lia)). lra. Qed.
Lemma sum_upto_lt m x y k : k < m -> (forall i, i < m -> (x i <= y i)%Q) -> (x k < y k)%Q -> (sum_upto m x < sum_upto m y)%Q.
Proof.
  induction m as [|m IH]; intros Hk H Hx; [lia|]. cbn [sum_upto]. destruct (Nat.eq_dec k m) as [->|Hne].
  - pose proof (sum_upto_le m x y ltac:(intros; apply H; lia)). lra.
  - specialize (IH ltac:(lia) ltac:(intros; apply H; lia) Hx). specialize (H m ltac:(lia)). lra.
Qed.
Lemma is_max_lt m x y v v' : is_max m x v -> is_max m y v' -> (forall i, i < m -> (x i < y i)%Q) -> (v < v')%Q.
Proof. intros [(i & Hi & E) _] [_ HB] H. specialize (H i Hi). specialize (HB i Hi). lra. Qed.
(** C47: exact arithmetic.  Weighted sum with positive weights and AASF with a positive rho strictly prefer a dominating point; Tchebicheff (positive
    weights) and ASF strictly prefer a point that is better everywhere *)
Theorem C47_strict : forall m t u f g w, 1 <= m -> length u = m -> length f = m -> length w = m -> adds_all m t -> let id := fun x : Q => x in
  (pareto_lt f g -> Forall (fun x => 0 < x)%Q w -> (weighted_sum id t u f w < weighted_sum id t u g w)%Q) /\
  (pareto_lt f g -> Forall (fun x => 0 <= x)%Q w -> forall rho w0 clip, 0 < rho -> 0 < w0 -> 0 < clip -> aasf id t rho w0 clip u f w < aasf id t rho w0 clip u g w)%Q /\
  (strictly_lt f g -> weakly_le u f -> Forall (fun x => 0 < x)%Q w -> (tchebicheff id u f w < tchebicheff id u g w)%Q) /\
  (strictly_lt f g -> Forall (fun x => 0 <= x)%Q w -> forall w0, 0 < w0 -> asf id w0 u f w < asf id w0 u g w)%Q.
Proof.
  intros m t u f g w Hm Hu Hf Hw HT id. split; [|split; [|split]].
  - intros [H (k & Hk & Hlt)] HP. destruct (F2_nth f g H) as [HL HN]. assert (Hg : length g = m) by lia.
    destruct (C47_values m t u f w Hm Hu Hf Hw HT) as [E1 _]. destruct (C47_values m t u g w Hm Hu Hg Hw HT) as [E2 _]. cbn zeta in E1, E2. fold id in E1, E2. rewrite E1, E2.
    assert (HPn : forall i, i < m -> (0 < nth i w 0)%Q) by (intros i Hi; rewrite Forall_forall in HP; apply HP, nth_In; lia).
    apply (sum_upto_lt m _ _ k); [lia| |].
    + intros i Hi. specialize (HPn i Hi). apply Qmult_le_compat_r; [apply HN|lra].
    + specialize (HPn k ltac:(lia)). apply Qmult_lt_r; auto.
  - intros [H (k & Hk & Hlt)] HP rho w0 clip Hr H0 Hc. destruct (F2_nth f g H) as [HL HN]. assert (Hg : length g = m) by lia.
    destruct (C47_values m t u f w Hm Hu Hf Hw HT) as (_ & _ & _ & E1). destruct (C47_values m t u g w Hm Hu Hg Hw HT) as (_ & _ & _ & E2). cbn zeta in E1, E2.
    assert (HRid : rounding id) by (split; unfold id; intros; [auto|reflexivity]).
    assert (HA : (asf id w0 u f w <= asf id w0 u g w)%Q) by (apply asf_mono; auto; lia).
    destruct (E1 rho w0 clip) as (a & Ha & EA). destruct (E2 rho w0 clip) as (b & Hb & EB). fold id in EA, EB. rewrite EA, EB.
    assert (Hab : (a <= b)%Q).
    { destruct Ha as [(i & Hi & Ei) _]. destruct Hb as [_ HB]. rewrite Ei. eapply Qle_trans; [|apply (HB i Hi)]. cbn beta.
      unfold Qdiv. apply Qmult_le_compat_r; [specialize (HN i); lra|]. apply Qinv_le_0_compat. destruct (Qeq_bool (nth i w 0%Q) 0%Q); [lra|]. rewrite Forall_forall in HP. apply HP, nth_In. lia. }
    match goal with |- (_ + rho * ?s < _ + rho * ?s')%Q => assert (HS : (s < s')%Q) end; [|assert (HM : (0 < rho)%Q) by auto; nra].
    assert (HC : forall i, i < m -> (0 < / (if Qle_bool clip (nth i w 0) then nth i w 0 else clip))%Q).
    { intros i Hi. apply Qinv_lt_0_compat. destruct (Qle_bool clip (nth i w 0%Q)) eqn:E; auto. apply Qle_bool_iff in E. lra. }
    apply (sum_upto_lt m _ _ k); [lia| |]; unfold Qdiv.
    + intros i Hi. specialize (HC i Hi). specialize (HN i). apply Qmult_le_compat_r; lra.
    + specialize (HC k ltac:(lia)). apply Qmult_lt_r; [auto|lra].
  - intros H Huf HP. assert (Hg : length g = m) by (apply Forall2_length in H; lia).
    destruct (C47_values m t u f w Hm Hu Hf Hw HT) as (_ & E1 & _). destruct (C47_values m t u g w Hm Hu Hg Hw HT) as (_ & E2 & _). cbn zeta in E1, E2. fold id in E1, E2.
    apply (is_max_lt _ _ _ _ _ E1 E2). intros i Hi. destruct (F2_nth u f Huf) as [_ HUF]. specialize (HUF i).
    assert (Hlt : (nth i f 0 < nth i g 0)%Q) by (clear -H Hi Hf; revert i m Hi Hf; induction H as [|a b f g Hab H IH]; intros i m Hi Hf; [cbn in Hf; lia|]; destruct i; cbn [nth]; auto; cbn in Hf; apply (IH i (pred m)); lia).
    rewrite !Qabs_pos by lra. apply Qmult_lt_r; [rewrite Forall_forall in HP; apply HP, nth_In; lia|lra].
  - intros H HP w0 H0. assert (Hg : length g = m) by (apply Forall2_length in H; lia).
    destruct (C47_values m t u f w Hm Hu Hf Hw HT) as (_ & _ & E1 & _). destruct (C47_values m t u g w Hm Hu Hg Hw HT) as (_ & _ & E2 & _). cbn zeta in E1, E2. specialize (E1 w0). specialize (E2 w0). fold id in E1, E2.
    apply (is_max_lt _ _ _ _ _ E1 E2). intros i Hi.
    assert (Hlt : (nth i f 0 < nth i g 0)%Q) by (clear -H Hi Hf; revert i m Hi Hf; induction H as [|a b f g Hab H IH]; intros i m Hi Hf; [cbn in Hf; lia|]; destruct i; cbn [nth]; auto; cbn in Hf; apply (IH i (pred m)); lia).
    unfold Qdiv. apply Qmult_lt_r; [|lra]. apply Qinv_lt_0_compat. destruct (Qeq_bool (nth i w 0%Q) 0%Q) eqn:E; auto.
    assert (~ nth i w 0 == 0)%Q by (intros HE; apply Qeq_bool_iff in HE; congruence). assert (0 <= nth i w 0)%Q by (rewrite Forall_forall in HP; apply HP, nth_In; lia). lra.
Qed.
Print Assumptions C47_strict.

(** PBI (theta = 5): the claim fails, a dominated point can get a smaller value; [sq] any square root that is exact on squares *)
Theorem C47_pbi_refuted : forall sq, (forall x y, 0 <= x -> y == x * x -> sq y == x)%Q ->
  ~ (forall u f g w, weakly_le u f -> pareto_lt f g -> length u = length f -> length w = length f -> Forall (fun x => 0 <= x)%Q w -> (pbi sq 5 u f w <= pbi sq 5 u g w)%Q).
Proof.
  intros sq HS HH. specialize (HH [0; 0]%Q [0; 4]%Q [3; 4]%Q [3; 4]%Q).
  assert (Hp : pareto_lt [0; 4]%Q [3; 4]%Q) by (split; [repeat constructor; unfold Qle; cbn; lia|exists 0; cbn; split; [lia|unfold Qlt; cbn; lia]]).
  specialize (HH ltac:(repeat constructor; unfold Qle; cbn; lia) Hp eq_refl eq_refl ltac:(repeat constructor; unfold Qle; cbn; lia)).
  unfold pbi, distance_to_weights, norm2, qsum in HH. cbn [map map2 fold_right] in HH.
  assert (E5 : (sq (3 * 3 + (4 * 4 + 0)) == 5)%Q) by (apply HS; unfold Qle, Qeq; cbn; lia).
  set (n := sq (3 * 3 + (4 * 4 + 0))%Q) in *.
  rewrite (HS (12 # 5)%Q) in HH by (try (rewrite !E5); unfold Qle, Qeq; cbn; lia).
  rewrite (HS 0%Q) in HH by (try (rewrite !E5); unfold Qle, Qeq; cbn; lia).
  rewrite !E5 in HH. unfold Qle in HH; cbn in HH; lia.
Qed.
Print Assumptions C47_pbi_refuted.

(** cases *)
Example C47_case : rounding (fun x => inject_Z (Qfloor x)) /\ rounding (fun x => x) /\ adds_all 2 (SNode (SLeaf 0) (SLeaf 1)) /\ pareto_lt [1; 2]%Q [1; 3]%Q /\
  (exists v, decomp_do (asf (fun x => x) (1 # 10000000000)) (fun x => x) 0%Q TAuto (A2 2 [[1; 2]; [4; 1]; [2; 2]]%Q) (A1 [1 # 2; 1 # 2]%Q) TAuto None None = Some (D1 v) /\ Forall2 Qeq v [4; 8; 4]%Q).
Proof.
  split; [split; [intros a b H; rewrite <- Zle_Qle; now apply Qfloor_resp_le|reflexivity]|]. split; [split; [auto|reflexivity]|]. split; [apply Permutation_refl|].
  split; [split; [repeat constructor; unfold Qle; cbn; lia|exists 1; cbn; split; [lia|unfold Qlt; cbn; lia]]|].
  eexists. split; [vm_compute; reflexivity|]. repeat constructor.
Qed.
