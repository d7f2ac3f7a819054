(** * C24 (mask based crossovers) and C25 (crossover contract) *)
From Coq Require Import List Arith Bool QArith Lia Permutation.
From Verif Require Import ListAux M_Cross S_Cross P_Perm P_Cross.
Import ListNotations.
Local Open Scope nat_scope.

(** uniform crossover: swapped exactly where the drawn number is below 1/2 *)
Theorem C24_uniform : forall (A : Type) (d : A) p0 p1 draws, length p0 = length p1 -> length draws = length p0 ->
  swapped d p0 p1 (fst (ux d p0 p1 draws)) (snd (ux d p0 p1 draws)) (fun i => (nth i draws 0 < 1 # 2)%Q).
Proof.
  intros A d p0 p1 draws HL HD. apply crossover_mask_swapped; auto. intros i Hi.
  rewrite (nth_indep _ false (Qlt_b 0 (1 # 2))) by (rewrite map_length; lia).
  rewrite (map_nth (fun r => Qlt_b r (1 # 2))). apply Qlt_b_iff.
Qed.

(** half-uniform crossover: swapped on a set of ceil(k/2) of the k differing positions *)
Theorem C24_half_uniform : forall (A : Type) (d : A) (neq : A -> A -> bool) p0 p1 perm, length p0 = length p1 ->
  let dif := filter (fun i => neq (nth i p0 d) (nth i p1 d)) (seq 0 (length p0)) in
  Permutation perm (seq 0 (length dif)) ->
  exists S, NoDup S /\ length S = (length dif + 1) / 2 /\ (forall i, In i S -> In i dif) /\
    swapped d p0 p1 (fst (hux d neq p0 p1 perm)) (snd (hux d neq p0 p1 perm)) (fun i => In i S).
Proof.
  intros A d neq p0 p1 perm HL dif HP. destruct (hux_mask_spec d neq p0 p1 perm HP) as (S & H1 & H2 & H3 & H4).
  exists S. repeat split; auto; apply (crossover_mask_swapped d p0 p1 (hux_mask d neq p0 p1 perm) (fun i => In i S)); auto.
Qed.

(** ... hence each child differs from "its" parent in exactly ceil(k/2) positions (for [neq] = "different") *)
Theorem C24_half_uniform_distance : forall (A : Type) (d : A) (eq_dec : forall x y : A, {x = y} + {x <> y}) p0 p1 perm,
  length p0 = length p1 ->
  let neq := fun x y => if eq_dec x y then false else true in
  let k := length (filter (fun i => neq (nth i p0 d) (nth i p1 d)) (seq 0 (length p0))) in
  Permutation perm (seq 0 k) ->
  let dist p c := length (filter (fun i => neq (nth i p d) (nth i c d)) (seq 0 (length p0))) in
  dist p0 (fst (hux d neq p0 p1 perm)) = (k + 1) / 2 /\ dist p1 (snd (hux d neq p0 p1 perm)) = (k + 1) / 2.
Proof.
  intros A d eq_dec p0 p1 perm HL neq k HP dist.
  destruct (C24_half_uniform A d neq p0 p1 perm HL HP) as (S & HN & HS & HI & (L0 & L1 & HW)).
  assert (Hd : forall i, In i S -> i < length p0 /\ nth i p0 d <> nth i p1 d).
  { intros i Hi. apply HI, filter_In in Hi as [Hi1 Hi2]. apply in_seq in Hi1. unfold neq in Hi2.
    destruct (eq_dec (nth i p0 d) (nth i p1 d)); [discriminate|]. split; auto; lia. }
  assert (Hneq : forall x y, neq x y = true <-> x <> y) by (intros x y; unfold neq; destruct (eq_dec x y); split; congruence).
  unfold dist. fold k in HS. rewrite <- HS. clearbody neq. split; apply Permutation_length, NoDup_Permutation; auto;
    try (apply NoDup_filter, seq_NoDup); intros i; rewrite filter_In, in_seq, Hneq; split.
  - intros [Hi Hne]. destruct (in_dec Nat.eq_dec i S) as [|Hn]; auto. exfalso.
    destruct (HW i ltac:(lia)) as [_ HW2]. destruct (HW2 Hn) as [E _]. congruence.
  - intros Hi. destruct (Hd i Hi) as [Hi1 Hi2]. split; [lia|]. destruct (HW i ltac:(lia)) as [HW1 _]. destruct (HW1 Hi) as [E _]. congruence.
  - intros [Hi Hne]. destruct (in_dec Nat.eq_dec i S) as [|Hn]; auto. exfalso.
    destruct (HW i ltac:(lia)) as [_ HW2]. destruct (HW2 Hn) as [_ E]. congruence.
  - intros Hi. destruct (Hd i Hi) as [Hi1 Hi2]. split; [lia|]. destruct (HW i ltac:(lia)) as [HW1 _]. destruct (HW1 Hi) as [_ E]. congruence.
Qed.

(** k-point crossover: the cut points are k (at most n-1) different positions in 1..n-1, and a position is swapped iff an odd number of
    cuts lies at or before it *)
Theorem C24_point : forall (A : Type) (d : A) n_points p0 p1 perm,
  length p0 = length p1 -> Permutation perm (seq 0 (length p0 - 1)) ->
  exists cuts, NoDup cuts /\ length cuts = Nat.min n_points (length p0 - 1) /\ (forall c, In c cuts -> 1 <= c < length p0) /\
    swapped d p0 p1 (fst (point_crossover d n_points p0 p1 perm)) (snd (point_crossover d n_points p0 p1 perm))
      (fun i => Nat.odd (length (filter (fun c => c <=? i) cuts)) = true).
Proof.
  intros A d n_points p0 p1 perm HL HP. exists (firstn n_points (map (fun p => p + 1) perm)).
  assert (HN : NoDup (map (fun p => p + 1) perm)).
  { apply NoDup_map_inj; [intros; lia|]. eapply perm_seq_NoDup; eauto. }
  split; [|split; [|split]].
  - rewrite <- (firstn_skipn n_points) in HN. apply NoDup_app_iff in HN; tauto.
  - rewrite firstn_length, map_length, (perm_seq_length _ _ HP). auto.
  - intros c Hc. assert (In c (map (fun p => p + 1) perm)). { rewrite <- (firstn_skipn n_points). apply in_or_app; auto. }
    apply in_map_iff in H as (p & <- & Hp). apply (perm_seq_In _ _ p HP) in Hp. lia.
  - apply crossover_mask_swapped; auto. intros i Hi. rewrite point_mask_spec by auto. reflexivity.
Qed.

(** exponential crossover: a cyclic run starting at [start], as long as the drawn numbers stay below the probability; one random position
    if the run is empty *)
Theorem C24_exponential : forall (A : Type) (d : A) p0 p1 start prob draws r,
  length p0 = length p1 -> r < length p0 ->
  exists L, L <= length p0 /\ (forall j, j < L -> (draws j <= prob)%Q) /\ (L < length p0 -> ~ (draws L <= prob)%Q) /\
    swapped d p0 p1 (fst (exponential_crossover d p0 p1 start prob draws r)) (snd (exponential_crossover d p0 p1 start prob draws r))
      (fun i => (exists j, j < L /\ i = (start + j) mod length p0) \/ (L = 0 /\ i = r)).
Proof.
  intros A d p0 p1 start prob draws r HL Hr. set (n := length p0) in *.
  destruct (exp_run_spec n start prob draws ltac:(lia) n 0 (repeat false n) (repeat_length _ _)) as (L & H1 & H2 & H3 & H4 & H5).
  exists L. split; [lia|]. split; [intros; apply H2; lia|]. split; [intros; apply H3; lia|].
  apply crossover_mask_swapped; auto. intros i Hi. unfold mut_exp. fold n. rewrite row_once_spec by lia. rewrite H5, nth_repeat_false. split.
  - intros [[C|(k & Hk & ->)]|[HA ->]]; [discriminate| |].
    + left; exists k; split; auto; lia.
    + right; split; auto. destruct L; auto. exfalso.
      specialize (HA ((start + 0) mod n)). assert (nth ((start + 0) mod n) (exp_run n start prob draws n 0 (repeat false n)) false = true).
      { apply H5. right; exists 0; split; auto; lia. } congruence.
  - intros [(j & Hj & ->)|[-> ->]]; [left; right; exists j; split; auto; lia|].
    right; split; auto. intros k. destruct (nth k _ false) eqn:E; auto. apply H5 in E as [E|(j & Hj & _)]; [|lia].
    rewrite nth_repeat_false in E; auto.
Qed.

(** binomial crossover: the genes are kept where the drawn number is below the bias (or at one random position if there is none), and
    swapped elsewhere; with one offspring only the first child is produced *)
Theorem C24_binomial : forall (A : Type) (d : A) p0 p1 draws bias r,
  length p0 = length p1 -> length draws = length p0 -> r < length p0 ->
  exists c0 c1,
    binomial_crossover d 2 p0 p1 draws bias r = Some [c0; c1] /\ binomial_crossover d 1 p0 p1 draws bias r = Some [c0] /\
    swapped d p0 p1 c0 c1
      (fun i => ~ ((nth i draws 0 < bias)%Q \/ (i = r /\ forall k, k < length p0 -> ~ (nth k draws 0 < bias)%Q))).
Proof.
  intros A d p0 p1 draws bias r HL HD Hr. unfold binomial_crossover. cbn [Nat.eqb].
  set (M := mut_binomial draws bias true r). exists (masked d p0 p1 (map negb M)), (masked d p1 p0 (map negb M)). split; auto. split; auto.
  assert (HM : forall i, i < length p0 -> (nth i M false = true <->
     ((nth i draws 0 < bias)%Q \/ (i = r /\ forall k, k < length p0 -> ~ (nth k draws 0 < bias)%Q)))).
  { intros i Hi. assert (Hb : forall k, k < length p0 -> nth k (map (fun u => Qlt_b u bias) draws) false = Qlt_b (nth k draws 0%Q) bias).
    { intros k Hk. rewrite (nth_indep _ false (Qlt_b 0%Q bias)) by (rewrite map_length; lia). apply (map_nth (fun u => Qlt_b u bias)). }
    unfold M, mut_binomial. rewrite row_once_spec by (rewrite map_length; lia). rewrite Hb, Qlt_b_iff by auto.
    apply or_iff_compat_l. split.
    - intros [H ->]. split; auto. intros k Hk C. specialize (H k). rewrite Hb in H by auto. apply Qlt_b_iff in C. congruence.
    - intros [-> H]. split; auto. intros k. destruct (Nat.lt_ge_cases k (length p0)).
      + rewrite Hb by auto. destruct (Qlt_b (nth k draws 0%Q) bias) eqn:E; auto. apply Qlt_b_iff in E. exfalso; eapply H; eauto.
      + apply nth_overflow. rewrite map_length; lia. }
  apply (crossover_mask_swapped d p0 p1 (map negb M)); auto. intros i Hi.
  assert (HlM : length M = length p0). { unfold M, mut_binomial. rewrite row_once_length, map_length; auto. }
  rewrite (nth_indep _ false (negb false)) by (rewrite map_length; lia). rewrite map_nth, negb_true_iff, <- HM by auto.
  destruct (nth i M false); split; congruence.
Qed.

(** ** C25 *)
Theorem C25_do : forall (A : Type) (d : A) n_parents n_offsprings (X : list (list A)) cross Qo choice perms,
  0 < n_parents -> length cross = length X ->
  (forall k, k < length X -> length (nth k X []) = n_parents) ->
  (forall k, Permutation (choice k) (seq 0 n_parents)) -> (forall k j, Permutation (perms k j) (seq 0 n_parents)) ->
  let off := crossover_do d n_parents n_offsprings X cross Qo choice perms in
  length off = n_offsprings * length X /\
  (* executed: the operator's children *)
  (forall o k, o < n_offsprings -> k < length X -> nth k cross false = true -> nth (o * length X + k) off d = Qo o k) /\
  (* not executed: copies of parents, distinct ones if there are fewer offspring than parents, all in order if equally many,
     and balanced if there are more *)
  (forall k, k < length X -> nth k cross false = false ->
     exists s, length s = n_offsprings /\ (forall o, o < n_offsprings -> nth o s 0 < n_parents) /\
       (forall o, o < n_offsprings -> nth (o * length X + k) off d = nth (nth o s 0) (nth k X []) d) /\
       (n_offsprings < n_parents -> NoDup s) /\ (n_offsprings = n_parents -> s = seq 0 n_parents) /\ balanced n_parents s).
Proof.
  intros A d np no X cross Qo choice perms Hnp Hc HX Hch Hpm. cbn zeta. unfold crossover_do.
  set (m := length X).
  assert (Hrow : forall o, length (map (fun k => if nth k cross false then Qo o k
       else nth (nth o (parent_idx np no (choice k) (perms k)) 0) (nth k X []) d) (seq 0 m)) = m)
    by (intros; rewrite map_length, seq_length; auto).
  split; [|split].
  - rewrite (flat_map_length_const _ _ m); [rewrite seq_length; auto|]. intros; apply Hrow.
  - intros o k Ho Hk E. rewrite (flat_map_nth _ no m 0 o k) by auto. simpl. rewrite nth_map_seq0, E by auto. auto.
  - intros k Hk E. exists (parent_idx np no (choice k) (perms k)).
    assert (Hs : length (parent_idx np no (choice k) (perms k)) = no /\
                 (forall x, In x (parent_idx np no (choice k) (perms k)) -> x < np) /\
                 (no < np -> NoDup (parent_idx np no (choice k) (perms k))) /\
                 (no = np -> parent_idx np no (choice k) (perms k) = seq 0 np) /\
                 balanced np (parent_idx np no (choice k) (perms k))).
    { unfold parent_idx. destruct (Nat.ltb_spec no np).
      - pose proof (perm_seq_length _ _ (Hch k)) as HL. repeat split.
        + rewrite firstn_length; lia.
        + intros x Hx. apply (perm_seq_In _ _ x (Hch k)). rewrite <- (firstn_skipn no). apply in_or_app; auto.
        + intros _. pose proof (perm_seq_NoDup _ _ (Hch k)) as HN. rewrite <- (firstn_skipn no) in HN. apply NoDup_app_iff in HN; tauto.
        + lia.
        + pose proof (balanced_prefix np [choice k] no) as HB. simpl in HB. rewrite app_nil_r in HB. apply HB. constructor; auto.
      - destruct (Nat.eqb_spec no np).
        + subst. repeat split; auto.
          * apply seq_length.
          * intros x Hx; apply in_seq in Hx; lia.
          * intros; apply seq_NoDup.
          * intros i j Hi Hj. rewrite !(count_perm_seq (seq 0 np) np) by auto. lia.
        + destruct (fill_perms_concat no np (perms k) Hnp (fun j => perm_seq_length _ _ (Hpm k j)) no 0 []) as (t & Et & Hlt); [simpl; lia|].
          rewrite Et in Hlt |- *. simpl app in *. repeat split; try lia.
          * rewrite firstn_length; lia.
          * intros x Hx. assert (HI : In x (concat (map (perms k) (seq 0 t)))). { rewrite <- (firstn_skipn no). apply in_or_app; auto. }
            apply in_concat in HI as (l & Hl & Hxl). apply in_map_iff in Hl as (j & <- & _). apply (perm_seq_In _ _ x (Hpm k j)); auto.
          * apply balanced_prefix. apply Forall_forall. intros l Hl. apply in_map_iff in Hl as (j & <- & _). auto. }
    destruct Hs as (S1 & S2 & S3 & S4 & S5). split; auto. split; [intros o Ho; apply S2, nth_In; lia|]. split; [|auto].
    intros o Ho. rewrite (flat_map_nth _ no m 0 o k) by auto. simpl. rewrite nth_map_seq0, E by auto. auto.
Qed.

(** "evenly often": with n_offsprings = q * n_parents every parent is copied exactly q times *)
Theorem C25_evenly : forall m l q, 0 < m -> balanced m l -> (forall x, In x l -> x < m) -> length l = q * m ->
  forall i, i < m -> count_occ Nat.eq_dec l i = q.
Proof.
  intros m l q Hm HB HI HL i Hi.
  (* the counts sum up to the length *)
  assert (Hsum : forall l, (forall x, In x l -> x < m) -> list_sum (map (count_occ Nat.eq_dec l) (seq 0 m)) = length l).
  { clear. induction l as [|a l IH]; intros HI.
    - simpl. induction (seq 0 m); simpl; auto.
    - cbn [length]. rewrite <- IH by (intros; apply HI; simpl; auto).
      assert (Ha : In a (seq 0 m)) by (apply in_seq; split; [lia|apply HI; simpl; auto]).
      assert (HN := seq_NoDup m 0). revert Ha HN. generalize (seq 0 m). clear.
      induction l0 as [|b l0 IHl]; intros Ha HN; [destruct Ha|]. inversion HN; subst. cbn [map list_sum fold_right].
      change (fold_right Nat.add 0 (map (count_occ Nat.eq_dec (a :: l)) l0)) with (list_sum (map (count_occ Nat.eq_dec (a :: l)) l0)).
      change (fold_right Nat.add 0 (map (count_occ Nat.eq_dec l) l0)) with (list_sum (map (count_occ Nat.eq_dec l) l0)).
      destruct (Nat.eq_dec a b) as [->|Hne].
      + rewrite count_occ_cons_eq by auto.
        assert (E : map (count_occ Nat.eq_dec (b :: l)) l0 = map (count_occ Nat.eq_dec l) l0).
        { apply map_ext_in. intros x Hx. apply count_occ_cons_neq. intros ->; auto. }
        rewrite E. lia.
      + rewrite count_occ_cons_neq by auto. destruct Ha as [Ha|Ha]; [congruence|]. rewrite (IHl Ha H2). lia. }
  specialize (Hsum l HI). rewrite HL in Hsum.
  assert (Hb : forall (c : nat) ks, (forall k, In k ks -> count_occ Nat.eq_dec l k <= c) -> list_sum (map (count_occ Nat.eq_dec l) ks) <= length ks * c).
  { clear. intros c ks. induction ks as [|k ks IH]; intros H; simpl; auto. pose proof (H k (or_introl eq_refl)).
    specialize (IH (fun x Hx => H x (or_intror Hx))). unfold list_sum in *. lia. }
  assert (Hg : forall (c : nat) ks, (forall k, In k ks -> c <= count_occ Nat.eq_dec l k) -> length ks * c <= list_sum (map (count_occ Nat.eq_dec l) ks)).
  { clear. intros c ks. induction ks as [|k ks IH]; intros H; simpl; auto. pose proof (H k (or_introl eq_refl)).
    specialize (IH (fun x Hx => H x (or_intror Hx))). unfold list_sum in *. lia. }
  destruct (Nat.lt_trichotomy (count_occ Nat.eq_dec l i) q) as [Hlt|[E|Hgt]]; auto; exfalso.
  - (* all counts <= q, one < q *)
    assert (Hall : forall k, k < m -> count_occ Nat.eq_dec l k <= q) by (intros k Hk; specialize (HB k i Hk Hi); lia).
    destruct (in_split i (seq 0 m)) as (s1 & s2 & Es); [apply in_seq; lia|].
    assert (Hin : forall k, In k s1 \/ In k s2 -> k < m).
    { intros k Hk. assert (In k (seq 0 m)). { rewrite Es. apply in_or_app. simpl. tauto. } apply in_seq in H; lia. }
    rewrite Es, map_app, list_sum_app in Hsum. cbn [map list_sum fold_right] in Hsum.
    pose proof (Hb q s1 (fun k Hk => Hall k (Hin k (or_introl Hk)))). pose proof (Hb q s2 (fun k Hk => Hall k (Hin k (or_intror Hk)))).
    assert (length s1 + S (length s2) = m). { rewrite <- (seq_length m 0), Es, app_length; auto. }
    unfold list_sum in *. nia.
  - assert (Hall : forall k, k < m -> q <= count_occ Nat.eq_dec l k) by (intros k Hk; specialize (HB i k Hi Hk); lia).
    destruct (in_split i (seq 0 m)) as (s1 & s2 & Es); [apply in_seq; lia|].
    assert (Hin : forall k, In k s1 \/ In k s2 -> k < m).
    { intros k Hk. assert (In k (seq 0 m)). { rewrite Es. apply in_or_app. simpl. tauto. } apply in_seq in H; lia. }
    rewrite Es, map_app, list_sum_app in Hsum. cbn [map list_sum fold_right] in Hsum.
    pose proof (Hg q s1 (fun k Hk => Hall k (Hin k (or_introl Hk)))). pose proof (Hg q s2 (fun k Hk => Hall k (Hin k (or_intror Hk)))).
    assert (length s1 + S (length s2) = m). { rewrite <- (seq_length m 0), Es, app_length; auto. }
    unfold list_sum in *. nia.
Qed.

(** NoCrossover hands out the parent objects themselves (no copies): n_offsprings per mating, every one a parent of that mating, each parent
    at least once when there are at least as many offspring *)
Theorem C25_no_crossover : forall (A : Type) (d : A) n_parents n_offsprings (X : list (list A)) choice extra,
  (forall k, k < length X -> length (nth k X []) = n_parents) ->
  (forall k, Permutation (choice k) (seq 0 n_parents)) ->
  (forall k, length (extra k) = n_offsprings - n_parents /\ forall e, In e (extra k) -> e < n_parents) ->
  let off := no_crossover_do d n_parents n_offsprings X choice extra in
  exists rows, off = concat rows /\ length rows = length X /\
    forall k, k < length X -> length (nth k rows []) = n_offsprings /\
      (forall x, In x (nth k rows []) -> In x (nth k X [])) /\
      (n_parents <= n_offsprings -> forall x, In x (nth k X []) -> In x (nth k rows [])).
Proof.
  intros A d np no X choice extra HX Hch Hex. cbn zeta. unfold no_crossover_do.
  match goal with |- context [flat_map ?g _] => set (f := g) end.
  exists (map f (seq 0 (length X))). rewrite <- flat_map_concat_map. split; auto. rewrite map_length, seq_length. split; auto.
  intros k Hk. rewrite nth_map_seq0 by auto. unfold f. specialize (HX k Hk). destruct (Hex k) as [He1 He2].
  pose proof (perm_seq_length _ _ (Hch k)) as HL.
  destruct (Nat.ltb_spec no np); [|destruct (Nat.eqb_spec no np)].
  - split; [rewrite length_gather, firstn_length; lia|]. split; [|intros; lia].
    intros x Hx. apply in_map_iff in Hx as (i & <- & Hi). apply nth_In. rewrite HX.
    apply (perm_seq_In _ _ i (Hch k)). rewrite <- (firstn_skipn no). apply in_or_app; auto.
  - split; [lia|]. auto.
  - split; [rewrite app_length, length_gather, firstn_length; lia|]. split.
    + intros x Hx. apply in_app_or in Hx as [Hx|Hx]; auto. apply in_map_iff in Hx as (i & <- & Hi). apply nth_In. rewrite HX. apply He2.
      rewrite <- (firstn_skipn (no - np)). apply in_or_app; auto.
    + intros _ x Hx. apply in_or_app; auto.
Qed.

Example C24_hux_example : hux 0 (fun a b => negb (a =? b)) [1;2;3;4;5] [1;7;8;4;9] [2;0;1] = ([1;7;3;4;9], [1;2;8;4;5]).
Proof. reflexivity. Qed.
Example C24_point_example : point_crossover 0 3 [1;2;3;4;5;6] [11;12;13;14;15;16] [3;0;4;1;2] = ([1;12;13;14;5;16], [11;2;3;4;15;6]).
Proof. reflexivity. Qed.
Example C24_exp_example : exponential_crossover 0 [1;2;3;4] [5;6;7;8] 3 (3 # 4) (fun j => if j <? 2 then 1 # 2 else 1%Q) 0 = ([5;2;3;8], [1;6;7;4]).
Proof. reflexivity. Qed.
Example C24_bin_example : binomial_crossover 0 2 [1;2;3] [4;5;6] [9 # 10; 1 # 10; 8 # 10] (1 # 2) 0 = Some [[4;2;6]; [1;5;3]].
Proof. reflexivity. Qed.
Example C25_example : crossover_do 0 2 3 [[1;2]; [3;4]] [true; false] (fun o k => 10 * o + k) (fun _ => [1;0]) (fun _ _ => [1;0]) = [0; 4; 10; 3; 20; 4].
Proof. reflexivity. Qed.

Print Assumptions C24_uniform. Print Assumptions C24_half_uniform. Print Assumptions C24_half_uniform_distance. Print Assumptions C24_point.
Print Assumptions C24_exponential. Print Assumptions C24_binomial. Print Assumptions C25_do. Print Assumptions C25_evenly. Print Assumptions C25_no_crossover.
