(** * Proofs for M_Perm: edge recombination *)
From Coq Require Import List Arith Bool ZArith Lia Permutation.
From Verif Require Import ListAux M_Perm S_Perm P_Perm.
Import ListNotations.
Local Open Scope nat_scope.

Definition get (H : adjmap) (k : Z) : list Z := match lookup H k with Some l => l | None => [] end.

Lemma lookup_put H k l k' : lookup (put H k l) k' = if Z.eqb k' k then Some l else lookup H k'.
Proof.
  induction H as [|[k0 l0] H IH]; simpl; auto.
  destruct (Z.eqb_spec k k0); simpl.
  - subst. destruct (Z.eqb_spec k' k0); auto.
  - destruct (Z.eqb_spec k' k0); auto. subst. destruct (Z.eqb_spec k0 k); congruence.
Qed.
Lemma get_put H k l k' : get (put H k l) k' = if Z.eqb k' k then l else get H k'.
Proof. unfold get; rewrite lookup_put. destruct (Z.eqb k' k); auto. Qed.
Lemma lookup_In H k : (exists l, lookup H k = Some l) <-> In k (keys H).
Proof.
  induction H as [|[k0 l0] H IH]; simpl; [split; [intros [l Hl]; discriminate|tauto]|].
  destruct (Z.eqb_spec k k0); subst.
  - split; eauto.
  - rewrite IH. split; auto. intros [E|E]; auto; congruence.
Qed.
Lemma keys_put H k l : keys (put H k l) = if memZ k (keys H) then keys H else keys H ++ [k].
Proof.
  induction H as [|[k0 l0] H IH]; simpl; auto.
  destruct (Z.eqb_spec k k0); simpl; subst; auto.
  unfold keys in *. rewrite IH. unfold memZ in *. destruct (existsb (Z.eqb k) (map fst H)); auto.
Qed.
Lemma In_keys_put H k l v : In v (keys (put H k l)) <-> In v (keys H) \/ v = k.
Proof.
  rewrite keys_put. destruct (memZ k (keys H)) eqn:E.
  - apply memZ_In in E. split; auto. intros [Hv| ->]; auto.
  - rewrite in_app_iff. simpl. intuition.
Qed.
Lemma NoDup_keys_put H k l : NoDup (keys H) -> NoDup (keys (put H k l)).
Proof.
  intros HN. rewrite keys_put. destruct (memZ k (keys H)) eqn:E; auto.
  apply memZ_nIn in E. apply NoDup_app_iff. repeat split; auto.
  - repeat constructor; simpl; auto.
  - intros x Hx [<-|[]]; auto.
Qed.
Lemma In_set_add v l u : In u (set_add v l) <-> In u l \/ u = v.
Proof.
  unfold set_add. destruct (memZ v l) eqn:E.
  - apply memZ_In in E. split; auto. intros [Hu| ->]; auto.
  - rewrite in_app_iff; simpl; intuition.
Qed.
Lemma NoDup_set_add v l : NoDup l -> NoDup (set_add v l).
Proof.
  intros HN. unfold set_add. destruct (memZ v l) eqn:E; auto. apply memZ_nIn in E.
  apply NoDup_app_iff. repeat split; auto.
  - repeat constructor; simpl; auto.
  - intros x Hx [<-|[]]; auto.
Qed.

(** ** adjacency *)
Section Adj.
  Variable x : list Z.
  Let n := length x.
  Lemma calc_adj_fold ks H :
    NoDup (keys H) -> (forall v, NoDup (get H v)) ->
    let H' := fold_left (fun H k =>
        let prev := (k + n - 1) mod n in let succ := (k + 1) mod n in
        let xk := nth k x 0%Z in
        let cur := match lookup H xk with Some l => l | None => [] end in
        put H xk (set_add (nth succ x 0%Z) (set_add (nth prev x 0%Z) cur))) ks H in
    NoDup (keys H') /\ (forall v, NoDup (get H' v)) /\
    (forall v, In v (keys H') <-> In v (keys H) \/ exists k, In k ks /\ nth k x 0%Z = v) /\
    (forall v u, In u (get H' v) <-> In u (get H v) \/
        exists k, In k ks /\ nth k x 0%Z = v /\ (u = nth ((k + n - 1) mod n) x 0%Z \/ u = nth ((k + 1) mod n) x 0%Z)).
  Proof.
    revert H; induction ks as [|k ks IH]; intros H HN HG; cbn [fold_left].
    - repeat split; auto; intros; try tauto; destruct H0 as [H0|(k & [] & _)]; auto.
    - set (H1 := put H _ _).
      assert (N1 : NoDup (keys H1)) by (apply NoDup_keys_put; auto).
      assert (G1 : forall v, NoDup (get H1 v)).
      { intro v. unfold H1. rewrite get_put. destruct (Z.eqb v _); auto. apply NoDup_set_add, NoDup_set_add, HG. }
      destruct (IH H1 N1 G1) as (R1 & R2 & R3 & R4). repeat split; auto.
      + intros Hv. apply R3 in Hv as [Hv|(k' & Hk & E)].
        * apply In_keys_put in Hv as [Hv|Hv]; auto. right; exists k; simpl; auto.
        * right; exists k'; simpl; auto.
      + intros Hv. apply R3. destruct Hv as [Hv|(k' & [<- |Hk] & E)].
        * left. apply In_keys_put; auto.
        * left. apply In_keys_put; auto.
        * right; eauto.
      + intros Hu. apply R4 in Hu as [Hu|(k' & Hk & E & Hu)].
        * unfold H1 in Hu. rewrite get_put in Hu. destruct (Z.eqb_spec v (nth k x 0%Z)); auto. subst v.
          apply In_set_add in Hu as [Hu|Hu]; [apply In_set_add in Hu as [Hu|Hu]; auto|].
          -- right; exists k; simpl; auto.
          -- right; exists k; simpl; auto.
        * right; exists k'; simpl; auto.
      + intros Hu. apply R4. unfold H1. rewrite get_put.
        destruct Hu as [Hu|(k' & [<- |Hk] & E & Hu)].
        * left. destruct (Z.eqb_spec v (nth k x 0%Z)); auto. subst. apply In_set_add; left; apply In_set_add; auto.
        * left. subst v. rewrite Z.eqb_refl. destruct Hu as [-> | ->]; rewrite !In_set_add; auto.
        * right; eauto.
  Qed.
  Lemma calc_adj_spec H :
    NoDup (keys H) -> (forall v, NoDup (get H v)) ->
    NoDup (keys (calc_adj x H)) /\ (forall v, NoDup (get (calc_adj x H) v)) /\
    (forall v, In v (keys (calc_adj x H)) <-> In v (keys H) \/ In v x) /\
    (forall v u, In u (get (calc_adj x H) v) <-> In u (get H v) \/ tour_adj x v u).
  Proof.
    intros HN HG. destruct (calc_adj_fold (seq 0 n) H HN HG) as (R1 & R2 & R3 & R4).
    unfold calc_adj. fold n. split; [exact R1|]. split; [exact R2|]. split.
    - intro v. rewrite R3. apply or_iff_compat_l. split.
      + intros (k & Hk & <-). apply in_seq in Hk. apply nth_In; unfold n in *; lia.
      + intros Hv. apply (In_nth _ _ 0%Z) in Hv as (k & Hk & E). exists k; split; auto. apply in_seq; unfold n; lia.
    - intros v u. rewrite R4. apply or_iff_compat_l. split.
      + intros (k & Hk & Hv & [-> | ->]); apply in_seq in Hk; [right|left].
        * exists ((k + n - 1) mod n). fold n. split; [apply Nat.mod_upper_bound; lia|]. split; auto.
          rewrite <- Hv. f_equal. rewrite Nat.add_mod_idemp_l by lia.
          replace (k + n - 1 + 1) with (k + 1 * n) by lia. rewrite Nat.mod_add by lia. apply Nat.mod_small; lia.
        * exists k. fold n. split; auto; lia.
      + intros [(k & Hk & Hv & Hu)|(k & Hk & Hv & Hu)]; fold n in Hk, Hu.
        * exists k. split; [apply in_seq; lia|]. auto.
        * exists ((k + 1) mod n). assert ((k + 1) mod n < n) by (apply Nat.mod_upper_bound; lia).
          split; [apply in_seq; lia|]. split; auto. left. rewrite <- Hv. f_equal.
          replace ((k + 1) mod n + n - 1) with ((k + 1) mod n + (n - 1)) by lia.
          rewrite Nat.add_mod_idemp_l by lia. replace (k + 1 + (n - 1)) with (k + 1 * n) by lia.
          rewrite Nat.mod_add by lia. symmetry; apply Nat.mod_small; lia.
  Qed.
End Adj.

Lemma tour_adj_sym x u v : tour_adj x u v -> tour_adj x v u.
Proof. unfold tour_adj; tauto. Qed.
Lemma edge_sym a b u v : edge a b u v -> edge a b v u.
Proof. unfold edge; intros [H|H]; [left|right]; apply tour_adj_sym; auto. Qed.
Lemma tour_adj_In x u v : tour_adj x u v -> In u x /\ In v x.
Proof.
  intros [(k & Hk & <- & <-)|(k & Hk & <- & <-)]; split; apply nth_In; auto; apply Nat.mod_upper_bound; lia.
Qed.
Lemma tour_next_irr x u : NoDup x -> 2 <= length x -> ~ tour_next x u u.
Proof.
  intros HN Hn (k & Hk & E1 & E2).
  assert (k = (k + 1) mod length x).
  { apply (proj1 (NoDup_nth x 0%Z) HN); auto; [apply Nat.mod_upper_bound; lia|congruence]. }
  destruct (Nat.lt_ge_cases (k + 1) (length x)).
  - rewrite Nat.mod_small in H by auto. lia.
  - assert (k + 1 = length x) by lia. rewrite H1, Nat.mod_same in H by lia. lia.
Qed.
Lemma edge_irr a b u : NoDup a -> NoDup b -> 2 <= length a -> 2 <= length b -> ~ edge a b u u.
Proof. intros Ha Hb La Lb [[H|H]|[H|H]]; revert H; apply tour_next_irr; auto. Qed.

(** ** removal *)
Lemma In_removeZ v l u : In u (removeZ v l) <-> In u l /\ u <> v.
Proof. unfold removeZ. rewrite filter_In, negb_true_iff, Z.eqb_neq. intuition. Qed.
Lemma NoDup_removeZ v l : NoDup l -> NoDup (removeZ v l).
Proof. apply NoDup_filter. Qed.

Lemma remove_all_spec val es : forall H, NoDup es ->
  (forall e, In e es -> exists l, lookup H e = Some l /\ In val l) ->
  exists H', remove_all H val es = Some H' /\ keys H' = keys H /\
             forall k, get H' k = if memZ k es then removeZ val (get H k) else get H k.
Proof.
  induction es as [|e es IH]; intros H HN HE; simpl.
  - exists H; auto.
  - inversion HN; subst. destruct (HE e (or_introl eq_refl)) as (l & El & Hl). rewrite El.
    rewrite (proj2 (memZ_In val l)) by auto.
    destruct (IH (put H e (removeZ val l))) as (H' & E & K & G); auto.
    + intros e' He'. rewrite lookup_put. destruct (Z.eqb_spec e' e); [congruence|]. apply HE; simpl; auto.
    + exists H'. split; auto. split.
      * rewrite K, keys_put. rewrite (proj2 (memZ_In e (keys H))); auto. apply lookup_In; eauto.
      * intros k. rewrite G, get_put. unfold memZ; simpl. destruct (Z.eqb_spec k e); simpl; auto.
        subst. destruct (existsb (Z.eqb e) es) eqn:E2.
        -- exfalso; apply H2, memZ_In; auto.
        -- unfold get; rewrite El; auto.
Qed.
Lemma lookup_filter val H k :
  lookup (filter (fun p => negb (Z.eqb val (fst p))) H) k = if Z.eqb val k then None else lookup H k.
Proof.
  induction H as [|[k0 l0] H IH]; simpl; [destruct (Z.eqb val k); auto|].
  destruct (Z.eqb_spec val k0); simpl.
  - subst. rewrite IH. destruct (Z.eqb_spec k0 k); auto. destruct (Z.eqb_spec k k0); congruence.
  - rewrite IH. destruct (Z.eqb_spec k k0); subst; auto. destruct (Z.eqb_spec val k0); congruence.
Qed.
Lemma keys_filter val H : keys (filter (fun p => negb (Z.eqb val (fst p))) H) = removeZ val (keys H).
Proof. induction H as [|[k0 l0] H IH]; simpl; auto. destruct (Z.eqb val k0); simpl; auto. f_equal; auto. Qed.

Section Loop.
  Variable E : Z -> Z -> Prop.
  Hypothesis E_sym : forall u v, E u v -> E v u.
  Hypothesis E_irr : forall u, ~ E u u.

  Definition Inv (H : adjmap) : Prop :=
    NoDup (keys H) /\
    forall v, In v (keys H) -> NoDup (get H v) /\ forall u, In u (get H v) <-> In u (keys H) /\ E v u.

  Lemma remove_step H val : Inv H -> In val (keys H) ->
    exists H', remove_from_adj_list H val = Some H' /\ Inv H' /\ keys H' = removeZ val (keys H).
  Proof.
    intros [HN HI] Hv. unfold remove_from_adj_list.
    destruct (proj2 (lookup_In H val) Hv) as [l El]. rewrite El.
    assert (Gl : get H val = l) by (unfold get; rewrite El; auto).
    destruct (HI val Hv) as [Hnd Hset]. rewrite Gl in Hnd, Hset.
    destruct (remove_all_spec val l H Hnd) as (H' & E1 & K & G).
    { intros e He. apply Hset in He as [He1 He2]. destruct (proj2 (lookup_In H e) He1) as [le Ele].
      exists le; split; auto. destruct (HI e He1) as [_ Hs].
      assert (get H e = le) by (unfold get; rewrite Ele; auto). rewrite H0 in Hs. apply Hs. auto. }
    rewrite E1. eexists; split; [reflexivity|]. split; [|rewrite keys_filter, K; auto].
    unfold Inv. rewrite keys_filter, K. split; [apply NoDup_removeZ; auto|].
    intros v Hin. apply In_removeZ in Hin as [Hin Hne].
    assert (Gv : get (filter (fun p => negb (Z.eqb val (fst p))) H') v = get H' v).
    { unfold get. rewrite lookup_filter. destruct (Z.eqb_spec val v); auto; congruence. }
    rewrite Gv, G. destruct (HI v Hin) as [Hd Hs]. destruct (memZ v l) eqn:Em.
    - split; [apply NoDup_removeZ; auto|]. intro u. rewrite !In_removeZ, Hs. tauto.
    - split; auto. intro u. rewrite In_removeZ, Hs. split; [|tauto]. intros [H1 H2]; repeat split; auto.
      intros ->. apply memZ_nIn in Em. apply Em, Hset. split; auto.
  Qed.

  Lemma choice_In {A} rnd j (l : list A) : l <> [] -> exists x, choice rnd j l = Some x /\ In x l.
  Proof.
    intros Hl. unfold choice. destruct l as [|a l]; [congruence|]. set (l' := a :: l) in *.
    assert (Hb : rnd j mod length l' < length l') by (apply Nat.mod_upper_bound; unfold l'; simpl; lia).
    destruct (nth_error l' (rnd j mod length l')) eqn:En.
    - exists a0; split; auto. eapply nth_error_In; eauto.
    - apply nth_error_None in En. lia.
  Qed.
  Lemma choice_nil_inv {A} rnd j (l : list A) x : choice rnd j l = Some x -> In x l.
  Proof. unfold choice. destruct l; [discriminate|]. apply nth_error_In. Qed.

  Lemma fold_min_spec l : forall a, (fold_left Nat.min l a = a \/ In (fold_left Nat.min l a) l) /\
                          fold_left Nat.min l a <= a /\ forall x, In x l -> fold_left Nat.min l a <= x.
  Proof.
    induction l as [|b l IH]; intros a; simpl; [repeat split; auto; tauto|].
    destruct (IH (Nat.min a b)) as (H1 & H2 & H3). repeat split.
    - destruct H1 as [H1|H1]; auto. rewrite H1. destruct (Nat.min_dec a b); auto.
    - lia.
    - intros x [->|Hx]; [lia|auto].
  Qed.
  Lemma list_min_spec l : l <> [] -> In (list_min l) l /\ forall x, In x l -> list_min l <= x.
  Proof.
    destruct l as [|a l]; [congruence|]. intros _. simpl. destruct (fold_min_spec l a) as (H1 & H2 & H3). split.
    - destruct H1; auto.
    - intros x [<-|Hx]; auto.
  Qed.

  Lemma sequence_lookup H es : (forall e, In e es -> In e (keys H)) ->
    sequence (map (fun e => option_map (@length Z) (lookup H e)) es) = Some (map (fun e => length (get H e)) es).
  Proof.
    induction es as [|e es IH]; intros He; simpl; auto.
    destruct (proj2 (lookup_In H e) (He e (or_introl eq_refl))) as [l El]. rewrite El. simpl.
    fold (sequence (map (fun e => option_map (@length Z) (lookup H e)) es)). rewrite IH by (intros; apply He; simpl; auto).
    unfold get; rewrite El; auto.
  Qed.

  (** unvisited neighbours of [w] after the first [k] entries of [res] *)
  Definition open_nb (vals res : list Z) (k : nat) (w u : Z) : Prop := In u vals /\ ~ In u (firstn k res) /\ E w u.
  Definition step_ok (vals res : list Z) (k : nat) : Prop :=
    let cur := nth k res 0%Z in let nxt := nth (S k) res 0%Z in
    (exists u, open_nb vals res (S k) cur u) ->
    open_nb vals res (S k) cur nxt /\
    forall w n1 n2, open_nb vals res (S k) cur w -> counts (open_nb vals res (S k) nxt) n1 -> counts (open_nb vals res (S k) w) n2 -> n1 <= n2.

  Lemma counts_get H vals res k w m : Inv H -> In w (keys H) ->
    (forall u, In u (keys H) <-> In u vals /\ ~ In u (firstn k res)) -> counts (open_nb vals res k w) m -> length (get H w) = m.
  Proof.
    intros [_ HI] Hw HK (l & Hl & Hs & <-). apply Permutation_length. destruct (HI w Hw) as [Hd Hg].
    apply NoDup_Permutation; auto. intros u. rewrite Hs, Hg, HK. unfold open_nb. tauto.
  Qed.

  Lemma erx_loop_spec rnd vals : NoDup vals -> forall fuel H next y j,
    Inv H -> In next (keys H) -> Permutation (y ++ keys H) vals -> length vals <= length y + fuel ->
    exists res t, erx_loop fuel rnd (length vals) H next y j = Some res /\ res = y ++ next :: t /\ Permutation res vals /\
      forall k, length y <= k -> S k < length res -> step_ok vals res k.
  Proof.
    intros HNv. induction fuel as [|fuel IH]; intros H next y j HI Hin HP Hf.
    - exfalso. apply Permutation_length in HP. rewrite app_length in HP. destruct (keys H); [destruct Hin|simpl in HP; lia].
    - cbn [erx_loop]. cbv zeta. pose proof (Permutation_length HP) as HL. rewrite app_length in HL.
      assert (HN : NoDup (keys H)) by apply HI.
      destruct (length (y ++ [next]) =? length vals) eqn:En.
      + apply Nat.eqb_eq in En. rewrite app_length in En; simpl in En.
        exists (y ++ [next]), []. split; auto. split; auto. split.
        * assert (keys H = [next]). { destruct (keys H) as [|k1 [|k2 ks]]; simpl in HL; try lia. destruct Hin as [-> | []]; auto. }
          rewrite H0 in HP; auto.
        * intros k Hk1 Hk2. rewrite app_length in Hk2; simpl in Hk2. lia.
      + apply Nat.eqb_neq in En. rewrite app_length in En; simpl in En.
        destruct (proj2 (lookup_In H next) Hin) as [nb Enb]. rewrite Enb.
        assert (Gnb : get H next = nb) by (unfold get; rewrite Enb; auto).
        destruct (proj2 HI next Hin) as [Hnd Hset]. rewrite Gnb in Hnd, Hset.
        destruct (remove_step H next HI Hin) as (H' & E1 & HI' & HK'). rewrite E1.
        assert (HPk : Permutation (keys H) (next :: keys H')).
        { rewrite HK'. apply NoDup_Permutation; auto.
          - constructor; [rewrite In_removeZ; tauto|apply NoDup_removeZ; auto].
          - intro u. simpl. rewrite In_removeZ. destruct (Z.eq_dec u next); intuition congruence. }
        assert (HP' : Permutation ((y ++ [next]) ++ keys H') vals).
        { etransitivity; [|apply HP]. rewrite <- app_assoc. apply Permutation_app_head. symmetry; auto. }
        assert (Hnb_in : forall u, In u nb -> In u (keys H')).
        { intros u Hu. apply Hset in Hu as [Hu1 Hu2]. rewrite HK', In_removeZ. split; auto. intros ->. eapply E_irr; eauto. }
        assert (HK : forall u t', In u (keys H') <-> In u vals /\ ~ In u (firstn (S (length y)) (y ++ next :: t'))).
        { intros u t'. rewrite firstn_app. replace (S (length y) - length y) with 1 by lia.
          rewrite firstn_all2 by lia. simpl.
          assert (HNd : NoDup ((y ++ [next]) ++ keys H')) by (eapply Permutation_NoDup; [symmetry; apply HP'|auto]).
          apply NoDup_app_iff in HNd as (_ & _ & HD).
          split.
          - intros Hu. split; [eapply Permutation_in; [apply HP'|apply in_or_app; auto]|]. intro Hc. exact (HD _ Hc Hu).
          - intros [Hu1 Hu2]. apply (Permutation_in _ (Permutation_sym HP')) in Hu1. apply in_app_or in Hu1 as [?|?]; tauto. }
        assert (Hkne : keys H' <> []). { intro Ek. apply Permutation_length in HPk. rewrite Ek in HPk. simpl in HPk. lia. }
        destruct (length nb =? 0) eqn:E0.
        * apply Nat.eqb_eq, length_zero_iff_nil in E0. subst nb.
          destruct (choice_In rnd j (keys H') Hkne) as (nxt & Ec & Hc). rewrite Ec.
          destruct (IH H' nxt (y ++ [next]) (j + 1) HI' Hc HP' ltac:(rewrite app_length; simpl; lia)) as (res & t & R1 & R2 & R3 & R4).
          exists res, (nxt :: t). split; auto. split; [rewrite R2, <- app_assoc; auto|]. split; auto.
          intros k Hk1 Hk2. destruct (Nat.eq_dec k (length y)) as [->|]; [|apply R4; auto; rewrite app_length; simpl; lia].
          rewrite R2, <- app_assoc. cbn [app]. unfold step_ok. rewrite app_nth2, Nat.sub_diag by lia. cbn [nth].
          intros (u & Hu1 & Hu2 & Hu3). exfalso. rewrite E0 in Hset. apply (Hset u). split; auto.
          assert (In u (keys H')) by (apply (HK u (nxt :: t)); auto). rewrite HK', In_removeZ in H0. tauto.
        * apply Nat.eqb_neq in E0. rewrite sequence_lookup by auto.
          set (nn := map (fun e => length (get H' e)) nb). set (cand := map _ _).
          assert (Hnn : forall k, k < length nb -> nth k nn 0 = length (get H' (nth k nb 0%Z))).
          { intros k Hk. unfold nn. rewrite (nth_indep _ 0 (length (get H' 0%Z))) by (rewrite map_length; auto).
            apply (map_nth (fun e => length (get H' e))). }
          assert (Hnn0 : nn <> []). { unfold nn. destruct nb; simpl in *; [lia|discriminate]. }
          destruct (list_min_spec nn Hnn0) as [Hm1 Hm2].
          assert (Hcand : forall x, In x cand -> In x nb /\ length (get H' x) = list_min nn).
          { intros x Hx. apply in_map_iff in Hx as (k & <- & Hk). apply filter_In in Hk as [Hk1 Hk2].
            apply in_seq in Hk1. apply Nat.eqb_eq in Hk2. rewrite Hnn in Hk2 by lia. split; auto. apply nth_In; lia. }
          assert (Hne : cand <> []).
          { apply (In_nth _ _ 0) in Hm1 as (k & Hk & Ek). unfold nn in Hk; rewrite map_length in Hk.
            assert (In (nth k nb 0%Z) cand). { apply in_map_iff. exists k; split; auto. apply filter_In; split; [apply in_seq; lia|].
              apply Nat.eqb_eq; auto. } intro C; rewrite C in H0; destruct H0. }
          destruct (choice_In rnd j cand Hne) as (nxt & Ec & Hc). rewrite Ec. apply Hcand in Hc as [Hc1 Hc2].
          destruct (IH H' nxt (y ++ [next]) (j + 1) HI' (Hnb_in _ Hc1) HP' ltac:(rewrite app_length; simpl; lia)) as (res & t & R1 & R2 & R3 & R4).
          exists res, (nxt :: t). split; auto. split; [rewrite R2, <- app_assoc; auto|]. split; auto.
          intros k Hk1 Hk2. destruct (Nat.eq_dec k (length y)) as [->|]; [|apply R4; auto; rewrite app_length; simpl; lia].
          rewrite R2, <- app_assoc. cbn [app]. unfold step_ok. rewrite !app_nth2, Nat.sub_diag by lia. cbn [nth].
          replace (S (length y) - length y) with 1 by lia. cbn [nth]. intros _.
          assert (HKr := fun u => HK u (nxt :: t)).
          assert (Hop : forall w, open_nb vals (y ++ next :: nxt :: t) (S (length y)) next w -> In w nb /\ In w (keys H')).
          { intros w (W1 & W2 & W3). assert (Hwk : In w (keys H')) by (apply HKr; auto).
            split; auto. apply Hset. split; auto. rewrite HK', In_removeZ in Hwk; tauto. }
          split.
          -- destruct (proj1 (HKr nxt) (Hnb_in _ Hc1)) as [X1 X2]. split; auto. split; auto. apply Hset; auto.
          -- intros w n1 n2 Hw C1 C2. destruct (Hop w Hw) as [W1 W2].
             apply (counts_get H' _ _ _ _ _ HI' (Hnb_in _ Hc1) HKr) in C1. apply (counts_get H' _ _ _ _ _ HI' W2 HKr) in C2.
             rewrite <- C1, <- C2, Hc2. apply Hm2. apply (in_map (fun e => length (get H' e))). auto.
  Qed.
End Loop.

Lemma erx_spec a b rnd : Permutation a b -> NoDup a -> a <> [] ->
  exists y, erx a b rnd = Some y /\ Permutation y a /\ forall k, S k < length y -> step_ok (edge a b) a y k.
Proof.
  intros HP HN Ha. assert (HNb : NoDup b) by (eapply Permutation_NoDup; eauto).
  pose proof (Permutation_length HP) as HL. unfold erx. rewrite HL, Nat.eqb_refl. rewrite <- HL.
  destruct (calc_adj_spec a []) as (A1 & A2 & A3 & A4); [constructor|constructor|].
  destruct (calc_adj_spec b (calc_adj a []) A1 A2) as (B1 & B2 & B3 & B4).
  set (H := calc_adj b (calc_adj a [])) in *.
  assert (HK : forall v, In v (keys H) <-> In v a).
  { intro v. rewrite B3, A3. simpl. split; [intros [[[]|]|]; auto; eapply Permutation_in; [symmetry|]; eauto|auto]. }
  assert (HG : forall v u, In u (get H v) <-> edge a b v u).
  { intros v u. rewrite B4, A4. unfold edge. simpl. tauto. }
  assert (Hkne : keys H <> []). { destruct a as [|z a']; [congruence|]. intro C. specialize (HK z). rewrite C in HK. apply HK; simpl; auto. }
  destruct (choice_In rnd 0 (keys H) Hkne) as (nxt & Ec & Hc). rewrite Ec.
  assert (HPk : Permutation (keys H) a) by (apply NoDup_Permutation; auto).
  destruct (Nat.eq_dec (length a) 1) as [E1|E1].
  - rewrite E1. cbn [erx_loop app length]. rewrite Nat.eqb_refl. exists [nxt]. split; auto. split; [|simpl; intros; lia].
    destruct a as [|z [|]]; simpl in E1; try lia. apply HK in Hc. destruct Hc as [-> | []]; auto.
  - assert (2 <= length a) by (destruct a as [|? [|]]; simpl in *; try congruence; lia).
    destruct (erx_loop_spec (edge a b) (edge_sym a b) (fun u => edge_irr a b u HN HNb H0 ltac:(lia)) rnd a HN
                (length a) H nxt [] 1) as (res & t & R1 & R2 & R3 & R4); auto.
    + split; auto. intros v Hv. split; [apply B2|]. intro u. rewrite HG. split; [|tauto]. intros He. split; auto.
      apply HK. destruct He as [He|He]; apply tour_adj_In in He; [tauto|]. eapply Permutation_in; [symmetry; eauto|tauto].
    + exists res. split; auto. split; auto. intros k Hk. apply R4; simpl; auto; lia.
Qed.
