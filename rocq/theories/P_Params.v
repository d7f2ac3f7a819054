(** * Proofs about parameter dictionaries: flatten and hierarchical *)
From Coq Require Import Ascii String List Arith Bool Lia.
From Verif Require Import M_Params S_Params.
Import ListNotations.
Local Open Scope nat_scope.

(** dictionaries *)
Section Dict.
  Context {V : Type}.
  Implicit Types d : list (string * V).
  Lemma dget_dset d k v k' : dget (dset d k v) k' = if String.eqb k k' then Some v else dget d k'.
  Proof.
    induction d as [|[k0 v0] d IH]; cbn [dset dget]; [reflexivity|].
    destruct (String.eqb k0 k) eqn:E; cbn [dget].
    - apply String.eqb_eq in E. subst k0. destruct (String.eqb k k'); reflexivity.
    - rewrite IH. destruct (String.eqb k0 k') eqn:E2; [|reflexivity]. destruct (String.eqb k k') eqn:E3; [|reflexivity].
      apply String.eqb_eq in E2, E3. subst. rewrite String.eqb_refl in E. discriminate.
  Qed.
  Lemma dset_keys d k v : map fst (dset d k v) = if existsb (fun kv => String.eqb (fst kv) k) d then map fst d else map fst d ++ [k].
  Proof.
    induction d as [|[k0 v0] d IH]; cbn [dset existsb map fst]; [reflexivity|].
    destruct (String.eqb k0 k) eqn:E; cbn [orb map fst]; [reflexivity|]. rewrite IH. destruct (existsb _ d); reflexivity.
  Qed.
  Lemma dget_None_key d k : dget d k = None <-> ~ In k (map fst d).
  Proof.
    induction d as [|[k0 v0] d IH]; cbn [dget map fst]; [tauto|].
    destruct (String.eqb k0 k) eqn:E.
    - apply String.eqb_eq in E. split; [discriminate|]. intros H. exfalso. apply H. left; auto.
    - apply String.eqb_neq in E. rewrite IH. simpl. tauto.
  Qed.
  Lemma dset_NoDup d k v : NoDup (map fst d) -> NoDup (map fst (dset d k v)).
  Proof.
    intros H. rewrite dset_keys. destruct (existsb _ d) eqn:E; auto.
    assert (Hk : ~ In k (map fst d)).
    { intros Hk. apply in_map_iff in Hk as ([k0 v0] & <- & Hin). assert (existsb (fun kv => String.eqb (fst kv) k0) d = true); [|simpl in *; congruence].
      apply existsb_exists. exists (k0, v0). split; auto. apply String.eqb_refl. }
    clear E. induction d as [|[k0 v0] d IH]; cbn [map app fst]; [repeat constructor; auto|].
    inversion H; subst. constructor.
    - rewrite in_app_iff. intros [Hf|[Hf|[]]]; [auto|]. subst. apply Hk. left; auto.
    - apply IH; auto. intros Hf. apply Hk. right; auto.
  Qed.
  Lemma dget_In d k v : dget d k = Some v -> In (k, v) d.
  Proof.
    induction d as [|[k0 v0] d IH]; cbn [dget]; [discriminate|]. destruct (String.eqb k0 k) eqn:E.
    - apply String.eqb_eq in E. intros H. injection H as <-. subst. left; auto.
    - intros H. right; auto.
  Qed.
  Lemma In_dget d k v : NoDup (map fst d) -> In (k, v) d -> dget d k = Some v.
  Proof.
    induction d as [|[k0 v0] d IH]; cbn [dget map fst]; [intros _ []|]. intros HN Hin. inversion HN; subst. destruct Hin as [E|Hin].
    - injection E as -> ->. now rewrite String.eqb_refl.
    - destruct (String.eqb k0 k) eqn:E; auto. apply String.eqb_eq in E. subst. exfalso. apply H1. apply in_map_iff. exists (k, v). auto.
  Qed.
  Lemma dget_iff d k v : NoDup (map fst d) -> dget d k = Some v <-> In (k, v) d.
  Proof. split; [apply dget_In|apply In_dget; auto]. Qed.
  (** building a dictionary from entries that do not contradict each other *)
  Lemma dbuild_spec l : (forall k v v', In (k, v) l -> In (k, v') l -> v = v') ->
    NoDup (map fst (fold_left (fun d kv => dset d (fst kv) (snd kv)) l [])) /\
    forall k v, dget (fold_left (fun d kv => dset d (fst kv) (snd kv)) l []) k = Some v <-> In (k, v) l.
  Proof.
    intros HF. assert (G : forall l1 l2, l = l1 ++ l2 -> forall d, NoDup (map fst d) -> (forall k v, dget d k = Some v <-> In (k, v) l1) ->
      let r := fold_left (fun d kv => dset d (fst kv) (snd kv)) l2 d in NoDup (map fst r) /\ forall k v, dget r k = Some v <-> In (k, v) l).
    { intros l1 l2; revert l1. induction l2 as [|[k0 v0] l2 IH]; intros l1 E d HN HD; cbn [fold_left].
      - rewrite app_nil_r in E. subst. split; auto.
      - apply (IH (l1 ++ [(k0, v0)])); [now rewrite <- app_assoc|now apply dset_NoDup|]. intros k v. cbn [fst snd]. rewrite dget_dset.
        destruct (String.eqb k0 k) eqn:Ek.
        + apply String.eqb_eq in Ek. subst k. split.
          * intros H. injection H as <-. apply in_or_app. right; left; auto.
          * intros H. f_equal. apply (HF k0); rewrite E; apply in_or_app; [right; left; auto|]. apply in_app_or in H. destruct H as [H|[H|[]]]; [left|right; left]; auto.
        + rewrite HD, in_app_iff. apply String.eqb_neq in Ek. split; [auto|]. intros [H|[H|[]]]; auto. congruence. }
    apply (G [] l); auto; [constructor|]. intros k v. cbn [dget]. split; [discriminate|intros []].
  Qed.
End Dict.

(** split and join *)
Lemma split_nonempty s : split s <> [].
Proof. destruct s as [|c s]; cbn [split]; [discriminate|]. destruct (Ascii.eqb c "."); [discriminate|]. destruct (split s); discriminate. Qed.
Lemma split_dot_free s : Forall dot_free (split s).
Proof.
  induction s as [|c s IH]; cbn [split]; [repeat constructor|]. destruct (Ascii.eqb c ".") eqn:E; [constructor; [exact Logic.I|auto]|].
  apply Ascii.eqb_neq in E. destruct (split s); inversion IH; subst; constructor; auto; try (split; auto; exact Logic.I).
Qed.
Lemma split_free s : dot_free s -> split s = [s].
Proof. induction s as [|c s IH]; cbn [split dot_free]; [reflexivity|]. intros [H1 H2]. apply Ascii.eqb_neq in H1. rewrite H1, IH by auto. reflexivity. Qed.
Lemma split_app s t : split (s ++ "." ++ t) = split s ++ split t.
Proof.
  induction s as [|c s IH]; [reflexivity|]. cbn [split]. change ((String c s ++ "." ++ t)%string) with (String c (s ++ "." ++ t)%string). cbn [split].
  rewrite IH. destruct (Ascii.eqb c "."); [reflexivity|]. pose proof (split_nonempty s). destruct (split s); [congruence|reflexivity].
Qed.
Lemma join_cons a l : l <> [] -> join (a :: l) = (a ++ "." ++ join l)%string.
Proof. destruct l; [congruence|reflexivity]. Qed.
Lemma join_split s : join (split s) = s.
Proof.
  induction s as [|c s IH]; [reflexivity|]. cbn [split]. destruct (Ascii.eqb c ".") eqn:E.
  - apply Ascii.eqb_eq in E. subst c. rewrite join_cons by apply split_nonempty. rewrite IH. reflexivity.
  - pose proof (split_nonempty s). destruct (split s) as [|h t]; [congruence|]. destruct t as [|h' t].
    + cbn in IH |- *. now rewrite IH.
    + rewrite join_cons in IH |- * by discriminate. rewrite <- IH. reflexivity.
Qed.
Lemma split_join l : l <> [] -> Forall dot_free l -> split (join l) = l.
Proof.
  induction l as [|a l IH]; [congruence|]. intros _ HF. inversion HF; subst. destruct l as [|b l].
  - cbn. now apply split_free.
  - rewrite join_cons by discriminate. rewrite split_app, IH, split_free by (auto; discriminate). reflexivity.
Qed.
Lemma dot_assoc (a b c : string) : ((a ++ "." ++ b) ++ "." ++ c)%string = (a ++ "." ++ (b ++ "." ++ c))%string.
Proof. induction a as [|x a IH]; [reflexivity|]. cbn [append]. f_equal. exact IH. Qed.
Lemma split_inj s t : split s = split t -> s = t.
Proof. intros H. rewrite <- (join_split s), <- (join_split t). now rewrite H. Qed.
Lemma split_one k : length (split k) = 1 <-> dot_free k.
Proof.
  split; [|intros H; now rewrite (split_free _ H)]. intros H. pose proof (split_dot_free k) as HF. pose proof (join_split k) as HJ.
  destruct (split k) as [|a [|b l]]; try discriminate. cbn in HJ. subst. now inversion HF.
Qed.

Section T.
  Context {V : Type}.
  Implicit Types t : tree V.
  Section Ind.
    Variable P : tree V -> Prop.
    Hypothesis HL : forall v, P (Leaf v).
    Hypothesis HN : forall l, (forall k t, In (k, t) l -> P t) -> P (Node l).
    Fixpoint tree_ind' (t : tree V) : P t :=
      match t with
      | Leaf v => HL v
      | Node l => HN l ((fix go (l : list (string * tree V)) : forall k t, In (k, t) l -> P t :=
          match l return forall k t, In (k, t) l -> P t with
          | [] => fun k t H => match H with end
          | (k0, t0) :: l => fun k t H => match H with
                                         | or_introl E => eq_ind t0 P (tree_ind' t0) t (f_equal snd E)
                                         | or_intror H => go l k t H
                                         end
          end) l)
      end.
  End Ind.

  Lemma child_look (l : list (string * tree V)) k t p : NoDup (map fst l) -> In (k, t) l -> tlook (Node l) (k :: p) = tlook t p.
  Proof. intros HN Hin. cbn [tlook]. now rewrite (In_dget _ _ _ HN Hin). Qed.
  Lemma child_look_inv (l : list (string * tree V)) k p x : tlook (Node l) (k :: p) = Some x -> exists t, In (k, t) l /\ dget l k = Some t /\ tlook t p = Some x.
  Proof. cbn [tlook]. destruct (dget l k) as [t|] eqn:E; [|discriminate]. intros H. exists t. split; [now apply dget_In|auto]. Qed.
  Lemma ku_node (l : list (string * tree V)) : keys_unique (Node l) -> NoDup (map fst l).
  Proof. intros H. apply (H [] l). reflexivity. Qed.
  Lemma ku_child (l : list (string * tree V)) k t : keys_unique (Node l) -> In (k, t) l -> keys_unique t.
  Proof. intros H Hin p l' E. apply (H (k :: p)). rewrite (child_look l k t); auto. now apply ku_node. Qed.
  Lemma kd_node (l : list (string * tree V)) k t : keys_dot_free (Node l) -> In (k, t) l -> dot_free k.
  Proof. intros H. apply (H [] l). reflexivity. Qed.
  Lemma kd_child (l : list (string * tree V)) k t : keys_unique (Node l) -> keys_dot_free (Node l) -> In (k, t) l -> keys_dot_free t.
  Proof. intros HU H Hin p l' k' x E. apply (H (k :: p)). rewrite (child_look l k t); auto. now apply ku_node. Qed.
  Lemma look_dot_free t p x : keys_unique t -> keys_dot_free t -> tlook t p = Some x -> Forall dot_free p.
  Proof.
    revert t. induction p as [|k p IH]; intros t HU HD H; [constructor|]. destruct t as [v|l]; [discriminate|].
    apply child_look_inv in H as (t' & Hin & _ & H). constructor; [eapply kd_node; eauto|]. apply (IH t'); auto; [eapply ku_child|eapply kd_child]; eauto.
  Qed.

  (** dotted name of a path below a prefix *)
  Definition joinp (p : string) (path : list string) : string := fold_left (fun p k => (p ++ "." ++ k)%string) path p.
  Lemma split_joinp path : Forall dot_free path -> forall p, split (joinp p path) = split p ++ path.
  Proof.
    intros HF. induction path as [|k path IH]; intros p; cbn [joinp fold_left]; [now rewrite app_nil_r|]. inversion HF; subst.
    fold (joinp (p ++ "." ++ k) path). rewrite IH by auto. rewrite split_app, (split_free k), <- app_assoc by auto. reflexivity.
  Qed.
  Lemma flatten_rec_In t : keys_unique t -> forall p k v, In (k, v) (flatten_rec (Some p) t) <-> exists path, tlook t path = Some (Leaf v) /\ k = joinp p path.
  Proof.
    induction t as [w|l IH] using tree_ind'; intros HU p k v.
    - cbn [flatten_rec]. split.
      + intros [E|[]]. injection E as <- <-. exists []. auto.
      + intros ([|k0 path] & H1 & H2); [|discriminate]. injection H1 as <-. cbn in H2. subst. left; auto.
    - cbn [flatten_rec]. rewrite in_flat_map. split.
      + intros ([k0 t] & Hin & H). cbn [fst snd] in H. apply (IH k0 t Hin (ku_child _ _ _ HU Hin)) in H as (path & H1 & H2).
        exists (k0 :: path). split; [rewrite (child_look l k0 t); auto; now apply ku_node|]. exact H2.
      + intros ([|k0 path] & H1 & H2); [discriminate|]. apply child_look_inv in H1 as (t & Hin & _ & H1). exists (k0, t). split; auto. cbn [fst snd].
        apply (IH k0 t Hin (ku_child _ _ _ HU Hin)). exists path. auto.
  Qed.
  (** the entries of the flattened dictionary *)
  Lemma flatten_spec (l : list (string * tree V)) : keys_unique (Node l) -> keys_dot_free (Node l) ->
    NoDup (map fst (flatten l)) /\ forall k v, dget (flatten l) k = Some v <-> tlook (Node l) (split k) = Some (Leaf v).
  Proof.
    intros HU HD. assert (HI : forall k v, In (k, v) (flatten_rec None (Node l)) <-> tlook (Node l) (split k) = Some (Leaf v)).
    { intros k v. cbn [flatten_rec]. rewrite in_flat_map. split.
      - intros ([k0 t] & Hin & H). cbn [fst snd] in H. apply (flatten_rec_In t (ku_child _ _ _ HU Hin)) in H as (path & H1 & H2). subst k.
        assert (HF : Forall dot_free path) by (eapply look_dot_free; [eapply ku_child|eapply kd_child|]; eauto).
        rewrite split_joinp, (split_free k0) by (auto; eapply kd_node; eauto). rewrite <- H1. cbn [app]. apply child_look; auto. now apply ku_node.
      - intros H. pose proof (split_nonempty k) as HNE. destruct (split k) as [|k0 path] eqn:E; [congruence|].
        pose proof H as H'. apply child_look_inv in H' as (t & Hin & _ & H1). exists (k0, t). split; auto. cbn [fst snd].
        apply (flatten_rec_In t (ku_child _ _ _ HU Hin)). exists path. split; auto.
        assert (HF : Forall dot_free path) by (eapply look_dot_free; [eapply ku_child|eapply kd_child|]; eauto).
        apply split_inj. rewrite split_joinp, (split_free k0) by (auto; eapply kd_node; eauto). exact E. }
    unfold flatten. destruct (dbuild_spec (flatten_rec None (Node l))) as [D1 D2].
    - intros k v v' H1 H2. apply HI in H1, H2. congruence.
    - split; auto. intros k v. rewrite D2. apply HI.
  Qed.

  (** hierarchical: the first loop *)
  Lemma dget_snoc (d : list (string * V)) k v k' : ~ In k (map fst d) -> dget (d ++ [(k, v)]) k' = if String.eqb k k' then Some v else dget d k'.
  Proof.
    induction d as [|[k0 v0] d IH]; cbn [app dget map fst]; intros H; [reflexivity|]. rewrite IH by (intros Hf; apply H; right; auto).
    destruct (String.eqb k0 k') eqn:E; [|reflexivity]. destruct (String.eqb k k') eqn:E'; [|reflexivity]. apply String.eqb_eq in E, E'. subst. exfalso. apply H. left; auto.
  Qed.
  Definition loop_inv (data : list (string * V)) (st : list (string * tree V) * list (string * list (string * V))) : Prop :=
    NoDup (map fst (fst st)) /\ NoDup (map fst (snd st)) /\
    (forall k x, dget (fst st) k = Some x <-> exists v, x = Leaf v /\ dget data k = Some v /\ dot_free k) /\
    (forall p g, dget (snd st) p = Some g -> dot_free p /\ NoDup (map fst g) /\ g <> []) /\
    (forall p r v, dot_free p -> dget data (p ++ "." ++ r) = Some v <-> exists g, dget (snd st) p = Some g /\ dget g r = Some v).
  Lemma dot_inj p q r s : dot_free p -> dot_free q -> (p ++ "." ++ r)%string = (q ++ "." ++ s)%string -> p = q /\ r = s.
  Proof.
    intros Hp Hq E. apply (f_equal split) in E. rewrite !split_app, (split_free p), (split_free q) in E by auto. injection E as E1 E2. split; auto. now apply split_inj.
  Qed.
  Lemma dot_not_free p r : ~ dot_free (p ++ "." ++ r).
  Proof. induction p as [|c p IH]; cbn; [intros [H _]; congruence|intros [_ H]; auto]. Qed.
  Lemma hier_loop (data : list (string * V)) : NoDup (map fst data) -> loop_inv data (fold_left hier_step data ([], [])).
  Proof.
    induction data as [|[k0 v0] data IH] using rev_ind; intros HN.
    - cbn. repeat split; try constructor; try discriminate.
      + intros (v & _ & H & _). discriminate.
      + intros (g & Hg & _). discriminate.
    - rewrite map_app in HN. cbn [map fst] in HN. assert (Hk0 : ~ In k0 (map fst data)).
      { intros Hf. apply NoDup_remove_2 in HN. rewrite app_nil_r in HN. auto. }
      apply NoDup_remove_1 in HN. rewrite app_nil_r in HN. specialize (IH HN). rewrite fold_left_app. cbn [fold_left].
      destruct (fold_left hier_step data ([], [])) as [ret groups]. destruct IH as (I1 & I2 & I3 & I4 & I5). cbn [fst snd] in *.
      unfold hier_step. cbn [fst snd]. destruct (1 <? length (split k0)) eqn:EL.
      + apply Nat.ltb_lt in EL. assert (HD : ~ dot_free k0) by (intros Hf; apply split_one in Hf; lia).
        pose proof (split_dot_free k0) as HF. pose proof (join_split k0) as HJ. destruct (split k0) as [|p0 [|r1 r2]] eqn:ES; cbn [length] in EL; try lia. clear EL.
        cbn [hd tl]. assert (Hp0 : dot_free p0) by (now inversion HF). rewrite join_cons in HJ by discriminate. set (r0 := join (r1 :: r2)) in *.
        unfold loop_inv; cbn [fst snd]. split; auto. split; [now apply dset_NoDup|]. split; [|split].
        * intros k x. rewrite I3. split; intros (v & -> & Hv & Hf); exists v; (split; [reflexivity|split; [|exact Hf]]).
          -- rewrite dget_snoc by auto. destruct (String.eqb k0 k) eqn:E; auto. apply String.eqb_eq in E. subst. contradiction.
          -- rewrite dget_snoc in Hv by auto. destruct (String.eqb k0 k) eqn:E; auto. apply String.eqb_eq in E. subst k. contradiction.
        * intros p g. rewrite dget_dset. destruct (String.eqb p0 p) eqn:E; [|apply I4]. apply String.eqb_eq in E. subst p. intros H. injection H as <-. split; auto.
          destruct (dget groups p0) as [g0|] eqn:Eg.
          -- destruct (I4 _ _ Eg) as (_ & HNg & _). split; [now apply dset_NoDup|]. destruct g0 as [|[? ?] ?]; cbn [dset]; [discriminate|]. destruct (String.eqb _ _); discriminate.
          -- split; [repeat constructor; auto|discriminate].
        * intros p r v Hp. rewrite dget_snoc by auto. destruct (String.eqb k0 (p ++ "." ++ r)) eqn:E.
          -- apply String.eqb_eq in E. rewrite E in HJ. apply dot_inj in HJ as [-> <-]; auto. rewrite dget_dset, String.eqb_refl. split.
             ++ intros H. injection H as <-. eexists. split; [reflexivity|]. now rewrite dget_dset, String.eqb_refl.
             ++ intros (g & H & H'). injection H as <-. now rewrite dget_dset, String.eqb_refl in H'.
          -- rewrite I5 by auto. rewrite dget_dset. destruct (String.eqb p0 p) eqn:E'; [|reflexivity]. apply String.eqb_eq in E'. subst p.
             assert (Hr : r0 <> r) by (intros Hr; apply String.eqb_neq in E; apply E; rewrite <- HJ, Hr; reflexivity). apply String.eqb_neq in Hr.
             split.
             ++ intros (g & Hg & Hr'). rewrite Hg. eexists. split; [reflexivity|]. now rewrite dget_dset, Hr.
             ++ intros (g & Hg & Hr'). injection Hg as <-. rewrite dget_dset, Hr in Hr'. destruct (dget groups p0) as [g0|]; [eauto|discriminate].
      + apply Nat.ltb_ge in EL. assert (HD : dot_free k0) by (apply split_one; pose proof (split_nonempty k0); destruct (split k0); [congruence|simpl in *; lia]).
        unfold loop_inv; cbn [fst snd]. split; [now apply dset_NoDup|]. split; auto. split; [|split; auto].
        * intros k x. rewrite dget_dset. destruct (String.eqb k0 k) eqn:E.
          -- pose proof E as E'. apply String.eqb_eq in E. subst k. split.
             ++ intros H. injection H as <-. exists v0. rewrite dget_snoc, E' by auto. auto.
             ++ intros (v & -> & Hv & _). rewrite dget_snoc, E' in Hv by auto. now injection Hv as <-.
          -- rewrite I3. split; intros (v & -> & Hv & Hf); exists v; rewrite dget_snoc, E in * by auto; auto.
        * intros p r v Hp. rewrite dget_snoc by auto. destruct (String.eqb k0 (p ++ "." ++ r)) eqn:E; [|now apply I5].
          apply String.eqb_eq in E. subst k0. exfalso. eapply dot_not_free; eauto.
  Qed.

  Lemma hier_groups (f : list (string * V) -> option (list (string * tree V))) (groups : list (string * list (string * V))) : NoDup (map fst groups) ->
    (forall p g, In (p, g) groups -> exists u, f g = Some u) -> forall ret,
    exists l, fold_left (fun r ng => match r, f (snd ng) with Some r, Some u => Some (dset r (fst ng) (Node u)) | _, _ => None end) groups (Some ret) = Some l /\
      (NoDup (map fst ret) -> NoDup (map fst l)) /\
      forall k, dget l k = match dget groups k with Some g => option_map Node (f g) | None => dget ret k end.
  Proof.
    induction groups as [|[p g] groups IH]; intros HN Hf ret; cbn [fold_left].
    - exists ret. auto.
    - cbn [fst snd] in *. destruct (Hf p g) as (t & Ht); [left; auto|]. rewrite Ht. inversion HN; subst.
      destruct (IH ltac:(auto) ltac:(intros; eapply Hf; right; eauto) (dset ret p (Node t))) as (l & Hl & HNl & HG). exists l. split; auto. split; [intros; now apply HNl, dset_NoDup|].
      intros k. rewrite HG. cbn [dget]. destruct (String.eqb p k) eqn:E.
      + apply String.eqb_eq in E. subst k. apply dget_None_key in H1. rewrite H1, dget_dset, String.eqb_refl, Ht. reflexivity.
      + destruct (dget groups k); auto. rewrite dget_dset, E. reflexivity.
  Qed.

  Lemma hier_spec fuel : forall data : list (string * V), NoDup (map fst data) -> prefix_free data -> (forall k v, dget data k = Some v -> length (split k) < fuel) -> 0 < fuel ->
    exists l, hier fuel data = Some l /\ keys_unique (Node l) /\ keys_dot_free (Node l) /\
      (forall path v, kind (tlook (Node l) path) = Some (Some v) <-> path <> [] /\ Forall dot_free path /\ dget data (join path) = Some v) /\
      (forall path, path <> [] -> kind (tlook (Node l) path) = Some None <-> Forall dot_free path /\ exists r v, dget data (join path ++ "." ++ r) = Some v).
  Proof.
    induction fuel as [|fuel IH]; [lia|]. intros data HN HPF HL _. cbn [hier].
    pose proof (hier_loop data HN) as HLI. destruct (fold_left hier_step data ([], [])) as [ret groups]. destruct HLI as (I1 & I2 & I3 & I4 & I5). cbn [fst snd] in *.
    assert (HGR : forall p g, dget groups p = Some g -> forall r v, dget g r = Some v <-> dget data (p ++ "." ++ r) = Some v).
    { intros p g Hg r v. destruct (I4 p g Hg) as (Hp & _ & _). rewrite (I5 p r v Hp). split; [eauto|]. intros (g' & Hg' & H). congruence. }
    assert (HGs : forall p g, dget groups p = Some g -> exists l, hier fuel g = Some l /\ keys_unique (Node l) /\ keys_dot_free (Node l) /\
      (forall path v, kind (tlook (Node l) path) = Some (Some v) <-> path <> [] /\ Forall dot_free path /\ dget g (join path) = Some v) /\
      (forall path, path <> [] -> kind (tlook (Node l) path) = Some None <-> Forall dot_free path /\ exists r v, dget g (join path ++ "." ++ r) = Some v)).
    { intros p g Hg. destruct (I4 p g Hg) as (Hp & HNg & Hne). assert (HLg : forall k v, dget g k = Some v -> length (split k) < fuel).
      { intros k v Hk. rewrite HGR in Hk by eauto. apply HL in Hk. rewrite split_app, (split_free p) in Hk by auto. simpl in Hk. lia. }
      apply IH; auto.
      - intros k k' v v' Hk Hk' rest E. rewrite HGR in Hk, Hk' by eauto. apply (HPF _ _ _ _ Hk Hk' rest). rewrite E. symmetry. apply dot_assoc.
      - destruct g as [|[k v] g]; [congruence|]. specialize (HLg k v). cbn [dget] in HLg. rewrite String.eqb_refl in HLg. specialize (HLg eq_refl). lia. }
    destruct (hier_groups (hier fuel) groups I2) with (ret := ret) as (l & Hl & HNl & HG).
    { intros p g Hin. destruct (HGs p g) as (t & Ht & _); [now apply In_dget|eauto]. }
    exists l. split; [exact Hl|].
    assert (Hleaf : forall k, dget groups k = None -> dget l k = dget ret k) by (intros k Hk; now rewrite HG, Hk).
    assert (Hnode : forall k g, dget groups k = Some g -> exists u, dget l k = Some (Node u) /\ hier fuel g = Some u).
    { intros k g Hk. destruct (HGs k g Hk) as (t & Ht & _). exists t. split; auto. rewrite HG, Hk, Ht. reflexivity. }
    assert (Hconf : forall k g v, dget groups k = Some g -> dget data k = Some v -> False).
    { intros k g v Hg Hv. destruct (I4 k g Hg) as (_ & _ & Hne). destruct g as [|[r w] g]; [congruence|].
      assert (Hr : dget ((r, w) :: g) r = Some w) by (cbn [dget]; now rewrite String.eqb_refl). rewrite HGR in Hr by eauto. apply (HPF _ _ _ _ Hv Hr r). reflexivity. }
    split; [|split; [|split]].
    - intros path l' H. destruct path as [|k path]; [injection H as <-; auto|]. cbn [tlook] in H. destruct (dget groups k) as [g|] eqn:Eg.
      + destruct (Hnode k g Eg) as (t & Ht & Ht'). rewrite Ht in H. destruct (HGs k g Eg) as (t2 & Ht2 & HU & _). assert (t2 = t) by congruence. subst t2. now apply (HU path).
      + rewrite (Hleaf k Eg) in H. destruct (dget ret k) as [x|] eqn:Ex; [|discriminate]. apply I3 in Ex as (v & -> & _). destruct path; discriminate.
    - intros path l' k' x H Hin. destruct path as [|k path].
      + injection H as <-. apply (In_dget _ _ _ (HNl I1)) in Hin. rewrite HG in Hin. destruct (dget groups k') as [g|] eqn:Eg; [now apply (I4 k' g)|]. apply I3 in Hin as (v & _ & _ & Hf). exact Hf.
      + cbn [tlook] in H. destruct (dget groups k) as [g|] eqn:Eg.
        * destruct (Hnode k g Eg) as (t & Ht & Ht'). rewrite Ht in H. destruct (HGs k g Eg) as (t2 & Ht2 & _ & HD & _). assert (t2 = t) by congruence. subst t2. now apply (HD path l' k' x).
        * rewrite (Hleaf k Eg) in H. destruct (dget ret k) as [y|] eqn:Ex; [|discriminate]. apply I3 in Ex as (v & -> & _). destruct path; discriminate.
    - intros path v. destruct path as [|k path]; [cbn; split; [discriminate|intros [H _]; congruence]|]. cbn [tlook].
      destruct (dget groups k) as [g|] eqn:Eg.
      + destruct (Hnode k g Eg) as (t & Ht & Ht'). rewrite Ht. destruct (HGs k g Eg) as (t2 & Ht2 & _ & _ & HA & _). assert (t2 = t) by congruence. subst t2. rewrite HA.
        destruct (I4 k g Eg) as (Hk & _). destruct path as [|k1 path].
        * split; [intros [H _]; congruence|]. intros (_ & _ & H). cbn in H. exfalso. eauto.
        * rewrite (join_cons k) by discriminate. rewrite (HGR k g Eg). split; intros (H1 & H2 & H3); (split; [discriminate|split; [|exact H3]]); [constructor; auto|now inversion H2].
      + rewrite (Hleaf k Eg). destruct path as [|k1 path].
        * cbn [tlook join String.concat]. split.
          -- intros H. destruct (dget ret k) as [x|] eqn:Ex; [|discriminate]. apply I3 in Ex as (w & -> & Hw & Hf). injection H as <-. split; [discriminate|]. split; [repeat constructor; auto|exact Hw].
          -- intros (_ & HF & H). inversion HF; subst. assert (Ex : dget ret k = Some (Leaf v)) by (apply I3; eauto). now rewrite Ex.
        * split.
          -- intros H. destruct (dget ret k) as [x|] eqn:Ex; [|discriminate]. apply I3 in Ex as (w & -> & _). discriminate.
          -- intros (_ & HF & H). rewrite (join_cons k) in H by discriminate. inversion HF; subst. apply I5 in H as (g & Hg & _); auto. congruence.
    - intros path Hne. destruct path as [|k path]; [congruence|]. cbn [tlook].
      pose proof dot_assoc as Hj.
      destruct (dget groups k) as [g|] eqn:Eg.
      + destruct (Hnode k g Eg) as (t & Ht & Ht'). rewrite Ht. destruct (HGs k g Eg) as (t2 & Ht2 & _ & _ & _ & HB). assert (t2 = t) by congruence. subst t2.
        destruct (I4 k g Eg) as (Hk & _ & Hgne). destruct path as [|k1 path].
        * cbn [tlook kind join String.concat]. split; [|auto]. intros _. split; [repeat constructor; auto|]. destruct g as [|[r w] g]; [congruence|].
          exists r, w. rewrite <- (HGR k _ Eg). cbn [dget]. now rewrite String.eqb_refl.
        * rewrite HB by discriminate. rewrite (join_cons k) by discriminate. split.
          -- intros (HF & r & v & H). split; [constructor; auto|]. exists r, v. rewrite (HGR k g Eg) in H. now rewrite Hj.
          -- intros (HF & r & v & H). split; [now inversion HF|]. exists r, v. rewrite (HGR k g Eg). now rewrite Hj in H.
      + rewrite (Hleaf k Eg). split.
        * intros H. destruct (dget ret k) as [x|] eqn:Ex; [|discriminate]. apply I3 in Ex as (w & -> & _). destruct path; discriminate.
        * intros (HF & r & v & H). inversion HF; subst. exfalso. destruct path as [|k1 path].
          -- cbn [join String.concat] in H. apply I5 in H as (g & Hg & _); auto. congruence.
          -- rewrite (join_cons k), Hj in H by discriminate. apply I5 in H as (g & Hg & _); auto. congruence.
  Qed.
End T.
