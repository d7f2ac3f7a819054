(** * C44: flattening and rebuilding nested parameter dictionaries *)
From Coq Require Import Ascii String List Arith Bool Lia.
From Verif Require Import M_Params S_Params P_Params.
Import ListNotations.
Local Open Scope nat_scope.

Lemma tlook_app {V} (t : tree V) p q : tlook t (p ++ q) = match tlook t p with Some x => tlook x q | None => None end.
Proof. revert t. induction p as [|k p IH]; intros t; [reflexivity|]. cbn [tlook app]. destruct t; auto. destruct (dget l k); auto. Qed.
Lemma hierarchical_spec {V} (data : list (string * V)) : NoDup (map fst data) -> prefix_free data ->
  exists l, hierarchical data = Some l /\ keys_unique (Node l) /\ keys_dot_free (Node l) /\
    (forall path v, kind (tlook (Node l) path) = Some (Some v) <-> path <> [] /\ Forall dot_free path /\ dget data (join path) = Some v) /\
    (forall path, path <> [] -> kind (tlook (Node l) path) = Some None <-> Forall dot_free path /\ exists r v, dget data (join path ++ "." ++ r) = Some v).
Proof.
  intros HN HP. apply hier_spec; auto; [|lia]. intros k v Hk. apply dget_In in Hk.
  assert (HM : Forall (fun x => x <= list_max (map (fun kv => length (split (fst kv))) data)) (map (fun kv => length (split (fst kv))) data)) by (apply list_max_le; lia).
  rewrite Forall_forall in HM. assert (In (length (split k)) (map (fun kv => length (split (fst kv))) data)) by (apply in_map_iff; exists (k, v); auto). apply HM in H. lia.
Qed.
Lemma kind_det {V} (a b : option (option V)) : (forall v, a = Some (Some v) <-> b = Some (Some v)) -> (a = Some None <-> b = Some None) -> a = b.
Proof.
  intros H1 H2. destruct a as [[v|]|].
  - symmetry. now apply H1.
  - symmetry. now apply H2.
  - destruct b as [[v|]|]; auto; [now apply H1|now apply H2].
Qed.
Lemma kind_leaf {V} (x : option (tree V)) v : kind x = Some (Some v) <-> x = Some (Leaf v).
Proof. destruct x as [[w|l]|]; cbn; split; intros H; try discriminate; [now injection H as <-|now injection H as <-]. Qed.
Lemma kind_node {V} (x : option (tree V)) : kind x = Some None <-> exists l, x = Some (Node l).
Proof. destruct x as [[w|l]|]; cbn; split; intros H; try discriminate; try (destruct H; discriminate); eauto. Qed.

(** without empty sub-dictionaries there is a value below every dictionary *)
Lemma leaf_below {V} (t : tree V) : keys_unique t -> (forall path, tlook t path <> Some (Node [])) -> exists path v, tlook t path = Some (Leaf v).
Proof.
  induction t as [v|l IH] using tree_ind'; intros HU HE; [exists [], v; reflexivity|]. destruct l as [|[k t] l]; [exfalso; apply (HE []); reflexivity|].
  assert (Hin : In (k, t) ((k, t) :: l)) by (left; auto). destruct (IH k t Hin) as (path & v & H); [eapply ku_child; eauto| |].
  - intros path H. apply (HE (k :: path)). cbn [tlook dget]. now rewrite String.eqb_refl.
  - exists (k :: path), v. cbn [tlook dget]. now rewrite String.eqb_refl.
Qed.

(** C44: rebuilding the flattened dictionary gives the dictionary back - for names without dots and without empty sub-dictionaries *)
Theorem C44_round_trip : forall (V : Type) (l : list (string * tree V)),
  keys_unique (Node l) -> keys_dot_free (Node l) -> no_empty (Node l) ->
  exists l', hierarchical (flatten l) = Some l' /\ same_dict (Node l') (Node l).
Proof.
  intros V l HU HD HE. destruct (flatten_spec l HU HD) as [HN HF].
  assert (HP : prefix_free (flatten l)).
  { intros k k' v v' Hk Hk' rest E. subst k'. rewrite HF in Hk, Hk'. rewrite split_app, tlook_app, Hk in Hk'. pose proof (split_nonempty rest). destruct (split rest); [congruence|discriminate]. }
  destruct (hierarchical_spec (flatten l) HN HP) as (l' & Hl' & _ & _ & HA & HB). exists l'. split; auto.
  intros path. apply kind_det.
  - intros v. rewrite HA, kind_leaf. split.
    + intros (Hne & Hf & H). rewrite HF, split_join in H by auto. exact H.
    + intros H. assert (Hne : path <> []) by (intros ->; discriminate). assert (Hf : Forall dot_free path) by (eapply look_dot_free; eauto).
      split; auto. split; auto. rewrite HF, split_join; auto.
  - destruct path as [|k path]; [cbn; tauto|]. rewrite HB by discriminate. rewrite kind_node. split.
    + intros (Hf & r & v & H). rewrite HF, split_app, split_join, tlook_app in H by (auto; discriminate).
      destruct (tlook (Node l) (k :: path)) as [[w|x]|]; [|eauto|discriminate]. pose proof (split_nonempty r). destruct (split r); [congruence|discriminate].
    + intros (x & H). assert (Hf : Forall dot_free (k :: path)) by (eapply look_dot_free; eauto). split; auto.
      destruct (leaf_below (Node x)) as (q & v & Hq).
      * intros p x' Hx'. apply (HU ((k :: path) ++ p)). now rewrite tlook_app, H.
      * intros p Hx'. apply (HE ((k :: path) ++ p)); [discriminate|]. now rewrite tlook_app, H.
      * assert (Hqne : q <> []) by (intros ->; discriminate).
        assert (HL : tlook (Node l) ((k :: path) ++ q) = Some (Leaf v)) by (now rewrite tlook_app, H).
        assert (Hfq : Forall dot_free q) by (apply (look_dot_free _ _ _ HU HD) in HL; apply Forall_app in HL; tauto).
        exists (join q), v. rewrite HF, split_app, !split_join by (auto; discriminate). exact HL.
Qed.
Print Assumptions C44_round_trip.

(** C44: the other direction - flattening the rebuilt hierarchy gives the flat dictionary back, if no name is a prefix of another *)
Theorem C44_flat_round_trip : forall (V : Type) (data : list (string * V)), NoDup (map fst data) -> prefix_free data ->
  exists l, hierarchical data = Some l /\ same_flat (flatten l) data.
Proof.
  intros V data HN HP. destruct (hierarchical_spec data HN HP) as (l & Hl & HU & HD & HA & _). exists l. split; auto.
  destruct (flatten_spec l HU HD) as [_ HF]. intros k.
  assert (HE : forall v, dget (flatten l) k = Some v <-> dget data k = Some v).
  { intros v. rewrite HF, <- kind_leaf, HA, join_split. split; [intros (_ & _ & H); auto|]. intros H. split; [apply split_nonempty|]. split; [apply split_dot_free|auto]. }
  destruct (dget (flatten l) k) as [v|] eqn:E; [symmetry; now apply HE|]. destruct (dget data k) as [v|] eqn:E'; auto. now apply HE.
Qed.
Print Assumptions C44_flat_round_trip.

(** C44 is false without the two conditions: an empty sub-dictionary disappears; a dotted name comes back as a hierarchy *)
Theorem C44_refuted :
  ~ (forall (V : Type) (l : list (string * tree V)), keys_unique (Node l) -> keys_dot_free (Node l) ->
       exists l', hierarchical (flatten l) = Some l' /\ same_dict (Node l') (Node l)) /\
  ~ (forall (V : Type) (l : list (string * tree V)), keys_unique (Node l) -> no_empty (Node l) ->
       exists l', hierarchical (flatten l) = Some l' /\ same_dict (Node l') (Node l)).
Proof.
  split; intros HH.
  - destruct (HH nat [("a"%string, Node [])]) as (l' & E & HS).
    + intros p l H. destruct p as [|k p]; [injection H as <-; repeat constructor; auto|]. cbn [tlook dget] in H. destruct (String.eqb "a" k); [|discriminate]. destruct p; [injection H as <-; constructor|discriminate].
    + intros p l k x H Hin. destruct p as [|k0 p].
      * injection H as <-. destruct Hin as [E|[]]. injection E as <- <-. cbn. split; [discriminate|exact Logic.I].
      * cbn [tlook dget] in H. destruct (String.eqb "a" k0); [|discriminate]. destruct p; [injection H as <-; destruct Hin|discriminate].
    + injection E as <-. specialize (HS ["a"%string]). discriminate.
  - destruct (HH nat [("a.b"%string, Leaf 1)]) as (l' & E & HS).
    + intros p l H. destruct p as [|k p]; [injection H as <-; repeat constructor; auto|]. cbn [tlook dget] in H. destruct (String.eqb "a.b" k); [|discriminate]. destruct p; discriminate.
    + intros p Hne H. destruct p as [|k p]; [congruence|]. cbn [tlook dget] in H. destruct (String.eqb "a.b" k); [|discriminate]. destruct p; discriminate.
    + vm_compute in E. injection E as <-. specialize (HS ["a.b"%string]). discriminate.
Qed.
Print Assumptions C44_refuted.

(** the hypotheses are met by a nested dictionary of two levels *)
Local Open Scope string_scope.
Definition demo_tree : list (string * tree nat) :=
  [("survival", Leaf 3); ("mating", Node [("crossover", Node [("prob", Leaf 9); ("eta", Leaf 15)]); ("n", Leaf 2)])].
Lemma ku_intro {V} (l : list (string * tree V)) : NoDup (map fst l) -> Forall (fun kt => keys_unique (snd kt)) l -> keys_unique (Node l).
Proof. intros HN HF p x H. destruct p as [|k p]; [now injection H as <-|]. apply child_look_inv in H as (t & Hin & _ & H). rewrite Forall_forall in HF. apply (HF (k, t) Hin p x H). Qed.
Lemma kd_intro {V} (l : list (string * tree V)) : Forall (fun kt => dot_free (fst kt) /\ keys_dot_free (snd kt)) l -> keys_dot_free (Node l).
Proof.
  intros HF p x k y H Hin. rewrite Forall_forall in HF. destruct p as [|k0 p]; [injection H as <-; now apply (HF (k, y))|].
  apply child_look_inv in H as (t & Hin' & _ & H). apply (proj2 (HF (k0, t) Hin') p x k y H Hin).
Qed.
Lemma ne_intro {V} (l : list (string * tree V)) : Forall (fun kt => snd kt <> Node [] /\ no_empty (snd kt)) l -> no_empty (Node l).
Proof.
  intros HF p Hne H. rewrite Forall_forall in HF. destruct p as [|k0 p]; [congruence|].
  apply child_look_inv in H as (t & Hin' & _ & H). destruct (HF (k0, t) Hin') as [H1 H2]. cbn [snd] in *. destruct p as [|k1 p]; [cbn in H; congruence|]. apply (H2 (k1 :: p)); [discriminate|auto].
Qed.
Lemma leaf_ok {V} (v : V) : keys_unique (Leaf v) /\ keys_dot_free (Leaf v) /\ no_empty (Leaf v).
Proof. split; [|split]; intros p; destruct p; intros; discriminate. Qed.
Example C44_case : keys_unique (Node demo_tree) /\ keys_dot_free (Node demo_tree) /\ no_empty (Node demo_tree) /\
  flatten demo_tree = [("survival", 3); ("mating.crossover.prob", 9); ("mating.crossover.eta", 15); ("mating.n", 2)] /\
  hierarchical (flatten demo_tree) = Some [("survival", Leaf 3); ("mating", Node [("n", Leaf 2); ("crossover", Node [("prob", Leaf 9); ("eta", Leaf 15)])])].
Proof.
  pose proof (@leaf_ok nat) as HL.
  split; [|split; [|split; [|split; vm_compute; reflexivity]]].
  - repeat (apply ku_intro; [repeat (constructor; [simpl; intuition discriminate|]); constructor|repeat (apply Forall_cons; cbn [snd]; try apply HL); try apply Forall_nil]).
  - repeat (apply kd_intro; repeat (apply Forall_cons; [cbn [fst snd]; split; [vm_compute; repeat (split; [discriminate|]); exact Logic.I|try apply HL]|]); try apply Forall_nil).
  - repeat (apply ne_intro; repeat (apply Forall_cons; [cbn [fst snd]; split; [discriminate|try apply HL]|]); try apply Forall_nil).
Qed.
