(** * C45 (set_params) and C54 (get_params) *)
From Coq Require Import Ascii String List Arith Bool Lia Permutation.
From Verif Require Import M_Params S_Params P_Params Thm_Params.
Import ListNotations.
Local Open Scope nat_scope.

Section SP.
  Context {V : Type} (as_obj : V -> obj).
  (** the loop over the entries *)
  Fixpoint sp_go (as_value : bool) (params : list (string * tree V)) (st : @store V * list (string * obj)) : option (@store V * obj) :=
    match params with
    | [] => Some (fst st, ODict (snd st))
    | (k, v) :: params =>
        match v with
        | Node _ =>
            match dget (snd st) k with
            | None => None
            | Some o => match set_params as_obj true v (fst st, o) with None => None | Some (s', o') => sp_go as_value params (s', dset (snd st) k o') end
            end
        | Leaf w =>
            if as_value then match dget (snd st) k with Some (OVar i) => sp_go as_value params (upd_store (fst st) i w, snd st) | _ => None end
            else sp_go as_value params (fst st, dset (snd st) k (as_obj w))
        end
    end.
  Lemma set_params_dict av ps s l : set_params as_obj av (Node ps) (s, ODict l) = sp_go av ps (s, l).
  Proof.
    revert s l. induction ps as [|[k v] ps IH]; intros s l; [reflexivity|]. cbn [sp_go fst snd]. destruct v as [w|x].
    - destruct av; [|rewrite <- IH; reflexivity]. transitivity (match dget l k with Some (OVar i) => set_params as_obj true (Node ps) (upd_store s i w, ODict l) | _ => None end); [reflexivity|].
      destruct (dget l k) as [[i|?|?]|]; try reflexivity. apply IH.
    - transitivity (match dget l k with None => None | Some o => match set_params as_obj true (Node x) (s, o) with None => None | Some (s', o') => set_params as_obj av (Node ps) (s', ODict (dset l k o')) end end); [reflexivity|].
      destruct (dget l k) as [o|]; auto. destruct (set_params as_obj true (Node x) (s, o)) as [[s' o']|]; try reflexivity. apply IH.
  Qed.

  Fixpoint leaves (t : tree V) : list (list string * V) :=
    match t with Leaf v => [([], v)] | Node l => flat_map (fun kt => map (fun pv => (fst kt :: fst pv, snd pv)) (leaves (snd kt))) l end.
  Lemma leaves_look t : keys_unique t -> forall path v, In (path, v) (leaves t) <-> tlook t path = Some (Leaf v).
  Proof.
    induction t as [w|l IH] using tree_ind'; intros HU path v; cbn [leaves].
    - split; [intros [E|[]]; injection E as <- <-; reflexivity|]. destruct path; [|discriminate]. intros H. injection H as <-. left; auto.
    - rewrite in_flat_map. split.
      + intros ([k t] & Hin & H). apply in_map_iff in H as ([q w] & E & H). cbn [fst snd] in *. injection E as <- <-.
        rewrite (child_look l k t); auto; [|now apply ku_node]. apply (IH k t Hin); auto. eapply ku_child; eauto.
      + intros H. destruct path as [|k path]; [discriminate|]. apply child_look_inv in H as (t & Hin & _ & H). exists (k, t). split; auto. apply in_map_iff. exists (path, v).
        split; auto. apply (IH k t Hin); auto. eapply ku_child; eauto.
  Qed.
  Fixpoint apply_all (L : list (list string * V)) (o : obj) (s : @store V) : option (@store V) :=
    match L with [] => Some s | (p, v) :: L => match olook o p with Some (OVar i) => apply_all L o (upd_store s i v) | _ => None end end.
  Lemma apply_all_app L1 L2 o s : apply_all (L1 ++ L2) o s = match apply_all L1 o s with Some s' => apply_all L2 o s' | None => None end.
  Proof. revert s. induction L1 as [|[p v] L1 IH]; intros s; cbn [apply_all app]; auto. destruct (olook o p) as [[i|?|?]|]; auto. Qed.
  Lemma apply_all_child l k o L s : dget l k = Some o -> apply_all (map (fun pv => (k :: fst pv, snd pv)) L) (ODict l) s = apply_all L o s.
  Proof. intros H. revert s. induction L as [|[p v] L IH]; intros s; cbn [map apply_all fst snd]; auto. cbn [olook]. rewrite H. destruct (olook o p) as [[i|?|?]|]; auto. Qed.
  Lemma dset_same {W} (l : list (string * W)) k o : dget l k = Some o -> dset l k o = l.
  Proof.
    induction l as [|[k0 w] l IH]; cbn [dget dset]; [discriminate|]. destruct (String.eqb k0 k); [intros H; now injection H as ->|]. intros H. now rewrite IH.
  Qed.
  Lemma set_true p : forall s o s' o', set_params as_obj true p (s, o) = Some (s', o') -> o' = o /\ apply_all (leaves p) o s = Some s'.
  Proof.
    induction p as [w|ps IH] using tree_ind'; intros s o s' o' H; [discriminate|].
    destruct o as [i|w|l]; [discriminate| |].
    - destruct ps as [|? ?]; [|discriminate]. injection H as <- <-. auto.
    - rewrite set_params_dict in H. cbn [leaves]. revert s s' o' l H. induction ps as [|[k v] ps IHp]; intros s s' o' l H.
      + injection H as <- <-. auto.
      + cbn [sp_go fst snd] in H. cbn [flat_map]. rewrite apply_all_app. cbn [fst snd]. destruct v as [w|x].
        * destruct (dget l k) as [[i|?|?]|] eqn:E; try discriminate. cbn [leaves map fst snd apply_all olook]. rewrite E.
          apply IHp in H; [exact H|intros k' t' Hin'; apply (IH k' t'); right; exact Hin'].
        * destruct (dget l k) as [o|] eqn:E; [|discriminate]. destruct (set_params as_obj true (Node x) (s, o)) as [[s1 o1]|] eqn:E1; [|discriminate].
          apply (IH k (Node x)) in E1 as [-> E1]; [|left; auto]. rewrite (apply_all_child _ _ _ _ _ E), E1. rewrite (dset_same _ _ _ E) in H.
          apply IHp in H; [exact H|intros k' t' Hin'; apply (IH k' t'); right; exact Hin'].
  Qed.
  Lemma aa_other L o : forall s s' i, apply_all L o s = Some s' -> (forall p v, In (p, v) L -> olook o p <> Some (OVar i)) -> s' i = s i.
  Proof. clear as_obj.
    induction L as [|[p v] L IH]; intros s s' i H HN; cbn [apply_all] in H; [now injection H as <-|].
    destruct (olook o p) as [[j|?|?]|] eqn:E; try discriminate. rewrite (IH _ _ i H); [|intros; eapply HN; right; eauto].
    unfold upd_store. destruct (i =? j) eqn:Ej; auto. apply Nat.eqb_eq in Ej. subst. exfalso. eapply HN; [left; reflexivity|auto].
  Qed.
  Lemma aa_hit L o : forall s s' i w, apply_all L o s = Some s' -> (forall p v, In (p, v) L -> olook o p = Some (OVar i) -> v = w) ->
    (exists p, In (p, w) L /\ olook o p = Some (OVar i)) -> s' i = Some w.
  Proof. clear as_obj.
    induction L as [|[p v] L IH]; intros s s' i w H HV (p0 & Hin & Hp0); [destruct Hin|]. cbn [apply_all] in H.
    destruct (olook o p) as [[j|?|?]|] eqn:E; try discriminate.
    destruct (in_dec Nat.eq_dec i (flat_map (fun pv => match olook o (fst pv) with Some (OVar j) => [j] | _ => [] end) L)) as [Hi|Hi].
    - apply in_flat_map in Hi as ([q u] & Hq & Hi). cbn [fst] in Hi. destruct (olook o q) as [[j'|?|?]|] eqn:Eq; simpl in Hi; try tauto. destruct Hi as [->|[]].
      apply (IH _ _ i w H); [intros; eapply HV; [right|]; eauto|]. exists q. split; auto. rewrite <- (HV q u); [exact Hq|right; auto|auto].
    - rewrite (aa_other L o _ _ i H).
      + destruct Hin as [Hin|Hin].
        * injection Hin as -> ->. rewrite E in Hp0. injection Hp0 as ->. unfold upd_store. now rewrite Nat.eqb_refl.
        * exfalso. apply Hi. apply in_flat_map. exists (p0, w). split; auto. cbn [fst]. rewrite Hp0. left; auto.
      + intros q u Hq Eq. apply Hi. apply in_flat_map. exists (q, u). split; auto. cbn [fst]. rewrite Eq. left; auto.
  Qed.
  Lemma aa_some L o : forall s, (forall p v, In (p, v) L -> exists i, olook o p = Some (OVar i)) -> exists s', apply_all L o s = Some s'.
  Proof. clear as_obj.
    induction L as [|[p v] L IH]; intros s H; cbn [apply_all]; [eauto|]. destruct (H p v) as (i & ->); [left; auto|]. apply IH. intros; eapply H; right; eauto.
  Qed.
  Lemma aa_var L o : forall s s', apply_all L o s = Some s' -> forall p v, In (p, v) L -> exists i, olook o p = Some (OVar i).
  Proof. clear as_obj.
    induction L as [|[p v] L IH]; intros s s' H q w Hin; [destruct Hin|]. cbn [apply_all] in H. destruct (olook o p) as [[i|?|?]|] eqn:E; try discriminate.
    destruct Hin as [Hin|Hin]; [injection Hin as <- <-; eauto|eapply IH; eauto].
  Qed.
  Lemma set_true_some p : forall s o, keys_unique p -> (forall v, p <> Leaf v) ->
    (forall path v, tlook p path = Some (Leaf v) -> exists i, olook o path = Some (OVar i)) ->
    (forall path l, tlook p path = Some (Node l) -> exists l', olook o path = Some (ODict l')) -> exists s', set_params as_obj true p (s, o) = Some (s', o).
  Proof.
    induction p as [w|ps IH] using tree_ind'; intros s o HU Hnl HL HN; [exfalso; eapply Hnl; eauto|].
    destruct (HN [] ps eq_refl) as (l & Hl). injection Hl as ->. rewrite set_params_dict.
    assert (HG : forall ps', incl ps' ps -> forall s, exists s', sp_go true ps' (s, l) = Some (s', ODict l)).
    { induction ps' as [|[k v] ps' IHp]; intros Hi s0; [exists s0; reflexivity|]. cbn [sp_go fst snd].
      assert (Hin : In (k, v) ps) by (apply Hi; left; auto). assert (Hi' : incl ps' ps) by (intros z Hz; apply Hi; right; auto).
      assert (HC : forall q, tlook (Node ps) (k :: q) = tlook v q) by (intros q; apply child_look; auto; now apply ku_node).
      destruct v as [w|x].
      - destruct (HL [k] w) as (i & Hi1); [rewrite HC; reflexivity|]. cbn [olook] in Hi1. destruct (dget l k) as [o'|]; [|discriminate]. cbn in Hi1. injection Hi1 as ->. apply IHp; auto.
      - destruct (HN [k] x) as (l' & Hl'); [rewrite HC; reflexivity|]. cbn [olook] in Hl'. destruct (dget l k) as [o'|] eqn:E; [|discriminate]. cbn in Hl'. injection Hl' as ->.
        destruct (IH k (Node x) Hin s0 (ODict l')) as (s1 & E1).
        + eapply ku_child; eauto.
        + discriminate.
        + intros q u Hq. destruct (HL (k :: q) u) as (i & Hi1); [now rewrite HC|]. exists i. cbn [olook] in Hi1. now rewrite E in Hi1.
        + intros q u Hq. destruct (HN (k :: q) u) as (i & Hi1); [now rewrite HC|]. exists i. cbn [olook] in Hi1. now rewrite E in Hi1.
        + rewrite E1. rewrite (dset_same _ _ _ E). apply IHp; auto. }
    apply HG. apply incl_refl.
  Qed.
  (** as_value=False: what the loop does *)
  Lemma go_false ps : forall s l s' o', NoDup (map fst ps) -> sp_go false ps (s, l) = Some (s', o') ->
    exists l', o' = ODict l' /\ forall k, match dget ps k with
      | None => dget l' k = dget l k
      | Some (Leaf w) => dget l' k = Some (as_obj w)
      | Some (Node x) => exists o, dget l k = Some o /\ dget l' k = Some o /\ exists s1 s2, set_params as_obj true (Node x) (s1, o) = Some (s2, o)
      end.
  Proof.
    induction ps as [|[k0 v] ps IH]; intros s l s' o' HN H; cbn [sp_go fst snd] in H.
    - injection H as <- <-. exists l. split; auto. intros k. reflexivity.
    - inversion HN as [|? ? HN1 HN2]; subst. destruct v as [w|x].
      + apply IH in H as (l' & -> & HS); auto. exists l'. split; auto. intros k. specialize (HS k). cbn [dget]. destruct (String.eqb k0 k) eqn:E.
        * apply String.eqb_eq in E. subst k. apply dget_None_key in HN1. rewrite HN1 in HS. rewrite HS, dget_dset, String.eqb_refl. reflexivity.
        * rewrite dget_dset, E in HS. exact HS.
      + destruct (dget l k0) as [o|] eqn:Eo; [|discriminate]. destruct (set_params as_obj true (Node x) (s, o)) as [[s1 o1]|] eqn:E1; [|discriminate].
        pose proof (set_true _ _ _ _ _ E1) as [-> _]. rewrite (dset_same _ _ _ Eo) in H. apply IH in H as (l' & -> & HS); auto. exists l'. split; auto.
        intros k. specialize (HS k). cbn [dget]. destruct (String.eqb k0 k) eqn:E; [|exact HS]. apply String.eqb_eq in E. subst k. apply dget_None_key in HN1. rewrite HN1 in HS.
        exists o. rewrite HS. split; auto. split; auto. exists s, s1. exact E1.
  Qed.
End SP.

(** C45: set_params(obj, params) (values): the objects stay, every variable named by the nested dictionary gets its value, all others keep
    theirs (if two names lead to the same variable, this speaks about variables named once) *)
Theorem C45_values : forall (V : Type) as_obj (p : tree V) s o s' o', keys_unique p -> set_params as_obj true p (s, o) = Some (s', o') ->
  o' = o /\
  (forall path v, tlook p path = Some (Leaf v) -> exists i, olook o path = Some (OVar i) /\
     ((forall path' v', tlook p path' = Some (Leaf v') -> olook o path' = Some (OVar i) -> path' = path) -> s' i = Some v)) /\
  (forall i, (forall path v, tlook p path = Some (Leaf v) -> olook o path <> Some (OVar i)) -> s' i = s i).
Proof.
  intros V as_obj p s o s' o' HU H. apply set_true in H as [-> H]. pose proof (leaves_look p HU) as HL. split; auto. split.
  - intros path v Hp. apply HL in Hp. destruct (aa_var _ _ _ _ H _ _ Hp) as (i & Hi). exists i. split; auto. intros Hu.
    eapply aa_hit with (i := i) (w := v); [exact H| |eauto]. intros q u Hq Eq. apply HL in Hq. assert (q = path) by (eapply Hu; eauto). subst q. apply HL in Hp. congruence.
  - intros i Hn. eapply aa_other; [exact H|]. intros q u Hq. apply HL in Hq. eauto.
Qed.
Print Assumptions C45_values.

(** C45: and it succeeds whenever every name leads to a variable *)
Theorem C45_succeeds : forall (V : Type) as_obj (l : list (string * tree V)) s o, keys_unique (Node l) ->
  (forall path v, tlook (Node l) path = Some (Leaf v) -> exists i, olook o path = Some (OVar i)) ->
  (forall path x, tlook (Node l) path = Some (Node x) -> exists y, olook o path = Some (ODict y)) ->
  exists s', set_params as_obj true (Node l) (s, o) = Some (s', o).
Proof. intros. apply set_true_some; auto. discriminate. Qed.
Print Assumptions C45_succeeds.

(** C45, the claim for as_value=False - every name then holds the assigned object - is false: nested names are set as values *)
Theorem C45_refuted :
  ~ (forall (V : Type) as_obj (p : tree V) s o s' o', keys_unique p -> set_params as_obj false p (s, o) = Some (s', o') ->
       forall path v, tlook p path = Some (Leaf v) -> olook o' path = Some (as_obj v)).
Proof.
  intros HH. specialize (HH nat OPlain (Node [("mating"%string, Node [("prob"%string, Leaf 7)])]) (fun _ => None)
    (ODict [("mating"%string, ODict [("prob"%string, OVar 0)])])). cbv in HH.
  specialize (HH _ _ ltac:(apply ku_intro; [repeat constructor; auto|constructor; [|constructor]]; apply ku_intro; [repeat constructor; auto|constructor; [apply leaf_ok|constructor]]) eq_refl ["mating"%string; "prob"%string] 7 eq_refl).
  discriminate.
Qed.
Print Assumptions C45_refuted.

(** C45, what as_value=False does: names at the top level hold the assigned object; every nested name still holds the variable it held *)
Theorem C45_assign_partial : forall (V : Type) as_obj (l : list (string * tree V)) s x s' o', keys_unique (Node l) ->
  set_params as_obj false (Node l) (s, ODict x) = Some (s', o') ->
  (forall k v, dget l k = Some (Leaf v) -> olook o' [k] = Some (as_obj v)) /\
  (forall k k' path v, tlook (Node l) (k :: k' :: path) = Some (Leaf v) ->
     exists i, olook (ODict x) (k :: k' :: path) = Some (OVar i) /\ olook o' (k :: k' :: path) = Some (OVar i)) /\
  (forall k path, dget l k = None -> olook o' (k :: path) = olook (ODict x) (k :: path)).
Proof.
  intros V as_obj l s x s' o' HU H. rewrite set_params_dict in H. apply go_false in H as (l' & -> & HS); [|now apply ku_node]. split; [|split].
  - intros k v Hk. specialize (HS k). rewrite Hk in HS. cbn [olook]. now rewrite HS.
  - intros k k' path v Hp. apply child_look_inv in Hp as (t & Hin & Hk & Hp). specialize (HS k). rewrite Hk in HS. destruct t as [w|y]; [discriminate|].
    destruct HS as (o & Ho & Ho' & s1 & s2 & Hs). apply set_true in Hs as [_ Hs]. assert (HUt : keys_unique (Node y)) by (eapply ku_child; eauto).
    apply (leaves_look _ HUt) in Hp. destruct (aa_var _ _ _ _ Hs _ _ Hp) as (i & Hi). exists i. cbn [olook] in *. rewrite Ho, Ho'. auto.
  - intros k path Hk. specialize (HS k). rewrite Hk in HS. cbn [olook]. now rewrite HS.
Qed.
Print Assumptions C45_assign_partial.

(** ** C54: get_params *)
Section GP.
  Variable matches : nat -> bool.
  Variable root : obj.
  Hypothesis HU : okeys_unique root.
  Lemma olook_app o p q : olook o (p ++ q) = match olook o p with Some x => olook x q | None => None end.
  Proof. revert o. induction p as [|k p IH]; intros o; [reflexivity|]. cbn [olook app]. destruct o; auto. destruct (dget l k); auto. Qed.

  (** writing at a path that is free *)
  Lemma put_look path i : path <> [] -> forall d : list (string * tree nat),
    (forall a b, path = a ++ b -> b <> [] -> forall j, tlook (Node d) a <> Some (Leaf j)) -> 
    (forall q, kind (tlook (Node (put_at path i d)) (path ++ q)) = match q with [] => Some (Some i) | _ => None end) /\
    (forall a b, path = a ++ b -> b <> [] -> exists x, tlook (Node (put_at path i d)) a = Some (Node x)) /\
    (forall p, (forall q, p <> path ++ q) -> (forall q, path <> p ++ q) -> kind (tlook (Node (put_at path i d)) p) = kind (tlook (Node d) p)).
  Proof.
    induction path as [|k path IH]; [congruence|]. intros _ d Hd. destruct path as [|k1 path].
    - cbn [put_at]. split; [|split].
      + intros q. cbn [app tlook]. rewrite dget_dset, String.eqb_refl. destruct q; reflexivity.
      + intros [|a0 a] b E Hb; [eexists; reflexivity|]. cbn [app] in E. injection E as -> E. destruct a; [destruct b; [congruence|discriminate]|discriminate].
      + intros [|k' p] H1 H2; [reflexivity|]. cbn [tlook]. rewrite dget_dset. destruct (String.eqb k k') eqn:E; [|reflexivity]. apply String.eqb_eq in E. subst. exfalso. apply (H1 p). reflexivity.
    - set (sub := match dget d k with Some (Node l) => l | _ => [] end).
      change (put_at (k :: k1 :: path) i d) with (dset d k (Node (put_at (k1 :: path) i sub))).
      assert (Hsub : forall p, p <> [] -> tlook (Node sub) p = tlook (Node d) (k :: p)).
      { intros [|k' p] Hp; [congruence|]. change (tlook (Node d) (k :: k' :: p)) with (match dget d k with None => None | Some t' => tlook t' (k' :: p) end). unfold sub.
        destruct (dget d k) as [[j|l]|] eqn:E; [|reflexivity|reflexivity]. exfalso. apply (Hd [k] (k1 :: path) eq_refl ltac:(discriminate) j). cbn [tlook]. now rewrite E. }
      destruct (IH ltac:(discriminate) sub) as (A1 & A2 & A3).
      { intros a b E Hb j Hj. apply (Hd (k :: a) b ltac:(cbn; congruence) Hb j). destruct a as [|a0 a]; [discriminate|]. now rewrite <- Hsub by discriminate. }
      set (new := put_at (k1 :: path) i sub) in *.
      split; [|split].
      + intros q. cbn [app]. change (tlook (Node (dset d k (Node new))) (k :: k1 :: path ++ q)) with (match dget (dset d k (Node new)) k with None => None | Some t' => tlook t' ((k1 :: path) ++ q) end).
        rewrite dget_dset, String.eqb_refl. apply A1.
      + intros [|a0 a] b E Hb; [eexists; reflexivity|]. cbn [app] in E. injection E as <- E. destruct (A2 a b E Hb) as (x & Hx). exists x. cbn [tlook]. rewrite dget_dset, String.eqb_refl. exact Hx.
      + intros [|k' p] H1 H2; [reflexivity|]. cbn [tlook]. rewrite dget_dset. destruct (String.eqb k k') eqn:E; [|reflexivity]. apply String.eqb_eq in E. subst k'.
        destruct p as [|k2 p]; [exfalso; apply (H2 (k1 :: path)); reflexivity|]. rewrite A3.
        * rewrite Hsub by discriminate. reflexivity.
        * intros q Eq. apply (H1 q). rewrite Eq. reflexivity.
        * intros q Eq. apply (H2 q). rewrite Eq. reflexivity.
  Qed.

  Definition qsize (q : list (list string * obj)) : nat := list_sum (map (fun e => osize (snd e)) q).
  Definition gp_inv (q : list (list string * obj)) (visited : list nat) (ret : list (string * tree nat)) : Prop :=
    (forall p o, In (p, o) q -> olook root p = Some o) /\
    (forall p i, tlook (Node ret) p = Some (Leaf i) -> olook root p = Some (OVar i) /\ matches i = true /\ In i visited) /\
    (forall p x, tlook (Node ret) p = Some (Node x) -> exists y, olook root p = Some (ODict y)) /\
    (forall p1 p2 i, tlook (Node ret) p1 = Some (Leaf i) -> tlook (Node ret) p2 = Some (Leaf i) -> p1 = p2) /\
    (forall i, In i visited -> matches i = true -> exists p, tlook (Node ret) p = Some (Leaf i)) /\
    (forall p i, olook root p = Some (OVar i) -> In i visited \/ exists a o b, In (a, o) q /\ p = a ++ b /\ olook o b = Some (OVar i)).
  Lemma gp_run fuel : forall q visited ret, qsize q <= fuel -> gp_inv q visited ret ->
    exists ret' visited', get_params_go matches fuel q visited ret = Some ret' /\ gp_inv [] visited' ret'.
  Proof.
    induction fuel as [|fuel IH]; intros q visited ret HS HI.
    - destruct q as [|[p o] q]; [exists ret, visited; auto|]. exfalso. cbn in HS. destruct o; simpl in HS; lia.
    - destruct q as [|[path o] q]; [exists ret, visited; auto|]. cbn [get_params_go]. destruct HI as (I1 & I2 & I3 & I4 & I5 & I6).
      assert (Hroot : olook root path = Some o) by (apply I1; left; auto).
      assert (HSq : osize o + qsize q <= S fuel) by exact HS. destruct o as [i|w|l].
      + apply IH; [simpl in HSq; lia|]. destruct (existsb (Nat.eqb i) visited) eqn:EV.
        * cbn [negb andb]. assert (HV : In i visited) by (apply existsb_exists in EV as (j & Hj & Ej); apply Nat.eqb_eq in Ej; subst; auto).
          split; [intros; apply I1; right; auto|]. split; [intros p j Hj; destruct (I2 p j Hj) as (? & ? & ?); simpl; auto|]. split; auto. split; auto.
          split; [intros j [<-|Hj] Hm; auto|]. intros p j Hj. destruct (I6 p j Hj) as [Hv|(a & o & b & [Hq|Hq] & E & Hb)]; [left; right; auto| |right; exists a, o, b; auto].
          injection Hq as <- <-. destruct b; [|discriminate]. injection Hb as ->. left; left; auto.
        * cbn [negb andb]. assert (HV : ~ In i visited) by (intros Hf; assert (existsb (Nat.eqb i) visited = true) by (apply existsb_exists; exists i; split; auto; apply Nat.eqb_refl); congruence).
          assert (HC : forall p j, olook root p = Some (OVar j) -> In j (i :: visited) \/ exists a o b, In (a, o) q /\ p = a ++ b /\ olook o b = Some (OVar j)).
          { intros p j Hj. destruct (I6 p j Hj) as [Hv|(a & o & b & [Hq|Hq] & E & Hb)]; [left; right; auto| |right; exists a, o, b; auto].
            injection Hq as <- <-. destruct b; [|discriminate]. injection Hb as ->. left; left; auto. }
          destruct (matches i) eqn:EM; cycle 1.
          { split; [intros; apply I1; right; auto|]. split; [intros p j Hj; destruct (I2 p j Hj) as (? & ? & ?); simpl; auto|]. split; auto. split; auto.
            split; [intros j [<-|Hj] Hm; [congruence|auto]|]. exact HC. }
          destruct path as [|k0 path0] eqn:EP.
          { (* the root itself is a variable: nothing can be in ret *) exfalso. assert (HR : root = OVar i) by (simpl in Hroot; congruence).
            destruct (I3 [] ret eq_refl) as (y & Hy). rewrite HR in Hy. discriminate. }
          rewrite <- EP in *. assert (Hne : path <> []) by (rewrite EP; discriminate). clear EP k0 path0.
          destruct (put_look path i Hne ret) as (A1 & A2 & A3).
          { intros a b E Hb j Hj. apply I2 in Hj as (Hj & _). rewrite E, olook_app, Hj in Hroot. destruct b; [congruence|discriminate]. }
          (* kinds of every path in the new dictionary *)
          assert (HK : forall p, (exists q, p = path ++ q) \/ (exists q, path = p ++ q /\ q <> []) \/ ((forall q, p <> path ++ q) /\ (forall q, path <> p ++ q))).
          { clear. intros p. revert path. induction p as [|k p IHp]; intros [|k' path].
            - left. exists []. reflexivity.
            - right; left. exists (k' :: path). split; [reflexivity|discriminate].
            - left. exists (k :: p). reflexivity.
            - destruct (string_dec k k') as [<-|Hk]; [|right; right; split; intros q E; injection E; congruence].
              destruct (IHp path) as [(q & ->)|[(q & -> & Hq)|[H1 H2]]]; [left; exists q; auto|right; left; exists q; auto|].
              right; right. split; intros q E; injection E as E; [apply (H1 q)|apply (H2 q)]; auto. }
          assert (HLeaf : forall p j, tlook (Node (put_at path i ret)) p = Some (Leaf j) <-> (p = path /\ j = i) \/ (p <> path /\ tlook (Node ret) p = Some (Leaf j))).
          { intros p j. rewrite <- !kind_leaf. destruct (HK p) as [(q0 & ->)|[(q0 & E & Hq)|[H1 H2]]].
            - rewrite A1. destruct q0 as [|? ?].
              + rewrite app_nil_r. split; [intros H; injection H as <-; auto|intros [[_ ->]|[H _]]; congruence].
              + split; [discriminate|]. intros [[H _]|[_ H]]; [rewrite <- (app_nil_r path) in H at 2; apply app_inv_head in H; discriminate|].
                exfalso. rewrite kind_leaf in H. apply I2 in H as (H & _). rewrite olook_app, Hroot in H. discriminate.
            - destruct (A2 p q0 E Hq) as (x & Hx). rewrite Hx. cbn [kind]. split; [discriminate|]. intros [[-> _]|[_ H]].
              + rewrite <- (app_nil_r path) in E at 1. apply app_inv_head in E. congruence.
              + rewrite kind_leaf in H. apply I2 in H as (H & _). rewrite E, olook_app, H in Hroot. destruct q0; [congruence|discriminate].
            - rewrite A3 by auto. split; [intros H; right; split; auto; intros ->; apply (H1 []); now rewrite app_nil_r|]. intros [[-> _]|[_ H]]; auto. exfalso. apply (H1 []). now rewrite app_nil_r. }
          split; [intros; apply I1; right; auto|]. split; [|split; [|split; [|split]]].
          -- intros p j H. apply HLeaf in H as [[-> ->]|[_ H]]; [simpl; auto|]. destruct (I2 p j H) as (? & ? & ?). simpl; auto.
          -- intros p x H. destruct (HK p) as [(q0 & ->)|[(q0 & E & Hq)|[H1 H2]]].
             ++ specialize (A1 q0). rewrite H in A1. destruct q0; discriminate.
             ++ rewrite E, olook_app in Hroot. destruct (olook root p) as [[?|?|y]|]; try (destruct q0; [congruence|discriminate]). eauto.
             ++ specialize (A3 p H1 H2). rewrite H in A3. cbn [kind] in A3. symmetry in A3. apply kind_node in A3 as (y & Hy). eauto.
          -- intros p1 p2 j H1 H2. apply HLeaf in H1, H2. destruct H1 as [[-> ->]|[N1 H1]], H2 as [[-> E2]|[N2 H2]]; auto.
             ++ exfalso. apply HV. apply (I2 _ _ H2).
             ++ subst j. exfalso. apply HV. apply (I2 _ _ H1).
             ++ eauto.
          -- intros j [<-|Hj] Hm; [exists path; apply HLeaf; auto|]. destruct (I5 j Hj Hm) as (p & Hp). exists p. apply HLeaf. right. split; auto. intros ->.
             apply I2 in Hp as (Hp & _). congruence.
          -- exact HC.
      + apply IH; [simpl in HSq; lia|]. split; [intros; apply I1; right; auto|]. split; auto. split; auto. split; auto. split; auto.
        intros p j Hj. destruct (I6 p j Hj) as [Hv|(a & o & b & [Hq|Hq] & E & Hb)]; [auto| |right; exists a, o, b; auto].
        injection Hq as <- <-. destruct b; discriminate.
      + apply IH.
        * unfold qsize in *. rewrite map_app, map_rev, map_map, list_sum_app. cbn [snd].
          assert (HR : forall L : list nat, list_sum (rev L) = list_sum L) by (induction L as [|n L IHL]; [reflexivity|]; cbn [rev]; rewrite list_sum_app, IHL; simpl; lia).
          rewrite HR. cbn [osize] in HSq. lia.
        * assert (HNl : NoDup (map fst l)) by (eapply HU; eauto). split; [|split; auto; split; auto; split; auto; split; auto].
          -- intros p o Hin. apply in_app_or in Hin as [Hin|Hin]; [|apply I1; right; auto]. apply in_rev in Hin. apply in_map_iff in Hin as ([k x] & E & Hin). injection E as <- <-. cbn [fst snd].
             rewrite olook_app, Hroot. cbn [olook]. now rewrite (In_dget _ _ _ HNl Hin).
          -- intros p j Hj. destruct (I6 p j Hj) as [Hv|(a & o & b & [Hq|Hq] & E & Hb)]; [auto| |right; exists a, o, b; split; auto; apply in_or_app; auto].
             injection Hq as <- <-. destruct b as [|k b]; [discriminate|]. cbn [olook] in Hb. destruct (dget l k) as [x|] eqn:Ex; [|discriminate].
             right. exists (path ++ [k]), x, b. split; [|split; auto; rewrite <- app_assoc; exact E]. apply in_or_app. left. apply -> in_rev. apply in_map_iff. exists (k, x). split; auto. now apply dget_In.
  Qed.
End GP.

(** C54: get_params returns every variable of the object (a tree of attributes) that has the flag and is active, exactly once, under the path
    where it is found, and nothing else *)
Theorem C54_get_params : forall matches (l : list (string * obj)), okeys_unique (ODict l) ->
  exists ret, get_params matches (ODict l) = Some ret /\
    (forall p i, tlook (Node ret) p = Some (Leaf i) -> olook (ODict l) p = Some (OVar i) /\ matches i = true) /\
    (forall p i, olook (ODict l) p = Some (OVar i) -> matches i = true -> exists p', tlook (Node ret) p' = Some (Leaf i)) /\
    (forall p1 p2 i, tlook (Node ret) p1 = Some (Leaf i) -> tlook (Node ret) p2 = Some (Leaf i) -> p1 = p2).
Proof.
  intros matches l HU. unfold get_params.
  destruct (gp_run matches (ODict l) HU (osize (ODict l)) [([], ODict l)] [] []) as (ret & visited & E & I1 & I2 & I3 & I4 & I5 & I6).
  - unfold qsize. cbn [map snd list_sum fold_right]. lia.
  - split; [intros p o [H|[]]; injection H as <- <-; reflexivity|]. split; [intros [|k p] i H; discriminate|]. split; [intros [|k p] x H; [eexists; reflexivity|discriminate]|].
    split; [intros [|k p] p2 i H; discriminate|]. split; [intros i []|]. intros p i H. right. exists [], (ODict l), p. simpl; auto.
  - exists ret. split; auto. split; [intros p i H; destruct (I2 p i H) as (? & ? & _); auto|]. split; [|auto].
    intros p i H Hm. destruct (I6 p i H) as [Hv|(a & o & b & [] & _)]. auto.
Qed.
Print Assumptions C54_get_params.

(** the hypotheses are met: a nested object with a variable referenced twice *)
Local Open Scope string_scope.
Definition demo_obj : list (string * obj) :=
  [("n", OPlain 4); ("prob", OVar 0); ("mating", ODict [("crossover", ODict [("prob", OVar 1); ("eta", OVar 2)]); ("shared", OVar 0)])].
Lemma oku_intro (l : list (string * obj)) : NoDup (map fst l) -> Forall (fun kt => okeys_unique (snd kt)) l -> okeys_unique (ODict l).
Proof.
  intros HN HF p x H. destruct p as [|k p]; [now injection H as <-|]. cbn [olook] in H. destruct (dget l k) as [t|] eqn:E; [|discriminate]. apply dget_In in E.
  rewrite Forall_forall in HF. apply (HF (k, t) E p x H).
Qed.
Lemma oleaf_ok i v : okeys_unique (OVar i) /\ okeys_unique (OPlain v).
Proof. split; intros p; destruct p; intros; discriminate. Qed.
Example C54_case : okeys_unique (ODict demo_obj) /\
  get_params (fun _ => true) (ODict demo_obj) = Some [("mating", Node [("shared", Leaf 0); ("crossover", Node [("eta", Leaf 2); ("prob", Leaf 1)])])].
Proof.
  split; [|vm_compute; reflexivity].
  assert (HV : forall i, okeys_unique (OVar i)) by (intros i; apply (oleaf_ok i 0)). assert (HW : forall v, okeys_unique (OPlain v)) by (intros v; apply (oleaf_ok 0 v)).
  apply oku_intro; [repeat (constructor; [simpl; intuition discriminate|]); constructor|]. repeat (apply Forall_cons; [cbn [snd]; auto|]); [|apply Forall_nil].
  apply oku_intro; [repeat (constructor; [simpl; intuition discriminate|]); constructor|]. repeat (apply Forall_cons; [cbn [snd]; auto|]); [|apply Forall_nil].
  apply oku_intro; [repeat (constructor; [simpl; intuition discriminate|]); constructor|]. repeat (apply Forall_cons; [cbn [snd]; auto|]). apply Forall_nil.
Qed.
Example C45_case : exists s', set_params OPlain true (Node [("prob", Leaf 9); ("mating", Node [("crossover", Node [("eta", Leaf 15)])])]) (fun _ => None, ODict demo_obj) = Some (s', ODict demo_obj) /\
  s' 0 = Some 9 /\ s' 1 = None /\ s' 2 = Some 15.
Proof. eexists. vm_compute. auto. Qed.
