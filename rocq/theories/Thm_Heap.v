(** * C105: deepcopy makes an independent, isomorphic copy; what memory-safe code cannot touch *)
From Coq Require Import String List Arith Bool Lia Permutation.
From Verif Require Import ListAux M_Heap S_Heap.
Import ListNotations.
Local Open Scope nat_scope.

Lemma nth_error_upd_eq {A} (l : list A) k v : k < length l -> nth_error (upd l k v) k = Some v.
Proof. revert k. induction l as [|x l IH]; intros [|k] Hk; cbn in *; try lia; auto. apply IH. lia. Qed.
Lemma nth_error_upd_neq {A} (l : list A) k j v : j <> k -> nth_error (upd l k v) j = nth_error l j.
Proof. revert k j. induction l as [|x l IH]; intros [|k] [|j] Hk; cbn; auto; try lia. Qed.
Lemma mget_Some m a b : mget m a = Some b -> In (a, b) m.
Proof.
  unfold mget. destruct (find (fun p => Nat.eqb (fst p) a) m) as [[x y]|] eqn:E; [|discriminate]. cbn. intros Hq. injection Hq as <-.
  apply find_some in E. destruct E as [Hi He]. cbn in He. apply Nat.eqb_eq in He. subst. exact Hi.
Qed.
Lemma mget_None m a : mget m a = None <-> ~ In a (map fst m).
Proof.
  unfold mget. split.
  - destruct (find (fun p => Nat.eqb (fst p) a) m) as [[x y]|] eqn:E; [discriminate|]. intros _ Hi. apply in_map_iff in Hi. destruct Hi as [[x y] [<- Hi]].
    pose proof (find_none _ _ E _ Hi) as Hf. cbn in Hf. rewrite Nat.eqb_refl in Hf. discriminate.
  - intros Hn. destruct (find (fun p => Nat.eqb (fst p) a) m) as [[x y]|] eqn:E; [|reflexivity]. exfalso. apply find_some in E. destruct E as [Hi He]. cbn in He.
    apply Nat.eqb_eq in He. subst. apply Hn. apply in_map_iff. exists (a, y). auto.
Qed.
Lemma mget_In m a b : NoDup (map fst m) -> In (a, b) m -> mget m a = Some b.
Proof.
  intros Hn Hi. unfold mget. induction m as [|[x y] m IH]; [destruct Hi|]. cbn [map fst] in Hn. cbn. apply NoDup_cons_iff in Hn. destruct Hn as [Hx Hn].
  destruct Hi as [Hq|Hi].
  - injection Hq as -> ->. rewrite Nat.eqb_refl. reflexivity.
  - destruct (Nat.eqb_spec x a) as [->|Hne]; [|apply IH; auto]. exfalso. apply Hx. apply in_map_iff. exists (a, b). auto.
Qed.

(** ** The depth-first copy *)
Section Dc.
  Variable h0 : heap.
  Let n0 := length h0.
  Hypothesis Hcl : closed h0.

  Definition vrel (m : memo) (v w : value) : Prop := match v with VRef a => exists b, w = VRef b /\ In (a, b) m | _ => w = v end.
  Definition frel (m : memo) (fs gs : fields) : Prop := Forall2 (fun x y => fst y = fst x /\ vrel m (snd x) (snd y)) fs gs.
  Definition base (h : heap) : Prop := n0 <= length h /\ forall a, a < n0 -> nth_error h a = nth_error h0 a.
  Definition okm (m : memo) : Prop := NoDup (map fst m) /\ forall a b, In (a, b) m -> a < n0.
  (** what a call adds *)
  Definition adds (root : addr -> Prop) (h : heap) (m : memo) (h' : heap) (m' : memo) : Prop :=
    exists news, m' = news ++ m /\ okm m' /\ length h' = length h + length news /\
      Permutation (map snd news) (seq (length h) (length news)) /\
      (forall i, i < length h -> nth_error h' i = nth_error h i) /\
      (forall a b, In (a, b) news -> root a /\ exists o fs, nth_error h0 a = Some o /\ o_kind o <> Opaque /\
         nth_error h' b = Some (with_fields o fs) /\ frel m' (state_of o) fs).

  Lemma vrel_mono m m' v w : incl m m' -> vrel m v w -> vrel m' v w.
  Proof. intros Hi. destruct v; cbn; auto. intros [b [-> Hb]]. exists b. split; auto. Qed.
  Lemma frel_mono m m' v w : incl m m' -> frel m v w -> frel m' v w.
  Proof. intros Hi Hf. induction Hf as [|x y l l' [H1 H2] _ IH]; constructor; auto. split; auto. eapply vrel_mono; eauto. Qed.

  Lemma adds_refl root h m : okm m -> adds root h m h m.
  Proof. intros Hm. exists []. cbn. repeat split; try apply Hm; auto; try lia; intros; contradiction. Qed.
  Lemma adds_trans (r1 r2 root : addr -> Prop) h m h1 m1 h2 m2 :
    (forall a, r1 a -> root a) -> (forall a, r2 a -> root a) ->
    adds r1 h m h1 m1 -> adds r2 h1 m1 h2 m2 -> adds root h m h2 m2.
  Proof.
    intros Hr1 Hr2 [n1 [E1 [O1 [L1 [P1 [F1 N1]]]]]] [n2 [E2 [O2 [L2 [P2 [F2 N2]]]]]].
    exists (n2 ++ n1). repeat split.
    - rewrite E2, E1, app_assoc. reflexivity.
    - apply O2.
    - apply O2.
    - rewrite app_length. lia.
    - rewrite map_app, app_length, Nat.add_comm, seq_app. rewrite <- L1.
      apply Permutation_trans with (map snd n1 ++ map snd n2); [apply Permutation_app_comm|apply Permutation_app; auto].
    - intros i Hi. rewrite F2 by lia. apply F1. exact Hi.
    - apply in_app_or in H. destruct H as [Hn|Hn]; [apply N2 in Hn|apply N1 in Hn]; destruct Hn as [Hq _]; auto.
    - apply in_app_or in H. destruct H as [Hn|Hn].
      + apply N2 in Hn. apply Hn.
      + assert (Hb : b < length h1).
        { assert (Hs : In b (map snd n1)) by (apply in_map_iff; exists (a, b); auto). apply (Permutation_in _ P1) in Hs. apply in_seq in Hs. lia. }
        apply N1 in Hn. destruct Hn as [_ [o [fs [Ho [Hk [Hh Hf]]]]]]. exists o, fs. repeat split; auto.
        * rewrite F2; auto.
        * eapply frel_mono; [|exact Hf]. rewrite E2. intros x Hx. apply in_or_app. right. exact Hx.
  Qed.
  Lemma adds_incl root h m h' m' : adds root h m h' m' -> incl m m'.
  Proof. intros [n [-> _]] x Hx. apply in_or_app. right. exact Hx. Qed.
  Lemma adds_okm root h m h' m' : adds root h m h' m' -> okm m'.
  Proof. intros [n [_ [Ho _]]]. exact Ho. Qed.
  Lemma adds_base root h m h' m' : base h -> adds root h m h' m' -> base h'.
  Proof. intros [Hb1 Hb2] [n [_ [_ [L [_ [F _]]]]]]. split; [lia|]. intros a Ha. rewrite F by lia. apply Hb2. exact Ha. Qed.

  Definition spec_dc (f : heap -> memo -> value -> option (heap * memo * value)) : Prop :=
    forall h m v h' m' v', base h -> okm m -> valid h0 v -> f h m v = Some (h', m', v') ->
      adds (reach state_of h0 v) h m h' m' /\ vrel m' v v'.

  Lemma copy_fields_spec f : spec_dc f -> forall fs h m h' m' gs, base h -> okm m -> Forall (fun kv => valid h0 (snd kv)) fs ->
    copy_fields f fs h m = Some (h', m', gs) ->
    adds (fun a => exists k w, In (k, w) fs /\ reach state_of h0 w a) h m h' m' /\ frel m' fs gs.
  Proof.
    intros Hf. induction fs as [|[k w] fs IH]; intros h m h' m' gs Hb Hm Hv E; cbn in E.
    - injection E as <- <- <-. split; [apply adds_refl; exact Hm|constructor].
    - destruct (f h m w) as [[[h1 m1] w1]|] eqn:E1; [|discriminate].
      destruct (copy_fields f fs h1 m1) as [[[h2 m2] r]|] eqn:E2; [|discriminate]. injection E as <- <- <-.
      pose proof (Forall_inv Hv) as Hw. cbn in Hw. apply Forall_inv_tail in Hv.
      destruct (Hf _ _ _ _ _ _ Hb Hm Hw E1) as [A1 R1].
      assert (Hb1 := adds_base _ _ _ _ _ Hb A1). assert (Hm1 := adds_okm _ _ _ _ _ A1).
      destruct (IH _ _ _ _ _ Hb1 Hm1 Hv E2) as [A2 R2]. split.
      + eapply adds_trans; [| |exact A1|exact A2]; cbn.
        * intros a Ha. exists k, w. auto.
        * intros a [k' [w' [Hi Hr]]]. exists k', w'. auto.
      + constructor; [|exact R2]. cbn. split; [reflexivity|]. eapply vrel_mono; [eapply adds_incl; exact A2|exact R1].
  Qed.

  Lemma state_of_In o k a : In (k, VRef a) (state_of o) -> In (k, VRef a) (o_fields o).
  Proof.
    unfold state_of. intros Hi. apply in_flat_map in Hi. destruct Hi as [[k' w] [Hi Hq]]. cbn in Hq.
    destruct (assoc k' (o_hide o)) as [[|]|]; cbn in Hq; [destruct Hq as [Hq|[]]; discriminate|destruct Hq|destruct Hq as [<-|[]]; exact Hi].
  Qed.
  Lemma state_valid a o : nth_error h0 a = Some o -> Forall (fun kv => valid h0 (snd kv)) (state_of o).
  Proof.
    intros Ho. apply Forall_forall. intros [k [| |b]] Hi; cbn; auto. apply state_of_In in Hi. eapply Hcl; eauto.
  Qed.

  Lemma dc_spec fuel : spec_dc (dc fuel).
  Proof.
    induction fuel as [|n IH]; intros h m v h' m' v' Hb Hm Hv E; cbn in E; [discriminate|].
    destruct v as [| |a].
    - injection E as <- <- <-. split; [apply adds_refl; exact Hm|reflexivity].
    - injection E as <- <- <-. split; [apply adds_refl; exact Hm|reflexivity].
    - cbn in Hv. destruct (mget m a) as [b|] eqn:Eg.
      + injection E as <- <- <-. split; [apply adds_refl; exact Hm|]. exists b. split; auto. apply mget_Some. exact Eg.
      + destruct (nth_error h a) as [o|] eqn:Eo; [|discriminate].
        assert (Ho : nth_error h0 a = Some o) by (destruct Hb as [_ Hb2]; rewrite <- Hb2 by exact Hv; exact Eo).
        assert (Hk : o_kind o <> Opaque) by (intros Hk; rewrite Hk in E; discriminate).
        set (h1 := h ++ [with_fields o []]) in *. set (m1 := (a, length h) :: m) in *.
        assert (E' : match copy_fields (dc n) (state_of o) h1 m1 with
                     | Some (h', m', fs) => Some (upd h' (length h) (with_fields o fs), m', VRef (length h))
                     | None => None end = Some (h', m', v')) by (destruct (o_kind o); [exact E|exact E|contradiction]).
        clear E. destruct (copy_fields (dc n) (state_of o) h1 m1) as [[[h2 m2] fs]|] eqn:E2; [|discriminate]. injection E' as <- <- <-.
        assert (Hl1 : length h1 = S (length h)) by (unfold h1; rewrite app_length; cbn; lia).
        assert (Hb1 : base h1).
        { destruct Hb as [Hb1 Hb2]. split; [lia|]. intros x Hx. unfold h1. rewrite nth_error_app1 by lia. apply Hb2. exact Hx. }
        assert (Hm1 : okm m1).
        { destruct Hm as [M1 M2]. split; [cbn; constructor; auto; apply mget_None; exact Eg|]. intros x y [Hq|Hi]; [injection Hq as <- <-; exact Hv|eapply M2; eauto]. }
        destruct (copy_fields_spec _ IH _ _ _ _ _ _ Hb1 Hm1 (state_valid _ _ Ho) E2) as [[news [En [Om [L [P [F N]]]]]] R].
        split.
        * exists (news ++ [(a, length h)]). repeat split; try apply Om.
          -- rewrite En, <- app_assoc. reflexivity.
          -- rewrite length_upd, L, Hl1, app_length. cbn. lia.
          -- rewrite map_app, app_length. cbn. rewrite Nat.add_1_r. cbn. rewrite Hl1 in P.
             apply Permutation_trans with (length h :: map snd news); [symmetry; apply Permutation_cons_append|constructor; exact P].
          -- intros i Hi. rewrite nth_error_upd_neq by lia. rewrite F by lia. unfold h1. apply nth_error_app1. exact Hi.
          -- apply in_app_or in H. destruct H as [Hn|[Hq|[]]].
             ++ apply N in Hn. destruct Hn as [[k [w [Hi Hr]]] _]. eapply reach_next; eauto.
             ++ injection Hq as <- <-. apply reach_here.
          -- apply in_app_or in H. destruct H as [Hn|[Hq|[]]].
             ++ assert (Hb' : b <> length h).
                { assert (Hs : In b (map snd news)) by (apply in_map_iff; exists (a0, b); auto). apply (Permutation_in _ P) in Hs. apply in_seq in Hs. lia. }
                apply N in Hn. destruct Hn as [_ [o' [fs' [H1 [H2 [H3 H4]]]]]]. exists o', fs'. repeat split; auto.
                rewrite nth_error_upd_neq by auto. exact H3.
             ++ injection Hq as <- <-. exists o, fs. repeat split; auto. apply nth_error_upd_eq. lia.
        * exists (length h). split; auto. rewrite En. apply in_or_app. right. left. reflexivity.
  Qed.
End Dc.
