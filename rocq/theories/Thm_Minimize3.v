(** * C105: the history: every entry is an independent copy that nothing later changes *)
From Coq Require Import String List Arith Bool Lia.
From Verif Require Import ListAux M_Heap M_Minimize S_Heap Thm_Heap Thm_Heap2 Thm_Heap3 Thm_Minimize Thm_Minimize2.
Import ListNotations.
Local Open Scope nat_scope.
Local Open Scope string_scope.

(** the elements of a list object *)
Definition entries (h : heap) (l : addr) : list value := match nth_error h l with Some o => map snd (o_fields o) | None => [] end.

Lemma blank3_len h v : length (blank3 h v) = length h.
Proof. unfold blank3. rewrite !length_setattr. reflexivity. Qed.
Lemma blank3_other h s b : b <> s -> nth_error (blank3 h (VRef s)) b = nth_error h b.
Proof. intros Hn. unfold blank3. rewrite !nth_setattr_neq by exact Hn. reflexivity. Qed.
Lemma blank3_closed h v : closed h -> valid h v -> closed (blank3 h v).
Proof.
  intros Hc Hv. unfold blank3. repeat apply setattr_closed; auto; try exact Logic.I; destruct v; cbn [valid] in *; auto; rewrite ?length_setattr; auto.
Qed.
Lemma blank3_getattr h s k : s < length h -> getattr (blank3 h (VRef s)) (VRef s) k =
  if in_dec string_dec k ["history"; "callback"; "display"] then VNone else getattr h (VRef s) k.
Proof.
  intros Hs. unfold blank3. destruct (in_dec string_dec k ["history"; "callback"; "display"]) as [Hi|Hn].
  - destruct (string_dec k "display") as [->|H1]; [apply getattr_setattr; rewrite !length_setattr; exact Hs|]. rewrite getattr_setattr_neq by exact H1.
    destruct (string_dec k "callback") as [->|H2]; [apply getattr_setattr; rewrite !length_setattr; exact Hs|]. rewrite getattr_setattr_neq by exact H2.
    destruct (string_dec k "history") as [->|H3]; [apply getattr_setattr; exact Hs|]. cbn in Hi. intuition congruence.
  - cbn in Hn. rewrite !getattr_setattr_neq by intuition congruence. reflexivity.
Qed.

(** the references among the attributes after writing an attribute *)
Lemma setattr_refs h s k w o' : nth_error (setattr h (VRef s) k w) s = Some o' -> exists o, nth_error h s = Some o /\
  forall k' b, In (k', VRef b) (o_fields o') -> (k' = k /\ w = VRef b) \/ In (k', VRef b) (o_fields o).
Proof.
  cbn [setattr]. destruct (nth_error h s) as [o|] eqn:Ho; [|intros; congruence]. rewrite nth_error_upd_eq by (apply nth_error_Some; congruence).
  intros Hq. injection Hq as <-. exists o. split; [reflexivity|]. intros k' b Hi. cbn in Hi. apply fset_In in Hi. destruct Hi as [[-> <-]|Hi]; auto.
Qed.
Lemma getattr_ref h s k b : getattr h (VRef s) k = VRef b -> exists o, nth_error h s = Some o /\ In (k, VRef b) (o_fields o).
Proof. cbn [getattr]. destruct (nth_error h s) as [o|]; [|discriminate]. intros Hq. exists o. split; [reflexivity|]. apply fget_In. exact Hq. Qed.

Section Snap.
  Variables (h : heap) (s lh : addr) (h' : heap).
  Hypothesis Hcl : closed h.
  Hypothesis Hs : s < length h.
  Hypothesis Hlh : lh < length h.
  Hypothesis Hne : lh <> s.
  Hypothesis Hh : getattr h (VRef s) "history" = VRef lh.
  Hypothesis E : save_history h (VRef s) = (h', true).

  Lemma snap : exists hc e, deepcopy (blank3 h (VRef s)) (VRef s) = Some (hc, e) /\ length h <= length hc /\ length h' = length hc /\
    (forall b, b <> s -> b <> lh -> nth_error h' b = nth_error hc b) /\
    (forall b, b < length h -> b <> s -> b <> lh -> nth_error h' b = nth_error h b) /\
    (forall k, getattr h' (VRef s) k = getattr h (VRef s) k) /\
    (forall o' k b, nth_error h' s = Some o' -> In (k, VRef b) (o_fields o') -> exists o, nth_error h s = Some o /\ In (k, VRef b) (o_fields o)) /\
    (exists o, nth_error h lh = Some o /\ nth_error h' lh = Some (with_fields o (o_fields o ++ [(name_of (length (o_fields o)), e)])%list)).
  Proof.
    pose proof E as E0. unfold save_history in E0.
    assert (Hbc : closed (blank3 h (VRef s))) by (apply blank3_closed; auto).
    destruct (deepcopy (blank3 h (VRef s)) (VRef s)) as [[hc e]|] eqn:Ed; [|discriminate].
    set (h2 := setattr (setattr (setattr hc (VRef s) "history" (getattr h (VRef s) "history")) (VRef s) "callback" (getattr h (VRef s) "callback"))
                 (VRef s) "display" (getattr h (VRef s) "display")) in *.
    assert (Hbs : valid (blank3 h (VRef s)) (VRef s)) by (cbn [valid]; rewrite blank3_len; exact Hs).
    pose proof (deepcopy_len _ _ _ _ Hbc Hbs Ed) as Hl. rewrite blank3_len in Hl.
    assert (Hold : forall b, b < length h -> nth_error hc b = nth_error (blank3 h (VRef s)) b).
    { intros b Hb. eapply deepcopy_old; eauto. rewrite blank3_len. exact Hb. }
    assert (L2 : length h2 = length hc) by (unfold h2; rewrite !length_setattr; reflexivity).
    assert (Hsc : s < length hc) by lia.
    assert (A2 : forall k, getattr h2 (VRef s) k = getattr h (VRef s) k).
    { intros k. unfold h2. destruct (string_dec k "display") as [->|N1]; [apply getattr_setattr; rewrite !length_setattr; exact Hsc|]. rewrite getattr_setattr_neq by exact N1.
      destruct (string_dec k "callback") as [->|N2]; [apply getattr_setattr; rewrite !length_setattr; exact Hsc|]. rewrite getattr_setattr_neq by exact N2.
      destruct (string_dec k "history") as [->|N3]; [apply getattr_setattr; exact Hsc|]. rewrite getattr_setattr_neq by exact N3.
      rewrite (getattr_ext _ _ s k (Hold s Hs)), blank3_getattr by exact Hs. destruct (in_dec _ _ _) as [Hi|]; [|reflexivity].
      exfalso. cbn in Hi. intuition congruence. }
    assert (O2 : forall b, b <> s -> nth_error h2 b = nth_error hc b) by (intros b Hb; unfold h2; rewrite !nth_setattr_neq by exact Hb; reflexivity).
    assert (R2 : forall o' k b, nth_error h2 s = Some o' -> In (k, VRef b) (o_fields o') -> exists o, nth_error h s = Some o /\ In (k, VRef b) (o_fields o)).
    { intros o' k b Ho' Hi. unfold h2 in Ho'. apply setattr_refs in Ho'. destruct Ho' as [o1 [Ho1 R1]].
      destruct (R1 _ _ Hi) as [[-> Hw]|Hi1]; [apply getattr_ref; exact Hw|].
      apply setattr_refs in Ho1. destruct Ho1 as [o2 [Ho2 R2]]. destruct (R2 _ _ Hi1) as [[-> Hw]|Hi2]; [apply getattr_ref; exact Hw|].
      apply setattr_refs in Ho2. destruct Ho2 as [o3 [Ho3 R3]]. destruct (R3 _ _ Hi2) as [[-> Hw]|Hi3]; [apply getattr_ref; exact Hw|].
      rewrite Hold in Ho3 by exact Hs. unfold blank3 in Ho3.
      apply setattr_refs in Ho3. destruct Ho3 as [o4 [Ho4 R4]]. destruct (R4 _ _ Hi3) as [[_ Hw]|Hi4]; [discriminate|].
      apply setattr_refs in Ho4. destruct Ho4 as [o5 [Ho5 R5]]. destruct (R5 _ _ Hi4) as [[_ Hw]|Hi5]; [discriminate|].
      apply setattr_refs in Ho5. destruct Ho5 as [o6 [Ho6 R6]]. destruct (R6 _ _ Hi5) as [[_ Hw]|Hi6]; [discriminate|].
      exists o6. auto. }
    destruct (nth_error h lh) as [ol|] eqn:Eol; [|apply nth_error_None in Eol; lia].
    assert (Hl2 : nth_error h2 lh = Some ol) by (rewrite O2, Hold, blank3_other by auto; exact Eol).
    rewrite A2, Hh in E0. cbn [list_append] in E0. rewrite Hl2 in E0.
    assert (Eh : h' = upd h2 lh (with_fields ol (o_fields ol ++ [(name_of (length (o_fields ol)), e)])%list)) by congruence. clear E0.
    assert (Hlc : lh < length h2) by lia.
    exists hc, e. split; [reflexivity|]. split; [exact Hl|]. split; [rewrite Eh, length_upd; exact L2|].
    assert (P1 : forall b, b <> s -> b <> lh -> nth_error h' b = nth_error hc b).
    { intros b H1 H2. rewrite Eh, nth_error_upd_neq by exact H2. apply O2. exact H1. }
    split; [exact P1|]. split; [|split; [|split]].
    - intros b Hb H1 H2. rewrite P1, Hold, blank3_other by auto. reflexivity.
    - intros k. rewrite <- A2. apply getattr_ext. rewrite Eh. apply nth_error_upd_neq. auto.
    - intros o' k b Ho' Hi. rewrite Eh, nth_error_upd_neq in Ho' by auto. eapply R2; eauto.
    - exists ol. split; [reflexivity|]. rewrite Eh. apply nth_error_upd_eq. exact Hlc.
  Qed.
End Snap.

Lemma Forall2_impl_ {A B} (P Q : A -> B -> Prop) l l2 : (forall a b, P a b -> Q a b) -> Forall2 P l l2 -> Forall2 Q l l2.
Proof. intros Hi. induction 1; constructor; auto. Qed.
Lemma conf_reach D h v a : conf everything D h -> vin D h v -> reach all_fields h v a -> D a /\ a < length h.
Proof.
  intros [Hc Hd] Hv Hr. induction Hr as [a|a b o k w H1 H2 H3 IH]; [exact Hv|]. apply IH. destruct w as [| |c]; cbn; auto.
  split; [eapply Hd; eauto; apply Hv|eapply Hc; eauto].
Qed.
Lemma deepcopy_region h v h' v' a : closed h -> valid h v -> deepcopy h v = Some (h', v') -> reach all_fields h' v' a -> length h <= a < length h'.
Proof.
  intros Hc Hv E Hr. destruct (deepcopy_ok everything (fun a => length h <= a) h v h' v') as [C [_ V]]; auto.
  - split; [exact Hc|]. intros b o k c Hb Hl. apply nth_error_None in Hl. congruence.
  - intros b Hb. exact Hb.
  - destruct (conf_reach _ _ _ _ C V Hr). lia.
Qed.

Section Hist.
  Variables (s lh : addr).
  Definition Inv (D : addr -> Prop) (h : heap) (L : list value) : Prop :=
    conf not_history D h /\ fresh_in D h /\ lin D h L /\ D s /\ s < length h /\ ~ D lh /\ lh < length h /\ getattr h (VRef s) "history" = VRef lh.
  Definition kept_entry (hn : heap) (hh : heap * heap) (e : value) : Prop :=
    closed (fst hh) /\ s < length (fst hh) /\
    exists hc, deepcopy (blank3 (fst hh) (VRef s)) (VRef s) = Some (hc, e) /\
      forall a, length (fst hh) <= a -> a < length hc -> nth_error hn a = nth_error hc a.

  Lemma step_history h L h' L' : step not_history (h, L) (h', L') -> getattr h' (VRef s) "history" = getattr h (VRef s) "history" \/ length h <= s.
  Proof.
    intros Hst. inversion Hst; subst; auto.
    - left. match goal with Hk : not_history k = true |- _ => unfold not_history in Hk; apply negb_true_iff, String.eqb_neq in Hk; rename Hk into Hkk end.
      cbn [getattr]. destruct (Nat.eq_dec s a) as [->|Hn]; [|rewrite nth_error_upd_neq by exact Hn; reflexivity].
      match goal with Ho : nth_error h a = Some o |- _ => rewrite nth_error_upd_eq by (apply nth_error_Some; congruence); rewrite Ho end.
      cbn. apply fget_fset_neq. congruence.
    - left. match goal with Hk : not_history k = true |- _ => unfold not_history in Hk; apply negb_true_iff, String.eqb_neq in Hk; rename Hk into Hkk end.
      cbn [getattr]. destruct (Nat.eq_dec s a) as [->|Hn]; [|rewrite nth_error_upd_neq by exact Hn; reflexivity].
      match goal with Ho : nth_error h a = Some o |- _ => rewrite nth_error_upd_eq by (apply nth_error_Some; congruence); rewrite Ho end.
      cbn. generalize (o_fields o) as fs. intros fs. unfold fget. assert (Hx : assoc "history" (filter (fun kv => negb (String.eqb (fst kv) k)) fs) = assoc "history" fs); [|rewrite Hx; reflexivity].
      induction fs as [|[k1 w1] fs IH]; [reflexivity|]. cbn [filter fst]. rewrite assoc_cons. destruct (String.eqb_spec k1 k) as [->|Hn1]; cbn [negb].
      + rewrite IH. destruct (String.eqb_spec k "history"); congruence.
      + rewrite assoc_cons, IH. reflexivity.
    - destruct (Nat.lt_ge_cases s (length h)) as [Hl|Hl]; [left|right; exact Hl]. apply getattr_app. exact Hl.
  Qed.

  Lemma hist_run_spec st tr sn : hist_run (VRef s) st tr sn -> forall D, Inv D (fst st) (snd st) ->
    (forall a, a < length (fst st) -> ~ D a -> a <> lh -> nth_error (fst sn) a = nth_error (fst st) a) /\
    getattr (fst sn) (VRef s) "history" = VRef lh /\
    exists es, entries (fst sn) lh = (entries (fst st) lh ++ es)%list /\ Forall2 (kept_entry (fst sn)) tr es.
  Proof.
    induction 1 as [st|[h1 L1] [h2 L2] tr s3 Hst Hrun IH|h L h' tr s3 E Hrun IH]; intros D HI; cbn [fst snd] in *.
    - destruct HI as [_ [_ [_ [_ [_ [_ [_ Hh]]]]]]]. split; [auto|]. split; [exact Hh|]. exists []. split; [rewrite app_nil_r; reflexivity|constructor].
    - destruct HI as [Hc [Hf [Hl [Ds [Hs [Dl [Hlh Hh]]]]]]]. destruct (step_ok not_history D _ _ _ _ Hst Hc Hf Hl) as [C2 [K2 L2']].
      destruct (step_history _ _ _ _ Hst) as [Hh2|Hx]; [|lia].
      destruct (IH D) as [R1 [R2 [es [R3 R4]]]].
      + split; [exact C2|]. split; [eapply fresh_mono; [exact Hf|apply K2]|]. split; [exact L2'|]. split; [exact Ds|]. split; [destruct K2; lia|].
        split; [exact Dl|]. split; [destruct K2; lia|]. rewrite Hh2. exact Hh.
      + destruct K2 as [KL K2]. split; [|split; [exact R2|]].
        * intros a Ha Da Hal. rewrite R1 by (auto; lia). apply K2. exact Da.
        * exists es. split; [|exact R4]. rewrite R3. f_equal. unfold entries. rewrite (K2 lh Dl). reflexivity.
    - destruct HI as [Hc [Hf [Hl [Ds [Hs [Dl [Hlh Hh]]]]]]]. assert (Hne : lh <> s) by (intros ->; contradiction).
      destruct (snap h s lh h' (proj1 Hc) Hs Hlh Hne Hh E) as [hc [e [Ed [L1 [L2 [P1 [P2 [A [R [ol [Hol Hol']]]]]]]]]]].
      set (D' := fun a => (D a /\ a < length h) \/ length hc <= a).
      assert (Hcl' : closed h').
      { assert (Hbc : closed (blank3 h (VRef s))) by (apply blank3_closed; [apply Hc|exact Hs]).
        assert (Hbv : valid (blank3 h (VRef s)) (VRef s)) by (cbn [valid]; rewrite blank3_len; exact Hs).
        destruct (deepcopy_ok everything (fun _ => True) (blank3 h (VRef s)) (VRef s) hc e (closed_conf _ Hbc) (fun _ _ => Logic.I) Hbv Ed) as [[Cc _] [_ V]].
        intros b o' k c Ho' Hi. rewrite L2. destruct (Nat.eq_dec b s) as [->|N1].
        - destruct (R _ _ _ Ho' Hi) as [o [Ho Hi']]. pose proof (proj1 Hc _ _ _ _ Ho Hi'). lia.
        - destruct (Nat.eq_dec b lh) as [->|N2].
          + rewrite Hol' in Ho'. injection Ho' as <-. cbn in Hi. apply in_app_or in Hi. destruct Hi as [Hi|[Hq|[]]].
            * pose proof (proj1 Hc _ _ _ _ Hol Hi). lia.
            * injection Hq as _ ->. apply V.
          + rewrite P1 in Ho' by auto. eapply Cc; eauto. }
      destruct (IH D') as [R1 [R2 [es [R3 R4]]]].
      + split; [split; [exact Hcl'|]|].
        * intros b o' k c Ho' Db Hi Hk. left. destruct Db as [[Db Hb]|Hb]; [|exfalso; assert (nth_error h' b = None) by (apply nth_error_None; lia); congruence].
          assert (Hbl : b <> lh) by (intros ->; contradiction).
          destruct (Nat.eq_dec b s) as [->|N1].
          -- destruct (R _ _ _ Ho' Hi) as [o [Ho Hi']]. split; [eapply (proj2 Hc); eauto|eapply (proj1 Hc); eauto].
          -- rewrite P2 in Ho' by auto. split; [eapply (proj2 Hc); eauto|eapply (proj1 Hc); eauto].
        * split; [intros b Hb; right; lia|]. split.
          { eapply Forall_impl; [|exact Hl]. intros [| |b]; cbn; auto. intros [Db Hb]. split; [left; auto|lia]. }
          split; [left; auto|]. split; [lia|]. split; [|split; [lia|rewrite A; exact Hh]].
          intros [[Hx _]|Hx]; [contradiction|lia].
      + split; [|split; [exact R2|]].
        * intros a Ha Da Hal. assert (Has : a <> s) by (intros ->; contradiction). rewrite R1; [apply P2; auto|lia| |exact Hal].
          intros [[Hx _]|Hx]; [contradiction|lia].
        * exists (e :: es). split.
          -- rewrite R3. unfold entries. rewrite Hol, Hol'. cbn. rewrite map_app. cbn. rewrite <- app_assoc. reflexivity.
          -- constructor; [|exact R4]. unfold kept_entry. cbn [fst]. split; [apply Hc|]. split; [exact Hs|]. exists hc. split; [exact Ed|].
             intros a Ha1 Ha2. rewrite R1; [apply P1; lia|lia| |lia]. intros [[_ Hx]|Hx]; lia.
  Qed.
End Hist.

(** After any run with save_history whose code does not go through the attribute history itself: the history list has got exactly one
    entry per completed iteration, in order; each entry is an isomorphic copy of the algorithm as it was at that moment (without history,
    callback and display); and everything that hangs on an entry is still as it was when the entry was made. *)
Theorem C105_history : forall h0 L0 s lh tr hn Ln, closed h0 -> Forall (valid h0) L0 -> s < length h0 -> lh < length h0 ->
  getattr h0 (VRef s) "history" = VRef lh ->
  (forall v, In v (VRef s :: L0) -> ~ reach (visible not_history) h0 v lh) ->
  hist_run (VRef s) (h0, L0) tr (hn, Ln) ->
  exists es, entries hn lh = (entries h0 lh ++ es)%list /\ getattr hn (VRef s) "history" = VRef lh /\
    Forall2 (fun hh e => exists hc, deep_copy_of (blank3 (fst hh) (VRef s)) (VRef s) hc e /\
                           (forall a, reach all_fields hc e a -> nth_error hn a = nth_error hc a) /\
                           (forall a, reach all_fields hn e a <-> reach all_fields hc e a)) tr es.
Proof.
  intros h0 L0 s lh tr hn Ln Hc Hv Hs Hl Hh Hr Hrun.
  set (D := fun a => length h0 <= a \/ exists v, In v (VRef s :: L0) /\ reach (visible not_history) h0 v a).
  destruct (hist_run_spec s lh _ _ _ Hrun D) as [_ [R2 [es [R3 R4]]]]; cbn [fst snd] in *.
  - split; [split; [exact Hc|]|].
    + intros a o k b Ho [Ha|[v [Hi Hra]]] Hf Hk; [apply nth_error_None in Ha; congruence|]. right. exists v. split; [exact Hi|].
      eapply reach_trans; [exact Hra|]. eapply reach_next; [exact Ho| |apply reach_here]. apply filter_In. split; [exact Hf|exact Hk].
    + split; [intros a Ha; left; exact Ha|]. split.
      { apply Forall_forall. intros v Hi. rewrite Forall_forall in Hv. specialize (Hv _ Hi). destruct v as [| |a]; cbn; auto.
        split; [|exact Hv]. right. exists (VRef a). split; [right; exact Hi|apply reach_here]. }
      split; [right; exists (VRef s); split; [left; reflexivity|apply reach_here]|]. split; [exact Hs|]. split; [|split; [exact Hl|exact Hh]].
      intros [Hx|[v [Hi Hx]]]; [lia|]. exact (Hr v Hi Hx).
  - exists es. split; [exact R3|]. split; [exact R2|]. eapply Forall2_impl_; [|exact R4]. intros hh e [Hch [Hsh [hc [Ed Hkeep]]]].
    assert (Hbc : closed (blank3 (fst hh) (VRef s))) by (apply blank3_closed; auto).
    assert (Hbv : valid (blank3 (fst hh) (VRef s)) (VRef s)) by (cbn [valid]; rewrite blank3_len; exact Hsh).
    exists hc. split; [apply C105_deepcopy; auto|].
    assert (Hs' : forall a, reach all_fields hc e a -> nth_error hn a = nth_error hc a).
    { intros a Ha. pose proof (deepcopy_region _ _ _ _ _ Hbc Hbv Ed Ha) as Hb. rewrite blank3_len in Hb. apply Hkeep; lia. }
    split; [exact Hs'|]. apply same_reach. exact Hs'.
Qed.

(** Saving an entry leaves every attribute of the algorithm as it was *)
Theorem C105_snapshot_restores : forall h s lh h', closed h -> s < length h -> lh < length h -> lh <> s ->
  getattr h (VRef s) "history" = VRef lh -> save_history h (VRef s) = (h', true) ->
  (forall k, getattr h' (VRef s) k = getattr h (VRef s) k) /\
  (forall b, b < length h -> b <> s -> b <> lh -> nth_error h' b = nth_error h b).
Proof.
  intros h s lh h' Hc Hs Hl Hn Hh E. destruct (snap h s lh h' Hc Hs Hl Hn Hh E) as [hc [e [_ [_ [_ [_ [P [A _]]]]]]]]. auto.
Qed.

(** It fails exactly when the algorithm (without history, callback and display) holds something that cannot be copied - a generator of a
    loop-wise algorithm, say -, and then the algorithm is left without history, callback and display *)
Theorem C105_snapshot_fails : forall h s h', closed h -> s < length h ->
  ((exists h1, save_history h (VRef s) = (h1, false)) <-> ~ copyable (blank3 h (VRef s)) (VRef s)) /\
  (save_history h (VRef s) = (h', false) ->
     forall k, In k ["history"; "callback"; "display"] -> getattr h' (VRef s) k = VNone).
Proof.
  intros h s h' Hc Hs. assert (Hbc : closed (blank3 h (VRef s))) by (apply blank3_closed; auto).
  assert (Hbv : valid (blank3 h (VRef s)) (VRef s)) by (cbn [valid]; rewrite blank3_len; exact Hs).
  pose proof (C105_deepcopy_succeeds _ _ Hbc Hbv) as Hd. unfold save_history.
  destruct (deepcopy (blank3 h (VRef s)) (VRef s)) as [[hc e]|] eqn:Ed.
  - split; [|discriminate]. split; [intros [h1 Hq]; discriminate|]. intros Hn. exfalso. apply Hn, Hd. eauto.
  - split.
    + split; [|intros _; eauto]. intros _ Hk. apply Hd in Hk. destruct Hk as [x [y Hq]]. discriminate.
    + intros Hq k Hk. assert (Eh : h' = blank3 h (VRef s)) by congruence. rewrite Eh, blank3_getattr by exact Hs.
      destruct (in_dec _ _ _); [reflexivity|contradiction].
Qed.
