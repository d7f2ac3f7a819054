(** * C105: what code that only holds certain objects cannot touch *)
From Coq Require Import String List Arith Bool Lia Permutation.
From Verif Require Import ListAux M_Heap S_Heap Thm_Heap Thm_Heap2.
Import ListNotations.
Local Open Scope nat_scope.

Lemma fset_In fs k w k' w' : In (k', w') (fset fs k w) -> (k' = k /\ w' = w) \/ In (k', w') fs.
Proof.
  induction fs as [|[k1 w1] fs IH]; cbn.
  - intros [Hq|[]]. injection Hq as <- <-. auto.
  - destruct (String.eqb_spec k1 k) as [->|Hne]; intros [Hq|Hi]; auto.
    + injection Hq as <- <-. auto.
    + destruct (IH Hi) as [Hq|Hq]; auto.
Qed.
Lemma fget_In fs k a : fget fs k = VRef a -> In (k, VRef a) fs.
Proof.
  unfold fget, assoc. destruct (find (fun kv => String.eqb (fst kv) k) fs) as [[k1 w1]|] eqn:E; cbn; [|discriminate].
  intros ->. apply find_some in E. destruct E as [Hi Hq]. cbn in Hq. apply String.eqb_eq in Hq. subst. exact Hi.
Qed.
Lemma fget_fset_eq fs k w : fget (fset fs k w) k = w.
Proof.
  induction fs as [|[k1 w1] fs IH].
  - cbn. unfold fget, assoc. cbn. rewrite String.eqb_refl. reflexivity.
  - cbn. destruct (String.eqb k1 k) eqn:E; unfold fget, assoc in *; cbn in *; rewrite E; cbn; auto.
Qed.
Lemma fget_fset_neq fs k w k' : k' <> k -> fget (fset fs k w) k' = fget fs k'.
Proof.
  intros Hne. induction fs as [|[k1 w1] fs IH].
  - cbn. unfold fget, assoc. cbn. destruct (String.eqb_spec k k'); [congruence|reflexivity].
  - cbn. destruct (String.eqb_spec k1 k) as [->|Hn]; unfold fget, assoc in *; cbn in *; destruct (String.eqb_spec k k'); try congruence;
      destruct (String.eqb_spec k1 k'); auto; congruence.
Qed.

Section Frame.
  Variable ok : string -> bool.
  Variable D : addr -> Prop.
  Definition conf (h : heap) : Prop :=
    closed h /\ forall a o k b, nth_error h a = Some o -> D a -> In (k, VRef b) (o_fields o) -> ok k = true -> D b.
  Definition vin (h : heap) (v : value) : Prop := match v with VRef a => D a /\ a < length h | _ => True end.
  Definition fresh_in (h : heap) : Prop := forall a, length h <= a -> D a.
  Definition keeps (h h' : heap) : Prop := length h <= length h' /\ forall a, ~ D a -> nth_error h' a = nth_error h a.

  Lemma keeps_refl h : keeps h h.
  Proof. split; auto. Qed.
  Lemma keeps_trans h h1 h2 : keeps h h1 -> keeps h1 h2 -> keeps h h2.
  Proof. intros [L1 K1] [L2 K2]. split; [lia|]. intros a Ha. rewrite K2, K1; auto. Qed.
  Lemma fresh_mono h h' : fresh_in h -> length h <= length h' -> fresh_in h'.
  Proof. intros Hf Hl a Ha. apply Hf. lia. Qed.
  Lemma vin_mono h h' v : length h <= length h' -> vin h v -> vin h' v.
  Proof. intros Hl. destruct v; cbn; auto. intros [H1 H2]. split; auto. lia. Qed.
  Lemma vin_valid h v : vin h v -> valid h v.
  Proof. destruct v; cbn; tauto. Qed.

  (** replacing the attributes of an object of [D] by attributes it had, or values of [D] *)
  Lemma upd_ok h a o fs : conf h -> D a -> nth_error h a = Some o ->
    (forall k b, In (k, VRef b) fs -> In (k, VRef b) (o_fields o) \/ (b < length h /\ (ok k = true -> D b))) ->
    conf (upd h a (with_fields o fs)) /\ keeps h (upd h a (with_fields o fs)).
  Proof.
    intros [Hc Hd] Ha Ho Hfs. assert (Hal : a < length h) by (apply nth_error_Some; congruence). split; [split|split].
    - intros x o' k b Hx Hi. rewrite length_upd. destruct (Nat.eq_dec x a) as [->|Hne].
      + rewrite nth_error_upd_eq in Hx by exact Hal. injection Hx as <-. cbn in Hi. destruct (Hfs _ _ Hi) as [Hq|[Hq _]]; eauto.
      + rewrite nth_error_upd_neq in Hx by exact Hne. eauto.
    - intros x o' k b Hx Dx Hi Hk. destruct (Nat.eq_dec x a) as [->|Hne].
      + rewrite nth_error_upd_eq in Hx by exact Hal. injection Hx as <-. cbn in Hi. destruct (Hfs _ _ Hi) as [Hq|[_ Hq]]; eauto.
      + rewrite nth_error_upd_neq in Hx by exact Hne. eauto.
    - rewrite length_upd. lia.
    - intros x Hx. apply nth_error_upd_neq. congruence.
  Qed.
  Lemma setattr_ok h self k w : conf h -> vin h self -> valid h w -> (ok k = true -> vin h w) ->
    conf (setattr h self k w) /\ keeps h (setattr h self k w) /\ length (setattr h self k w) = length h.
  Proof.
    intros Hc Hs Hv Hw. unfold setattr. destruct self as [| |a]; try (split; [exact Hc|split; [apply keeps_refl|reflexivity]]).
    destruct (nth_error h a) as [o|] eqn:Ho; [|split; [exact Hc|split; [apply keeps_refl|reflexivity]]].
    destruct (upd_ok h a o (fset (o_fields o) k w) Hc (proj1 Hs) Ho) as [H1 H2].
    - intros k' b Hi. apply fset_In in Hi. destruct Hi as [[-> <-]|Hi]; auto. right. cbn in Hv. split; [exact Hv|]. intros Hk. apply Hw; exact Hk.
    - split; [exact H1|]. split; [exact H2|]. apply length_upd.
  Qed.
  Lemma alloc_ok h o : conf h -> fresh_in h -> (forall k w, In (k, w) (o_fields o) -> vin h w) ->
    conf (h ++ [o]) /\ keeps h (h ++ [o]) /\ vin (h ++ [o]) (VRef (length h)).
  Proof.
    intros [Hc Hd] Hf Ho. assert (Hl : length (h ++ [o]) = S (length h)) by (rewrite app_length; cbn; lia).
    assert (Hn : forall x o', nth_error (h ++ [o]) x = Some o' -> nth_error h x = Some o' \/ (x = length h /\ o' = o)).
    { intros x o' Hx. destruct (Nat.lt_ge_cases x (length h)) as [Hlt|Hge].
      - left. rewrite nth_error_app1 in Hx by exact Hlt. exact Hx.
      - right. rewrite nth_error_app2 in Hx by exact Hge. destruct (x - length h) as [|d] eqn:Ed; cbn in Hx.
        + injection Hx as <-. split; [lia|reflexivity].
        + destruct d; discriminate. }
    split; [split|split; [split|split]].
    - intros x o' k b Hx Hi. rewrite Hl. destruct (Hn _ _ Hx) as [Hx'|[-> ->]].
      + pose proof (Hc _ _ _ _ Hx' Hi). lia.
      + apply Ho in Hi. cbn in Hi. lia.
    - intros x o' k b Hx Dx Hi Hk. destruct (Hn _ _ Hx) as [Hx'|[-> ->]]; [eauto|]. apply Ho in Hi. apply Hi.
    - lia.
    - intros x Hx. apply nth_error_app1. destruct (Nat.lt_ge_cases x (length h)) as [Hlt|Hge]; [exact Hlt|]. exfalso. apply Hx. apply Hf. exact Hge.
    - apply Hf. lia.
    - lia.
  Qed.
  Lemma getattr_ok h v k : conf h -> vin h v -> ok k = true -> vin h (getattr h v k).
  Proof.
    intros [Hc Hd] Hv Hk. unfold getattr. destruct v as [| |a]; cbn; auto. destruct (nth_error h a) as [o|] eqn:Ho; cbn; auto.
    destruct (fget (o_fields o) k) as [| |b] eqn:E; cbn; auto. apply fget_In in E. split; [eapply Hd; eauto; apply Hv|eapply Hc; eauto].
  Qed.
  Lemma deepcopy_ok h v h' v' : conf h -> fresh_in h -> valid h v -> deepcopy h v = Some (h', v') ->
    conf h' /\ keeps h h' /\ vin h' v'.
  Proof.
    intros [Hc Hd] Hf Hv E. apply C105_deepcopy in E; auto. destruct E as [Hl [Hold [f [-> [Hinj [Hobj Hsur]]]]]].
    assert (Hnew : forall b o', length h <= b -> nth_error h' b = Some o' -> forall k c, In (k, VRef c) (o_fields o') -> length h <= c < length h').
    { intros b o' Hb Ho' k c Hi. assert (Hbl : b < length h') by (apply nth_error_Some; congruence).
      destruct (Hsur b Hb Hbl) as [a [Ha <-]]. destruct (Hobj a Ha) as [_ [o [Ho [_ Hn]]]]. rewrite Hn in Ho'. injection Ho' as <-. cbn in Hi.
      apply in_map_iff in Hi. destruct Hi as [[k1 w1] [Hq Hi]]. cbn in Hq. injection Hq as -> Hq. destruct w1 as [| |d]; cbn in Hq; try discriminate.
      injection Hq as <-. assert (Hr : reach state_of h v d).
      { clear - Ha Ho Hi. induction Ha as [a|a b0 o1 k1 w1 H1 H2 H3 IH]; [eapply reach_next; eauto; apply reach_here|].
        eapply reach_next; [exact H1|exact H2|apply IH; auto]. }
      destruct (Hobj d Hr) as [Hd1 [od [_ [_ Hod]]]]. split; [exact Hd1|]. apply nth_error_Some. congruence. }
    split; [split|split; [split|]].
    - intros b o' k c Ho' Hi. destruct (Nat.lt_ge_cases b (length h)) as [Hlt|Hge].
      + rewrite Hold in Ho' by exact Hlt. pose proof (Hc _ _ _ _ Ho' Hi). lia.
      + eapply Hnew; eauto.
    - intros b o' k c Ho' Db Hi Hk. destruct (Nat.lt_ge_cases b (length h)) as [Hlt|Hge].
      + rewrite Hold in Ho' by exact Hlt. eauto.
      + apply Hf. eapply Hnew; eauto.
    - exact Hl.
    - intros a Ha. apply Hold. destruct (Nat.lt_ge_cases a (length h)) as [Hlt|Hge]; [exact Hlt|]. exfalso. apply Ha. apply Hf. exact Hge.
    - destruct v as [| |a]; cbn; auto. destruct (Hobj a (reach_here _ _ _)) as [H1 [o [_ [_ H2]]]].
      split; [apply Hf; exact H1|]. apply nth_error_Some. congruence.
  Qed.

  Definition lin (h : heap) (L : list value) : Prop := Forall (vin h) L.
  Lemma lin_In h L v : lin h L -> In v L -> vin h v.
  Proof. intros Hl Hi. unfold lin in Hl. rewrite Forall_forall in Hl. auto. Qed.
  Lemma lin_mono h h' L : length h <= length h' -> lin h L -> lin h' L.
  Proof. intros Hl. apply Forall_impl. intros v. apply vin_mono. exact Hl. Qed.

  Lemma step_ok h L h' L' : step ok (h, L) (h', L') -> conf h -> fresh_in h -> lin h L -> conf h' /\ keeps h h' /\ lin h' L'.
  Proof.
    intros Hs Hc Hf Hl. inversion Hs; subst.
    - split; [exact Hc|]. split; [apply keeps_refl|]. constructor; [|exact Hl].
      destruct (lin_In _ _ _ Hl H3) as [Da _]. destruct w as [| |b]; cbn; auto. destruct Hc as [Hc Hd]. split; [eapply Hd; eauto|eapply Hc; eauto].
    - destruct (lin_In _ _ _ Hl H3) as [Da Ha].
      destruct (upd_ok h a o (fset (o_fields o) k w) Hc Da H4) as [K1 K2].
      + intros k' b Hi. apply fset_In in Hi. destruct Hi as [[-> <-]|Hi]; auto. right. cbn in H6. apply (lin_In _ _ _ Hl) in H6. cbn in H6. tauto.
      + split; [exact K1|]. split; [exact K2|]. eapply lin_mono; [|exact Hl]. rewrite length_upd. lia.
    - destruct (lin_In _ _ _ Hl H3) as [Da Ha].
      destruct (upd_ok h a o (filter (fun kv => negb (String.eqb (fst kv) k)) (o_fields o)) Hc Da H4) as [K1 K2].
      + intros k' b Hi. apply filter_In in Hi. left. apply Hi.
      + split; [exact K1|]. split; [exact K2|]. eapply lin_mono; [|exact Hl]. rewrite length_upd. lia.
    - destruct (alloc_ok h o Hc Hf) as [K1 [K2 K3]].
      + intros k w Hi. match goal with Hx : forall k w, In (k, w) (o_fields o) -> mem_value w L |- _ => specialize (Hx _ _ Hi); rename Hx into HX end. destruct w as [| |b]; cbn in *; auto. apply (lin_In _ _ _ Hl HX).
      + split; [exact K1|]. split; [exact K2|]. constructor; [exact K3|]. eapply lin_mono; [apply K2|exact Hl].
  Qed.
  Lemma steps_ok s s' : steps ok s s' -> conf (fst s) -> fresh_in (fst s) -> lin (fst s) (snd s) ->
    conf (fst s') /\ keeps (fst s) (fst s') /\ lin (fst s') (snd s').
  Proof.
    induction 1 as [s|[h1 L1] [h2 L2] s3 H1 H2 IH]; intros Hc Hf Hl; cbn in *.
    - split; [exact Hc|]. split; [apply keeps_refl|exact Hl].
    - destruct (step_ok _ _ _ _ H1 Hc Hf Hl) as [C2 [K2 L2']]. assert (F2 : fresh_in h2) by (eapply fresh_mono; [exact Hf|apply K2]).
      destruct (IH C2 F2 L2') as [C3 [K3 L3]]. split; [exact C3|]. split; [|exact L3]. eapply keeps_trans; eauto.
  Qed.
End Frame.
