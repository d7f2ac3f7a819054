(** * C105: minimize works on copies: what it cannot change, what it ignores, what setup stores *)
From Coq Require Import String List Arith Bool Lia.
From Verif Require Import ListAux M_Heap M_Minimize S_Heap Thm_Heap Thm_Heap2 Thm_Heap3.
Import ListNotations.
Local Open Scope nat_scope.
Local Open Scope string_scope.

(** ** Attributes after a write *)
Lemma getattr_setattr h a k w : a < length h -> getattr (setattr h (VRef a) k w) (VRef a) k = w.
Proof.
  intros Ha. unfold getattr, setattr. destruct (nth_error h a) as [o|] eqn:Ho; [|apply nth_error_None in Ho; lia].
  rewrite nth_error_upd_eq by exact Ha. apply fget_fset_eq.
Qed.
Lemma getattr_setattr_neq h v u k w k' : k' <> k -> getattr (setattr h v k w) u k' = getattr h u k'.
Proof.
  intros Hne. destruct v as [| |a]; try reflexivity. cbn [setattr]. destruct (nth_error h a) as [o|] eqn:Ho; [|reflexivity].
  destruct u as [| |b]; try reflexivity. cbn [getattr]. destruct (Nat.eq_dec b a) as [->|Hn].
  - rewrite nth_error_upd_eq by (apply nth_error_Some; congruence). rewrite Ho. cbn. apply fget_fset_neq. exact Hne.
  - rewrite nth_error_upd_neq by exact Hn. reflexivity.
Qed.
Lemma length_setattr h v k w : length (setattr h v k w) = length h.
Proof. destruct v as [| |a]; try reflexivity. cbn. destruct (nth_error h a); [apply length_upd|reflexivity]. Qed.
Lemma nth_setattr_neq h a k w b : b <> a -> nth_error (setattr h (VRef a) k w) b = nth_error h b.
Proof. intros Hn. cbn. destruct (nth_error h a); [apply nth_error_upd_neq; exact Hn|reflexivity]. Qed.
Lemma getattr_app h o v k : valid h v -> getattr (h ++ [o])%list v k = getattr h v k.
Proof. destruct v as [| |a]; try reflexivity. cbn. intros Ha. rewrite nth_error_app1 by exact Ha. reflexivity. Qed.
Lemma getattr_ext h h' a k : nth_error h' a = nth_error h a -> getattr h' (VRef a) k = getattr h (VRef a) k.
Proof. cbn. intros ->. reflexivity. Qed.

(** ** What setup can change *)
Section Ok.
  Variable D : addr -> Prop.
  Notation conf := (conf everything D).
  Notation vin := (vin D).
  Notation fresh_in := (fresh_in D).
  Notation keeps := (keeps D).

  Lemma set1 h self k w : conf h -> vin h self -> vin h w -> conf (setattr h self k w) /\ keeps h (setattr h self k w).
  Proof. intros Hc Hs Hw. destruct (setattr_ok everything D h self k w Hc Hs (vin_valid _ _ _ Hw) (fun _ => Hw)) as [H1 [H2 _]]. auto. Qed.
  Lemma set_all_ok kw : forall h self, conf h -> vin h self -> Forall (fun kv => vin h (snd kv)) kw ->
    conf (set_all h self kw) /\ keeps h (set_all h self kw).
  Proof.
    induction kw as [|[k w] kw IH]; intros h self Hc Hs Hk; cbn.
    - split; [exact Hc|apply keeps_refl].
    - destruct (set1 h self k w Hc Hs (Forall_inv Hk)) as [C1 K1]. apply Forall_inv_tail in Hk.
      destruct (IH (setattr h self k w) self C1) as [C2 K2].
      + eapply vin_mono; [apply K1|exact Hs].
      + eapply Forall_impl; [|exact Hk]. intros x. apply vin_mono. apply K1.
      + split; [exact C2|]. eapply keeps_trans; eauto.
  Qed.
  Lemma setup_ok h self problem verbose progress kw h' : conf h -> fresh_in h -> vin h self -> vin h problem -> vin h verbose -> vin h progress ->
    Forall (fun kv => vin h (snd kv)) kw -> setup h self problem verbose progress kw = Some h' -> conf h' /\ keeps h h'.
  Proof.
    intros Hc Hf Hs Hp Hv Hpr Hk E. unfold setup in E.
    set (h1 := setattr h self "problem" problem) in *. destruct (set1 h self "problem" problem Hc Hs Hp) as [C1 K1]. fold h1 in C1, K1.
    assert (F1 : fresh_in h1) by (eapply fresh_mono; [exact Hf|apply K1]).
    assert (S1 : vin h1 self) by (eapply vin_mono; [apply K1|exact Hs]).
    pose proof (getattr_ok everything D h1 self "output" C1 S1 eq_refl) as O1. set (out := getattr h1 self "output") in *.
    destruct (if is_none out then Some (h1, out) else deepcopy h1 out) as [[h2 out2]|] eqn:E2; [|discriminate].
    assert (X2 : conf h2 /\ keeps h1 h2 /\ vin h2 out2).
    { destruct (is_none out).
      - injection E2 as <- <-. split; [exact C1|]. split; [apply keeps_refl|exact O1].
      - eapply deepcopy_ok; eauto. eapply vin_valid; eauto. }
    destruct X2 as [C2 [K2 V2]].
    assert (F2 : fresh_in h2) by (eapply fresh_mono; [exact F1|apply K2]).
    assert (S2 : vin h2 self) by (eapply vin_mono; [apply K2|exact S1]).
    destruct (set1 h2 self "output" out2 C2 S2 V2) as [C3 K3]. set (h3 := setattr h2 self "output" out2) in *.
    assert (S3 : vin h3 self) by (eapply vin_mono; [apply K3|exact S2]).
    assert (L03 : length h <= length h3) by (destruct K1, K2, K3; lia).
    destruct (set_all_ok kw h3 self C3 S3) as [C4 K4].
    { eapply Forall_impl; [|exact Hk]. intros x. apply vin_mono. exact L03. }
    set (h4 := set_all h3 self kw) in *.
    assert (S4 : vin h4 self) by (eapply vin_mono; [apply K4|exact S3]).
    assert (L04 : length h <= length h4) by (destruct K4; lia).
    assert (F4 : fresh_in h4) by (eapply fresh_mono; [exact Hf|exact L04]).
    cbn [alloc] in E.
    destruct (alloc_ok everything D h4 (rng_obj (getattr h4 self "seed")) C4 F4) as [C5 [K5 V5]].
    { intros k w [Hq|[]]. injection Hq as <- <-. apply (getattr_ok everything D h4 self "seed" C4 S4 eq_refl). }
    set (h5 := (h4 ++ [rng_obj (getattr h4 self "seed")])%list) in *.
    assert (S5 : vin h5 self) by (eapply vin_mono; [apply K5|exact S4]).
    destruct (set1 h5 self "random_state" (VRef (length h4)) C5 S5 V5) as [C6 K6].
    set (h6 := setattr h5 self "random_state" (VRef (length h4))) in *.
    assert (S6 : vin h6 self) by (eapply vin_mono; [apply K6|exact S5]).
    assert (L06 : length h <= length h6) by (destruct K5, K6; lia).
    assert (F6 : fresh_in h6) by (eapply fresh_mono; [exact Hf|exact L06]).
    pose proof (getattr_ok everything D h6 self "termination" C6 S6 eq_refl) as T6. set (t := getattr h6 self "termination") in *.
    destruct (if is_none t then alloc h6 default_term_obj else termination_from_tuple h6 t) as [h7 t7] eqn:E7.
    assert (X7 : conf h7 /\ keeps h6 h7 /\ vin h7 t7).
    { assert (Hal : forall o, (forall k w, In (k, w) (o_fields o) -> vin h6 w) -> alloc h6 o = (h7, t7) -> conf h7 /\ keeps h6 h7 /\ vin h7 t7).
      { intros o Ho Ea. injection Ea as <- <-. apply alloc_ok; auto. }
      destruct t as [|z|a]; cbn [is_none termination_from_tuple] in E7.
      - eapply Hal; [|exact E7]. intros k w [Hq|[]]. injection Hq as <- <-. exact Logic.I.
      - eapply Hal; [|exact E7]. intros k w [Hq|[]]. injection Hq as <- <-. exact Logic.I.
      - assert (Hsame : (h6, VRef a) = (h7, t7) -> conf h7 /\ keeps h6 h7 /\ vin h7 t7).
        { intros Hq. injection Hq as <- <-. split; [exact C6|]. split; [apply keeps_refl|exact T6]. }
        destruct (nth_error h6 a) as [o|] eqn:Eo; [|auto]. destruct (o_kind o); auto.
        eapply Hal; [|exact E7]. intros k w Hi. cbn in Hi. destruct w as [| |b]; cbn; auto. destruct C6 as [Cc Cd]. split; [eapply Cd; eauto; apply T6|eapply Cc; eauto]. }
    destruct X7 as [C7 [K7 V7]].
    assert (S7 : vin h7 self) by (eapply vin_mono; [apply K7|exact S6]).
    destruct (set1 h7 self "termination" t7 C7 S7 V7) as [C8 K8]. set (h8 := setattr h7 self "termination" t7) in *.
    assert (S8 : vin h8 self) by (eapply vin_mono; [apply K8|exact S7]).
    assert (L08 : length h <= length h8) by (destruct K7, K8; lia).
    assert (K08 : keeps h h8).
    { eapply keeps_trans; [exact K1|]. eapply keeps_trans; [exact K2|]. eapply keeps_trans; [exact K3|]. eapply keeps_trans; [exact K4|].
      eapply keeps_trans; [exact K5|]. eapply keeps_trans; [exact K6|]. eapply keeps_trans; [exact K7|exact K8]. }
    destruct (is_none (getattr h8 self "display")) eqn:Ed.
    - injection E as <-.
      destruct (alloc_ok everything D h8 (display_obj (getattr h8 self "output") verbose progress) C8) as [C9 [K9 V9]].
      + eapply fresh_mono; [exact Hf|exact L08].
      + intros k w [Hq|[Hq|[Hq|[]]]]; injection Hq as <- <-; [apply (getattr_ok everything D h8 self "output" C8 S8 eq_refl)| |]; eapply vin_mono; [exact L08|eassumption|exact L08|eassumption].
      + destruct (set1 _ self "display" _ C9 (vin_mono D _ _ self (proj1 K9) S8) V9) as [C10 K10]. split; [exact C10|].
        eapply keeps_trans; [exact K08|]. eapply keeps_trans; [exact K9|exact K10].
    - injection E as <-. split; [exact C8|exact K08].
  Qed.
End Ok.

(** ** What minimize can change *)
(** the objects a run may work on: those hanging on the problem and the options, and on whatever it was told not to copy *)
Definition handed_over (ca ct : bool) (problem algorithm termination verbose progress : value) (kw : list (string * value)) : list value :=
  (problem :: verbose :: progress :: map snd kw ++ (if ca then [] else [algorithm]) ++ (if ct then [] else [termination]))%list.
Definition reachable_from (h : heap) (vs : list value) (a : addr) : Prop := exists v, In v vs /\ reach all_fields h v a.

Lemma reach_trans see h v a b : reach see h v a -> reach see h (VRef a) b -> reach see h v b.
Proof. induction 1 as [a|a c o k w H1 H2 H3 IH]; auto. intros Hr. eapply reach_next; eauto. Qed.

Theorem C105_minimize_changes_only : forall ca ct h problem algorithm termination verbose progress kw h' self,
  closed h -> valid h algorithm -> valid h termination -> Forall (valid h) (handed_over ca ct problem algorithm termination verbose progress kw) ->
  minimize ca ct h problem algorithm termination verbose progress kw h' self ->
  (forall a, a < length h -> ~ reachable_from h (handed_over ca ct problem algorithm termination verbose progress kw) a ->
     nth_error h' a = nth_error h a) /\
  (if ca then forall a, self = VRef a -> length h <= a else self = algorithm).
Proof.
  intros ca ct h p alg t v pr kw h' self Hcl Hva Hvt Hvs Hm. set (roots := handed_over ca ct p alg t v pr kw) in *.
  set (D := fun a => length h <= a \/ reachable_from h roots a).
  assert (Hf : fresh_in D h) by (intros a Ha; left; exact Ha).
  assert (Hc : conf everything D h).
  { split; [exact Hcl|]. intros a o k b Ho [Ha|[u [Hu Hr]]] Hi _.
    - apply nth_error_None in Ha. congruence.
    - right. exists u. split; [exact Hu|]. eapply reach_trans; [exact Hr|]. eapply reach_next; [exact Ho|exact Hi|apply reach_here]. }
  assert (Hin : forall u, In u roots -> vin D h u).
  { intros u Hu. rewrite Forall_forall in Hvs. specialize (Hvs _ Hu). destruct u as [| |a]; cbn; auto. split; [|exact Hvs].
    right. exists (VRef a). split; [exact Hu|apply reach_here]. }
  assert (Hcopy : forall c g u h1 w, conf everything D g -> fresh_in D g -> valid g u -> (c = false -> vin D g u) -> copy_if c g u = Some (h1, w) ->
            conf everything D h1 /\ keeps D g h1 /\ vin D h1 w /\ (c = true -> forall a, w = VRef a -> length g <= a)).
  { clear. intros c g u h1 w Hc Hf Hv Hi E. destruct c; cbn in E.
    - destruct (deepcopy_ok everything D g u h1 w Hc Hf Hv E) as [C [K V]]. split; [exact C|]. split; [exact K|]. split; [exact V|].
      intros _ a ->. apply C105_deepcopy in E; [|apply Hc|exact Hv]. destruct E as [_ [_ [f [Hq [_ [Ho _]]]]]].
      destruct u as [| |b]; cbn in Hq; try discriminate. injection Hq as ->. apply (Ho b (reach_here _ _ _)).
    - injection E as <- <-. split; [exact Hc|]. split; [apply keeps_refl|]. split; [auto|discriminate]. }
  assert (Halg : ca = false -> vin D h alg).
  { intros ->. apply Hin. unfold roots, handed_over. do 3 right. apply in_or_app. right. left. reflexivity. }
  assert (Hterm : ct = false -> vin D h t).
  { intros ->. apply Hin. unfold roots, handed_over. do 3 right. apply in_or_app. right. apply in_or_app. right. left. reflexivity. }
  assert (Hp : vin D h p) by (apply Hin; left; reflexivity).
  assert (Hv : vin D h v) by (apply Hin; right; left; reflexivity).
  assert (Hpr : vin D h pr) by (apply Hin; do 2 right; left; reflexivity).
  assert (Hkw : Forall (fun kv => vin D h (snd kv)) kw).
  { apply Forall_forall. intros kv Hi. apply Hin. do 3 right. apply in_or_app. left. apply in_map. exact Hi. }
  assert (Hself : forall h1, copy_if ca h alg = Some (h1, self) -> if ca then forall a, self = VRef a -> length h <= a else self = alg).
  { intros h1 E1. destruct (Hcopy _ _ _ _ _ Hc Hf Hva Halg E1) as [_ [_ [_ Hn]]]. destruct ca; [apply Hn; reflexivity|]. cbn in E1. congruence. }
  assert (Hdone : forall h4, keeps D h h4 -> forall a, a < length h -> ~ reachable_from h roots a -> nth_error h4 a = nth_error h a).
  { intros h4 [_ K] a Ha Hn. apply K. intros [Hx|Hx]; [lia|contradiction]. }
  destruct Hm as [h1 self h2 t2 h3 h4 L E1 E2 E3 kw' E4 E5|h1 self h4 L E1 E2 E5].
  - split; [|eapply Hself; eauto]. apply Hdone.
    destruct (Hcopy _ _ _ _ _ Hc Hf Hva Halg E1) as [C1 [K1 [V1 _]]].
    assert (F1 : fresh_in D h1) by (eapply fresh_mono; [exact Hf|apply K1]).
    assert (X2 : conf everything D h2 /\ keeps D h1 h2 /\ vin D h2 t2).
    { destruct (is_none t).
      - injection E3 as <- <-. split; [exact C1|]. split; [apply keeps_refl|exact Logic.I].
      - destruct (Hcopy ct h1 t h2 t2 C1 F1) as [C2 [K2 [V2 _]]]; auto.
        + destruct t; cbn; auto. cbn in Hvt. destruct K1. lia.
        + intros Hq. eapply vin_mono; [apply K1|auto].
      }
    destruct X2 as [C2 [K2 V2]].
    assert (F2 : fresh_in D h2) by (eapply fresh_mono; [exact F1|apply K2]).
    assert (L02 : length h <= length h2) by (destruct K1, K2; lia).
    assert (Hkw' : Forall (fun kv => vin D h2 (snd kv)) kw').
    { assert (Hk2 : Forall (fun kv => vin D h2 (snd kv)) kw) by (eapply Forall_impl; [|exact Hkw]; intros x; apply vin_mono; exact L02).
      unfold kw'. destruct (is_none t); auto. apply Forall_app. split; auto. }
    assert (V12 : vin D h2 self) by (eapply vin_mono; [apply K2|exact V1]).
    destruct (setup_ok D h2 self p v pr kw' h3 C2 F2 V12) as [C3 K3]; auto; try (eapply vin_mono; [exact L02|assumption]).
    destruct (steps_ok everything D _ _ E5) as [_ [K4 _]]; cbn.
    + exact C3.
    + eapply fresh_mono; [exact F2|apply K3].
    + constructor; [eapply vin_mono; [apply K3|exact V12]|]. constructor; [eapply vin_mono; [|exact Hp]; destruct K3; lia|].
      apply Forall_forall. intros w Hi. apply in_map_iff in Hi. destruct Hi as [kv [<- Hi]]. rewrite Forall_forall in Hkw'.
      eapply vin_mono; [apply K3|apply Hkw'; exact Hi].
    + cbn in K4. eapply keeps_trans; [exact K1|]. eapply keeps_trans; [exact K2|]. eapply keeps_trans; [exact K3|exact K4].
  - split; [|eapply Hself; eauto]. apply Hdone. destruct (Hcopy _ _ _ _ _ Hc Hf Hva Halg E1) as [C1 [K1 [V1 _]]].
    destruct (steps_ok everything D _ _ E5) as [_ [K4 _]]; cbn.
    + exact C1.
    + eapply fresh_mono; [exact Hf|apply K1].
    + constructor; [exact V1|constructor].
    + cbn in K4. eapply keeps_trans; eauto.
Qed.

(** with the default copies, an algorithm that shares no object with the problem and the options is left exactly as it was, and so is
    the termination: object by object, and nothing new hangs on them *)
Lemma same_reach see h h' v : (forall a, reach see h v a -> nth_error h' a = nth_error h a) -> forall a, reach see h' v a <-> reach see h v a.
Proof.
  intros Hs a. split; intros Hr.
  - revert Hs. induction Hr as [a|a b o k w H1 H2 H3 IH]; intros Hs; [apply reach_here|].
    rewrite Hs in H1 by apply reach_here. eapply reach_next; [exact H1|exact H2|]. apply IH. intros x Hx. apply Hs. eapply reach_next; eauto.
  - revert Hs. induction Hr as [a|a b o k w H1 H2 H3 IH]; intros Hs; [apply reach_here|].
    eapply reach_next; [rewrite Hs; [exact H1|apply reach_here]|exact H2|]. apply IH. intros x Hx. apply Hs. eapply reach_next; eauto.
Qed.
Theorem C105_algorithm_and_termination_untouched : forall h problem algorithm termination verbose progress kw h' self v,
  closed h -> valid h algorithm -> valid h termination -> Forall (valid h) (problem :: verbose :: progress :: map snd kw) ->
  minimize true true h problem algorithm termination verbose progress kw h' self ->
  v = algorithm \/ v = termination ->
  (forall a, reach all_fields h v a -> ~ reachable_from h (problem :: verbose :: progress :: map snd kw) a) ->
  (forall a, reach all_fields h v a -> nth_error h' a = nth_error h a) /\
  (forall a, reach all_fields h' v a <-> reach all_fields h v a).
Proof.
  intros h p alg t vb pr kw h' self v Hc Ha Ht Hvs Hm Hv Hd.
  assert (Hh : handed_over true true p alg t vb pr kw = (p :: vb :: pr :: map snd kw)%list) by (unfold handed_over; rewrite !app_nil_r; reflexivity).
  destruct (C105_minimize_changes_only true true h p alg t vb pr kw h' self Hc Ha Ht) as [Hk _]; [rewrite Hh; exact Hvs|exact Hm|].
  rewrite Hh in Hk.
  assert (Hs : forall a, reach all_fields h v a -> nth_error h' a = nth_error h a).
  { intros a Hr. apply Hk; [|auto]. eapply reach_valid; [exact Hc| |destruct Hv as [-> | ->]; [exact Ha|exact Ht]|exact Hr].
    intros o k w Hi. destruct w; auto. }
  split; [exact Hs|]. apply same_reach. exact Hs.
Qed.
