(** * C105: what setup stores, what is ignored, wrappers *)
From Coq Require Import String List Arith Bool Lia.
From Verif Require Import ListAux M_Heap M_Minimize S_Heap Thm_Heap Thm_Heap2 Thm_Heap3 Thm_Minimize.
Import ListNotations.
Local Open Scope nat_scope.
Local Open Scope string_scope.

Lemma set_all_length kw : forall h self, length (set_all h self kw) = length h.
Proof. unfold set_all. induction kw as [|kv kw IH]; intros h self; cbn [fold_left]; [reflexivity|]. rewrite IH. apply length_setattr. Qed.
Lemma set_all_neq kw : forall h self u k, ~ In k (map fst kw) -> getattr (set_all h self kw) u k = getattr h u k.
Proof.
  unfold set_all. induction kw as [|[k1 w1] kw IH]; intros h self u k Hn; cbn [fold_left fst snd]; [reflexivity|]. cbn in Hn. rewrite IH by tauto.
  apply getattr_setattr_neq. intros ->. tauto.
Qed.
Lemma set_all_eq kw : forall h a k w, a < length h -> NoDup (map fst kw) -> In (k, w) kw -> getattr (set_all h (VRef a) kw) (VRef a) k = w.
Proof.
  unfold set_all. induction kw as [|[k1 w1] kw IH]; intros h a k w Ha Hnd Hi; [destruct Hi|]. cbn in Hnd. apply NoDup_cons_iff in Hnd. destruct Hnd as [Hn Hnd].
  cbn [fold_left fst snd]. destruct Hi as [Hq|Hi].
  - injection Hq as -> ->. change (getattr (set_all (setattr h (VRef a) k w) (VRef a) kw) (VRef a) k = w).
    rewrite set_all_neq by exact Hn. apply getattr_setattr. exact Ha.
  - apply IH; auto. rewrite length_setattr. exact Ha.
Qed.
Lemma set_all_other kw : forall h a b, b <> a -> nth_error (set_all h (VRef a) kw) b = nth_error h b.
Proof. unfold set_all. induction kw as [|kv kw IH]; intros h a b Hn; cbn [fold_left]; [reflexivity|]. rewrite IH by exact Hn. apply nth_setattr_neq. exact Hn. Qed.

Lemma deepcopy_old h v h' v' a : closed h -> valid h v -> deepcopy h v = Some (h', v') -> a < length h -> nth_error h' a = nth_error h a.
Proof. intros Hc Hv E Ha. apply C105_deepcopy in E; auto. apply E. exact Ha. Qed.
Lemma deepcopy_len h v h' v' : closed h -> valid h v -> deepcopy h v = Some (h', v') -> length h <= length h'.
Proof. intros Hc Hv E. apply C105_deepcopy in E; auto. apply E. Qed.

Lemma closed_conf h : closed h -> conf everything (fun _ => True) h.
Proof. intros Hc. split; auto. Qed.
Lemma setattr_closed h v k w : closed h -> valid h v -> valid h w -> closed (setattr h v k w).
Proof.
  intros Hc Hv Hw. apply (setattr_ok everything (fun _ => True) h v k w (closed_conf h Hc)); auto.
  - destruct v; cbn; auto.
  - intros _. destruct w; cbn; auto.
Qed.
Lemma getattr_valid h v k : closed h -> valid h (getattr h v k).
Proof.
  intros Hc. destruct v as [| |a]; cbn; auto. destruct (nth_error h a) as [o|] eqn:Ho; cbn; auto.
  destruct (fget (o_fields o) k) as [| |b] eqn:E; cbn; auto. apply fget_In in E. eapply Hc; eauto.
Qed.

(** The attributes of the algorithm when setup calls [_setup]: every option is stored under its name, as the very object that was passed;
    the problem is the one given; random_state is a new generator made from the final seed; the termination is a Termination object; all
    other attributes are as before - among them verbose: the flag only reaches a display object made here. *)
Theorem C105_setup : forall h a problem verbose progress kw h', closed h -> a < length h -> valid h problem ->
  NoDup (map fst kw) -> ~ In "problem" (map fst kw) ->
  setup h (VRef a) problem verbose progress kw = Some h' ->
  getattr h' (VRef a) "problem" = problem /\
  (forall k w, In (k, w) kw -> ~ In k ["random_state"; "termination"; "display"] -> getattr h' (VRef a) k = w) /\
  (forall k, ~ In k (map fst kw) -> ~ In k ["problem"; "output"; "random_state"; "termination"; "display"] ->
     getattr h' (VRef a) k = getattr h (VRef a) k) /\
  (exists r, getattr h' (VRef a) "random_state" = VRef r /\ length h <= r /\ getattr h' (VRef r) "seed" = getattr h' (VRef a) "seed") /\
  (let given k := match assoc k kw with Some w => w | None => getattr h (VRef a) k end in
   (forall t o, given "termination" = VRef t -> nth_error h t = Some o -> t <> a -> o_kind o <> Tuple -> getattr h' (VRef a) "termination" = VRef t) /\
   (is_none (given "termination") = true -> exists t, getattr h' (VRef a) "termination" = VRef t /\ length h <= t) /\
   (is_none (given "display") = false -> getattr h' (VRef a) "display" = given "display") /\
   (is_none (given "display") = true -> exists d, getattr h' (VRef a) "display" = VRef d /\ length h <= d /\
      getattr h' (VRef d) "verbose" = verbose /\ getattr h' (VRef d) "progress" = progress)).
Proof.
  intros h a p v pr kw h' Hcl Ha Hp Hnd Hnp E. unfold setup in E.
  set (h1 := setattr h (VRef a) "problem" p) in *.
  assert (C1 : closed h1) by (apply setattr_closed; auto).
  assert (L1 : length h1 = length h) by apply length_setattr.
  pose proof (getattr_valid h1 (VRef a) "output" C1) as O1. set (out := getattr h1 (VRef a) "output") in *.
  destruct (if is_none out then Some (h1, out) else deepcopy h1 out) as [[h2 out2]|] eqn:E2; [|discriminate].
  assert (X2 : length h <= length h2 /\ forall b, b < length h -> nth_error h2 b = nth_error h1 b).
  { destruct (is_none out).
    - injection E2 as <- <-. split; [lia|auto].
    - split; [rewrite <- L1; eapply deepcopy_len; eauto|]. intros b Hb. eapply deepcopy_old; eauto. lia. }
  destruct X2 as [L2 P2].
  set (h3 := setattr h2 (VRef a) "output" out2) in *. assert (L3 : length h3 = length h2) by apply length_setattr.
  set (h4 := set_all h3 (VRef a) kw) in *. assert (L4 : length h4 = length h2) by (unfold h4; rewrite set_all_length; exact L3).
  cbn [alloc] in E. set (o5 := rng_obj (getattr h4 (VRef a) "seed")) in *. set (h5 := (h4 ++ [o5])%list) in *.
  assert (L5 : length h5 = S (length h2)) by (unfold h5; rewrite app_length; cbn; lia).
  set (h6 := setattr h5 (VRef a) "random_state" (VRef (length h4))) in *. assert (L6 : length h6 = S (length h2)) by (unfold h6; rewrite length_setattr; exact L5).
  (* attributes of the algorithm so far *)
  assert (A4 : forall k, ~ In k ["problem"; "output"] -> ~ In k (map fst kw) -> getattr h4 (VRef a) k = getattr h (VRef a) k).
  { intros k Hk Hkw. unfold h4. rewrite set_all_neq by exact Hkw. unfold h3. rewrite getattr_setattr_neq by (cbn in Hk; intuition congruence).
    rewrite (getattr_ext h1 h2 a k (P2 a Ha)). unfold h1. apply getattr_setattr_neq. cbn in Hk. intuition congruence. }
  assert (A4k : forall k w, In (k, w) kw -> getattr h4 (VRef a) k = w).
  { intros k w Hi. unfold h4. apply set_all_eq; auto. lia. }
  assert (A4p : getattr h4 (VRef a) "problem" = p).
  { unfold h4. rewrite set_all_neq by exact Hnp. unfold h3. rewrite getattr_setattr_neq by discriminate. rewrite (getattr_ext h1 h2 a _ (P2 a Ha)).
    unfold h1. apply getattr_setattr. exact Ha. }
  assert (A6 : forall k, k <> "random_state" -> getattr h6 (VRef a) k = getattr h4 (VRef a) k).
  { intros k Hk. unfold h6. rewrite getattr_setattr_neq by exact Hk. unfold h5. apply getattr_app. cbn. lia. }
  assert (A6r : getattr h6 (VRef a) "random_state" = VRef (length h4)) by (unfold h6; apply getattr_setattr; lia).
  set (given := fun k => match assoc k kw with Some w => w | None => getattr h (VRef a) k end).
  assert (A4g : forall k, ~ In k ["problem"; "output"] -> getattr h4 (VRef a) k = given k).
  { intros k Hk. unfold given, assoc. destruct (find (fun kv => String.eqb (fst kv) k) kw) as [[k1 w1]|] eqn:Ef; cbn.
    - apply find_some in Ef. destruct Ef as [Hi Hq]. cbn in Hq. apply String.eqb_eq in Hq. subst k1. apply A4k. exact Hi.
    - apply A4; auto. intros Hi. apply in_map_iff in Hi. destruct Hi as [[k1 w1] [Hq Hi]]. cbn in Hq. subst k1.
      pose proof (find_none _ _ Ef _ Hi) as Hf. cbn in Hf. rewrite String.eqb_refl in Hf. discriminate. }
  set (t := getattr h6 (VRef a) "termination") in *.
  assert (Ht : t = given "termination").
  { unfold t. rewrite A6 by discriminate. apply A4g. cbn. intuition discriminate. }
  destruct (if is_none t then alloc h6 default_term_obj else termination_from_tuple h6 t) as [h7 t7] eqn:E7.
  assert (X7 : length h6 <= length h7 /\ (forall b, b < length h6 -> nth_error h7 b = nth_error h6 b) /\
               (h7 = h6 /\ t7 = t \/ t7 = VRef (length h6)) /\
               (is_none t = true -> t7 = VRef (length h6)) /\
               (forall x o, t = VRef x -> nth_error h6 x = Some o -> o_kind o <> Tuple -> t7 = t)).
  { assert (Hal : forall o, alloc h6 o = (h7, t7) -> length h6 <= length h7 /\ (forall b, b < length h6 -> nth_error h7 b = nth_error h6 b) /\ t7 = VRef (length h6)).
    { intros o Ea. injection Ea as <- <-. rewrite app_length. cbn. split; [lia|]. split; [|reflexivity]. intros b Hb. apply nth_error_app1. exact Hb. }
    destruct t as [|z|x]; cbn [is_none termination_from_tuple] in E7.
    - destruct (Hal _ E7) as [H1 [H2 H3]]. split; [exact H1|]. split; [exact H2|]. split; [auto|]. split; [auto|]. intros; discriminate.
    - destruct (Hal _ E7) as [H1 [H2 H3]]. split; [exact H1|]. split; [exact H2|]. split; [auto|]. split; [auto|]. intros; discriminate.
    - assert (Hs : (h6, VRef x) = (h7, t7) -> length h6 <= length h7 /\ (forall b, b < length h6 -> nth_error h7 b = nth_error h6 b) /\
               (h7 = h6 /\ t7 = VRef x \/ t7 = VRef (length h6)) /\ (is_none (VRef x) = true -> t7 = VRef (length h6)) /\
               (forall x0 o, VRef x = VRef x0 -> nth_error h6 x0 = Some o -> o_kind o <> Tuple -> t7 = VRef x)).
      { intros Hq. injection Hq as <- <-. split; [lia|]. split; [auto|]. split; [auto|]. split; [intros; discriminate|auto]. }
      destruct (nth_error h6 x) as [o|] eqn:Eo; [|auto]. destruct (o_kind o) eqn:Ek; auto.
      destruct (Hal _ E7) as [H1 [H2 H3]]. split; [exact H1|]. split; [exact H2|]. split; [auto|]. split; [intros; discriminate|].
      intros y o' Hq Ho' Hk. injection Hq as <-. rewrite Eo in Ho'. injection Ho' as <-. contradiction. }
  destruct X7 as [L7 [P7 [Q7 [N7 K7]]]].
  set (h8 := setattr h7 (VRef a) "termination" t7) in *. assert (L8 : length h8 = length h7) by apply length_setattr.
  assert (A8 : forall k, k <> "termination" -> getattr h8 (VRef a) k = getattr h6 (VRef a) k).
  { intros k Hk. unfold h8. rewrite getattr_setattr_neq by exact Hk. apply getattr_ext. apply P7. lia. }
  assert (A8t : getattr h8 (VRef a) "termination" = t7) by (unfold h8; apply getattr_setattr; lia).
  assert (Hdone : (is_none (given "display") = false /\ h' = h8) \/
                  (is_none (given "display") = true /\ h' = setattr (h8 ++ [display_obj (getattr h8 (VRef a) "output") v pr])%list (VRef a) "display" (VRef (length h8)))).
  { assert (Hd : getattr h8 (VRef a) "display" = given "display").
    { rewrite A8 by discriminate. rewrite A6 by discriminate. apply A4g. cbn. intuition discriminate. }
    rewrite Hd in E. destruct (is_none (given "display")); injection E as <-; auto. }
  assert (A9 : forall k, k <> "display" -> getattr h' (VRef a) k = getattr h8 (VRef a) k).
  { intros k Hk. destruct Hdone as [[_ ->]|[_ ->]]; [reflexivity|]. rewrite getattr_setattr_neq by exact Hk. apply getattr_app. change (a < length h8). lia. }
  assert (A' : forall k, ~ In k ["random_state"; "termination"; "display"] -> getattr h' (VRef a) k = getattr h4 (VRef a) k).
  { intros k Hk. cbn in Hk. rewrite A9 by intuition congruence. rewrite A8 by intuition congruence. apply A6. intuition congruence. }
  split; [rewrite A' by (cbn; intuition discriminate); exact A4p|].
  split; [intros k w Hi Hk; rewrite A' by exact Hk; apply A4k; exact Hi|].
  split; [intros k Hk Hn; rewrite A' by (cbn in *; tauto); apply A4; [cbn in *; tauto|exact Hk]|].
  split.
  { exists (length h4). split; [rewrite A9, A8 by discriminate; exact A6r|]. split; [lia|].
    rewrite A' by (cbn; intuition discriminate).
    assert (P : nth_error h' (length h4) = Some o5).
    { assert (P8 : nth_error h8 (length h4) = Some o5).
      { unfold h8. rewrite nth_setattr_neq by lia. rewrite P7 by lia. unfold h6. rewrite nth_setattr_neq by lia. unfold h5.
        rewrite nth_error_app2 by lia. rewrite Nat.sub_diag. reflexivity. }
      destruct Hdone as [[_ ->]|[_ ->]]; [exact P8|]. rewrite nth_setattr_neq by lia. rewrite nth_error_app1 by lia. exact P8. }
    cbn [getattr]. rewrite P. reflexivity. }
  cbv zeta. fold given. repeat split.
  - intros x o Hg Ho Hxa Hk. rewrite A9, A8t by discriminate. rewrite Ht in K7. rewrite <- Hg, <- Ht. rewrite <- Ht in K7. rewrite Ht, Hg.
    transitivity t; [|congruence]. apply (K7 x o); [congruence| |exact Hk].
    assert (Hx : x < length h) by (apply nth_error_Some; congruence).
    unfold h6. rewrite nth_setattr_neq by exact Hxa. unfold h5. rewrite nth_error_app1 by lia. unfold h4. rewrite set_all_other by exact Hxa.
    unfold h3. rewrite nth_setattr_neq by exact Hxa. rewrite P2 by exact Hx. unfold h1. rewrite nth_setattr_neq by exact Hxa. exact Ho.
  - intros Hn. exists (length h6). rewrite A9, A8t by discriminate. split; [apply N7; rewrite Ht; exact Hn|lia].
  - intros Hn. destruct Hdone as [[_ ->]|[Hx _]]; [|congruence]. rewrite A8, A6 by discriminate. apply A4g. cbn. intuition discriminate.
  - intros Hn. destruct Hdone as [[Hx _]|[_ ->]]; [congruence|]. exists (length h8).
    assert (Hl8 : a < length h8) by lia.
    split; [apply getattr_setattr; rewrite app_length; lia|]. split; [lia|].
    cbn [getattr]. rewrite !nth_setattr_neq by lia. rewrite nth_error_app2 by lia. rewrite Nat.sub_diag. split; reflexivity.
Qed.

(** An algorithm that was set up before is run as it is: the problem, the termination and the options of the call make no difference at
    all, and nothing is done to them *)
Lemma assoc_cons {A} (k k1 : string) (w : A) l : assoc k ((k1, w) :: l) = if String.eqb k1 k then Some w else assoc k l.
Proof. unfold assoc. cbn. destruct (String.eqb k1 k); reflexivity. Qed.
Lemma fget_state o k : assoc k (o_hide o) = None -> fget (state_of o) k = fget (o_fields o) k.
Proof.
  intros Hk. unfold fget, state_of. assert (Hx : forall fs : fields, assoc k (flat_map (fun kv => match assoc (fst kv) (o_hide o) with
     | None => [kv] | Some true => [(fst kv, VNone)] | Some false => [] end) fs) = assoc k fs); [|rewrite Hx; reflexivity].
  induction fs as [|[k1 w1] fs IH]; [reflexivity|]. cbn [flat_map fst]. rewrite assoc_cons.
  destruct (String.eqb_spec k1 k) as [->|Hne].
  - rewrite Hk. cbn [app]. rewrite assoc_cons, String.eqb_refl. reflexivity.
  - rewrite <- IH. destruct (assoc k1 (o_hide o)) as [[|]|]; cbn [app]; rewrite ?assoc_cons; auto; destruct (String.eqb_spec k1 k); congruence.
Qed.
Lemma fget_vmap f fs k : fget (map (fun kv => (fst kv, vmap f (snd kv))) fs) k = vmap f (fget fs k).
Proof.
  unfold fget, assoc. induction fs as [|[k1 w1] fs IH]; [reflexivity|]. cbn. destruct (String.eqb k1 k); cbn; auto.
Qed.
Lemma deepcopy_getattr h a h' v' o k : closed h -> nth_error h a = Some o -> assoc k (o_hide o) = None -> deepcopy h (VRef a) = Some (h', v') ->
  exists f, v' = VRef (f a) /\ getattr h' v' k = vmap f (getattr h (VRef a) k).
Proof.
  intros Hc Ho Hk E. apply C105_deepcopy in E; [|exact Hc|cbn; apply nth_error_Some; congruence].
  destruct E as [_ [_ [f [-> [_ [Hf _]]]]]]. exists f. split; [reflexivity|]. destruct (Hf a (reach_here _ _ _)) as [_ [o' [Ho' [_ Hn]]]].
  rewrite Ho in Ho'. injection Ho' as <-. cbn. rewrite Hn, Ho. cbn. rewrite fget_vmap, fget_state by exact Hk. reflexivity.
Qed.
Theorem C105_set_up_before : forall ca h a o, closed h -> nth_error h a = Some o -> assoc "problem" (o_hide o) = None ->
  getattr h (VRef a) "problem" <> VNone ->
  forall ct p t v pr kw ct2 p2 t2 v2 pr2 kw2 h' self,
  minimize ca ct h p (VRef a) t v pr kw h' self -> minimize ca ct2 h p2 (VRef a) t2 v2 pr2 kw2 h' self.
Proof.
  intros ca h a o Hc Ho Hh Hp ct p t v pr kw ct2 p2 t2 v2 pr2 kw2 h' self Hm.
  assert (Hcp : forall h1 s, copy_if ca h (VRef a) = Some (h1, s) -> getattr h1 s "problem" <> VNone).
  { intros h1 s E. destruct ca; cbn [copy_if] in E.
    - destruct (deepcopy_getattr h a h1 s o "problem" Hc Ho Hh E) as [f [_ ->]]. destruct (getattr h (VRef a) "problem"); cbn; congruence.
    - injection E as <- <-. exact Hp. }
  destruct Hm as [h1 self h2 t2' h3 h4 L E1 E2 E3 kw' E4 E5|h1 self h4 L E1 E2 E5].
  - exfalso. apply (Hcp _ _ E1). exact E2.
  - eapply minimize_run; eauto.
Qed.

(** The wrappers: with a copy, the wrapped object is as it was and the wrapper remembers it; an algorithm that is already a wrapper is
    not copied: the new wrapper is that object, and what the inner wrapper remembered as the original is overwritten by itself *)
Theorem C105_meta : forall h a h' w, closed h -> a < length h ->
  (meta h (VRef a) true = Some (h', w) ->
     (forall b, b < length h -> nth_error h' b = nth_error h b) /\ (exists b, w = VRef b /\ length h <= b) /\
     getattr h' w "__object__" = VRef a /\ getattr h' w "__super__" = w) /\
  (meta h (VRef a) false = Some (h', w) ->
     w = VRef a /\ getattr h' (VRef a) "__object__" = VRef a /\ getattr h' (VRef a) "__super__" = VRef a /\
     (forall k, k <> "__object__" -> k <> "__super__" -> getattr h' (VRef a) k = getattr h (VRef a) k)).
Proof.
  intros h a h' w Hc Ha. split; intros E; unfold meta, copy_if in E.
  - destruct (deepcopy h (VRef a)) as [[h1 v1]|] eqn:Ed; [|discriminate]. injection E as <- <-.
    pose proof (deepcopy_len _ _ _ _ Hc (Ha : valid h (VRef a)) Ed) as Hl. pose proof Ed as Ed'.
    apply C105_deepcopy in Ed; [|exact Hc|exact Ha]. destruct Ed as [_ [Hold [f [-> [_ [Hf _]]]]]]. cbn [vmap] in *.
    destruct (Hf a (reach_here _ _ _)) as [Hfa [o [_ [_ Hn]]]]. assert (Hfl : f a < length h1) by (apply nth_error_Some; congruence).
    split; [|split; [|split]].
    + intros b Hb. rewrite !nth_setattr_neq by lia. apply Hold. exact Hb.
    + exists (f a). auto.
    + rewrite getattr_setattr_neq by discriminate. apply getattr_setattr. exact Hfl.
    + apply getattr_setattr. rewrite length_setattr. exact Hfl.
  - assert (E1 : h' = setattr (setattr h (VRef a) "__object__" (VRef a)) (VRef a) "__super__" (VRef a) /\ w = VRef a) by (split; congruence). clear E. destruct E1 as [-> ->]. split; [reflexivity|]. split; [|split].
    + rewrite getattr_setattr_neq by discriminate. apply getattr_setattr. exact Ha.
    + apply getattr_setattr. rewrite length_setattr. exact Ha.
    + intros k H1 H2. rewrite !getattr_setattr_neq; auto.
Qed.
