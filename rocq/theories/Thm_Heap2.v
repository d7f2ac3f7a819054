(** * C105: deepcopy, the theorems; frame of arbitrary code *)
From Coq Require Import String List Arith Bool Lia Permutation.
From Verif Require Import ListAux M_Heap S_Heap Thm_Heap.
Import ListNotations.
Local Open Scope nat_scope.

Definition copyable (h : heap) (v : value) : Prop :=
  forall a o, reach state_of h v a -> nth_error h a = Some o -> o_kind o <> Opaque.

  Lemma filter_le {A} (f g : A -> bool) l : (forall x, In x l -> f x = true -> g x = true) -> length (filter f l) <= length (filter g l).
  Proof.
    induction l as [|x l IH]; intros Hfg; cbn; [lia|]. assert (IH' := IH (fun y Hy => Hfg y (or_intror Hy))).
    destruct (f x) eqn:Ef; [rewrite (Hfg x (or_introl eq_refl) Ef); cbn; lia|]. destruct (g x); cbn; lia.
  Qed.
  Lemma filter_lt {A} (f g : A -> bool) l x : (forall x, In x l -> f x = true -> g x = true) -> In x l -> g x = true -> f x = false ->
    length (filter f l) < length (filter g l).
  Proof.
    induction l as [|y l IH]; intros Hfg Hx Hg Hf; [destruct Hx|]. cbn.
    assert (Hle := filter_le f g l (fun z Hz => Hfg z (or_intror Hz))).
    destruct Hx as [->|Hx].
    - rewrite Hg, Hf. cbn. lia.
    - assert (IH' := IH (fun z Hz => Hfg z (or_intror Hz)) Hx Hg Hf).
      destruct (f y) eqn:Ef; [rewrite (Hfg y (or_introl eq_refl) Ef); cbn; lia|]. destruct (g y); cbn; lia.
  Qed.
Section Total.
  Variable h0 : heap.
  Let n0 := length h0.
  Hypothesis Hcl : closed h0.
  Definition unvisited (m : memo) : nat := length (filter (fun a => match mget m a with None => true | _ => false end) (seq 0 n0)).

  Lemma unvisited_mono m m' : incl m m' -> unvisited m' <= unvisited m.
  Proof.
    intros Hi. apply filter_le. intros a _ Ha. destruct (mget m' a) eqn:E'; [discriminate|]. destruct (mget m a) eqn:E; [|reflexivity].
    exfalso. apply mget_None in E'. apply mget_Some in E. apply E'. apply in_map_iff. exists (a, a0). auto.
  Qed.
  Lemma unvisited_cons m a b : a < n0 -> mget m a = None -> unvisited ((a, b) :: m) < unvisited m.
  Proof.
    intros Ha Hg. apply filter_lt with (x := a).
    - intros x _ Hx. destruct (mget ((a, b) :: m) x) eqn:E; [discriminate|]. apply mget_None in E. destruct (mget m x) eqn:E2; [|reflexivity].
      exfalso. apply E. apply mget_Some in E2. cbn. right. apply in_map_iff. exists (x, a0). auto.
    - apply in_seq. lia.
    - rewrite Hg. reflexivity.
    - unfold mget. cbn. rewrite Nat.eqb_refl. reflexivity.
  Qed.

  Lemma dc_total fuel : forall h m v, base h0 h -> okm h0 m -> valid h0 v -> copyable h0 v -> unvisited m < fuel ->
    exists r, dc fuel h m v = Some r.
  Proof.
    induction fuel as [|n IH]; intros h m v Hb Hm Hv Hc Hu; [lia|]. cbn. destruct v as [| |a]; eauto.
    destruct (mget m a) as [b|] eqn:Eg; eauto. cbn in Hv. destruct (nth_error h0 a) as [o|] eqn:Ho; [|apply nth_error_None in Ho; lia].
    assert (Eo : nth_error h a = Some o) by (destruct Hb as [_ Hb2]; rewrite Hb2; auto). rewrite Eo.
    assert (Hk : o_kind o <> Opaque) by (eapply Hc; [apply reach_here|exact Ho]).
    assert (Hb1 : base h0 (h ++ [with_fields o []])).
    { destruct Hb as [Hb1 Hb2]. split; [rewrite app_length; cbn; lia|]. intros x Hx. rewrite nth_error_app1 by lia. apply Hb2. exact Hx. }
    assert (Hm1 : okm h0 ((a, length h) :: m)).
    { destruct Hm as [M1 M2]. split; [cbn; constructor; auto; apply mget_None; exact Eg|].
      intros x y [Hq|Hi]; [injection Hq as <- <-; exact Hv|eapply M2; eauto]. }
    assert (Hu1 : unvisited ((a, length h) :: m) < n) by (eapply Nat.lt_le_trans; [apply unvisited_cons; auto|]; apply Nat.lt_succ_r; exact Hu).
    assert (Hfs : forall fs, (forall k w, In (k, w) fs -> valid h0 w /\ copyable h0 w) -> forall h m, base h0 h -> okm h0 m -> unvisited m < n ->
                    exists r, copy_fields (dc n) fs h m = Some r).
    { clear - IH Hcl. induction fs as [|[k w] fs IHf]; intros Hw h m Hb Hm Hu; cbn; eauto.
      destruct (Hw k w (or_introl eq_refl)) as [Hv Hc]. destruct (IH h m w Hb Hm Hv Hc Hu) as [[[h1 m1] w1] E1]. rewrite E1.
      destruct (dc_spec h0 Hcl n _ _ _ _ _ _ Hb Hm Hv E1) as [A _].
      destruct (IHf (fun k w Hi => Hw k w (or_intror Hi)) h1 m1) as [[[h2 m2] r] E2].
      - eapply adds_base; eauto.
      - eapply adds_okm; eauto.
      - eapply Nat.le_lt_trans; [|exact Hu]. apply unvisited_mono. eapply adds_incl; exact A.
      - rewrite E2. eauto. }
    destruct (Hfs (state_of o)) with (h := h ++ [with_fields o []]) (m := (a, length h) :: m) as [[[h2 m2] fs] E2]; auto.
    { intros k w Hi. split.
      - pose proof (state_valid h0 Hcl a o Ho) as Hf. rewrite Forall_forall in Hf. apply (Hf (k, w) Hi).
      - intros x o' Hr Hx. eapply Hc; [|exact Hx]. eapply reach_next; eauto. }
    rewrite E2. destruct (o_kind o); eauto. contradiction.
  Qed.
End Total.

Lemma Forall2_nth_in {A B} (R : A -> B -> Prop) l l' x : Forall2 R l l' -> In x l -> exists y, In y l' /\ R x y.
Proof. induction 1 as [|a b l l' Hr _ IH]; intros Hi; [destruct Hi|]. destruct Hi as [->|Hi]; [exists b; cbn; auto|]. destruct (IH Hi) as [y [Hy HR]]. exists y. cbn. auto. Qed.
Lemma vrel_map m f v w : (forall a b, In (a, b) m -> f a = b) -> vrel m v w -> w = vmap f v.
Proof. intros Hf. destruct v; cbn; auto. intros [b [-> Hb]]. rewrite (Hf _ _ Hb). reflexivity. Qed.

Lemma reach_valid see h v a : closed h -> (forall o k w, In (k, w) (see o) -> match w with VRef _ => In (k, w) (o_fields o) | _ => True end) ->
  valid h v -> reach see h v a -> a < length h.
Proof.
  intros Hc Hs Hv Hr. induction Hr as [a|a b o k w Ho Hi Hr IH]; [exact Hv|]. apply IH. destruct w as [| |c]; cbn; auto.
  specialize (Hs _ _ _ Hi). exact (Hc a o k c Ho Hs).
Qed.

Theorem C105_deepcopy : forall h v h' v', closed h -> valid h v -> deepcopy h v = Some (h', v') -> deep_copy_of h v h' v'.
Proof.
  intros h v h' v' Hc Hv E. unfold deepcopy in E. destruct (dc (S (S (length h))) h [] v) as [[[h1 m] w]|] eqn:Ed; [|discriminate].
  injection E as <- <-.
  destruct (dc_spec h Hc (S (S (length h))) h [] v h1 m w) with (4 := Ed) as [[news [En [Om [L [P [F N]]]]]] R].
  { split; [lia|reflexivity]. }
  { split; [constructor|]. intros ? ? []. }
  { exact Hv. }
  rewrite app_nil_r in En. subst news.
  set (f := fun a => match mget m a with Some b => b | None => 0 end).
  assert (Hf : forall a b, In (a, b) m -> f a = b).
  { intros a b Hi. unfold f. rewrite (mget_In m a b); auto. apply Om. }
  assert (Hdom : forall u a, (exists w', vrel m u w') -> reach state_of h u a -> exists b, In (a, b) m).
  { intros u a [w' Hu] Hr. revert w' Hu. induction Hr as [a|a b o k w1 Ho Hi Hr IH]; intros w' Hu.
    - destruct Hu as [b [_ Hb]]. eauto.
    - destruct Hu as [c [_ Hb]]. destruct (N _ _ Hb) as [_ [o' [fs [Ho' [_ [_ Hfr]]]]]]. rewrite Ho in Ho'. injection Ho' as <-.
      destruct (Forall2_nth_in _ _ _ (k, w1) Hfr Hi) as [[k2 w2] [_ [_ Hv2]]]. eapply IH. exact Hv2. }
  split; [lia|]. split; [exact F|]. exists f. split; [eapply vrel_map; eauto|]. split; [|split].
  - intros a b Ha Hb Hq. destruct (Hdom v a (ex_intro _ w R) Ha) as [a' Hia]. destruct (Hdom v b (ex_intro _ w R) Hb) as [b' Hib].
    rewrite (Hf _ _ Hia), (Hf _ _ Hib) in Hq. subst b'.
    assert (Hnd : NoDup (map snd m)) by (eapply Permutation_NoDup; [symmetry; exact P|apply seq_NoDup]).
    clear - Hnd Hia Hib. induction m as [|[x y] m IH]; [destruct Hia|]. cbn in Hnd. apply NoDup_cons_iff in Hnd. destruct Hnd as [Hy Hnd].
    destruct Hia as [Ha|Ha], Hib as [Hb|Hb].
    + congruence.
    + injection Ha as -> ->. exfalso. apply Hy. apply in_map_iff. exists (b, a'). auto.
    + injection Hb as -> ->. exfalso. apply Hy. apply in_map_iff. exists (a, a'). auto.
    + auto.
  - intros a Ha. destruct (Hdom v a (ex_intro _ w R) Ha) as [a' Hia]. rewrite (Hf _ _ Hia).
    assert (Hs : In a' (map snd m)) by (apply in_map_iff; exists (a, a'); auto). apply (Permutation_in _ P) in Hs. apply in_seq in Hs.
    split; [lia|]. destruct (N _ _ Hia) as [_ [o [fs [Ho [Hk [Hn Hfr]]]]]]. exists o. split; [exact Ho|]. split; [exact Hk|].
    rewrite Hn. do 2 f_equal. clear - Hfr Hf. induction Hfr as [|[k1 w1] [k2 w2] l l' [Hq1 Hq2] _ IH]; [reflexivity|]. cbn in *. subst k2.
    rewrite (vrel_map m f _ _ Hf Hq2), IH. reflexivity.
  - intros b Hb1 Hb2. assert (Hs : In b (map snd m)) by (apply (Permutation_in _ (Permutation_sym P)); apply in_seq; lia).
    apply in_map_iff in Hs. destruct Hs as [[a b'] [Hq Hi]]. cbn in Hq. subst b'. exists a. split; [apply (N _ _ Hi)|apply Hf; exact Hi].
Qed.

(** deepcopy raises exactly when something it would have to copy cannot be copied *)
Theorem C105_deepcopy_succeeds : forall h v, closed h -> valid h v ->
  ((exists h' v', deepcopy h v = Some (h', v')) <-> copyable h v).
Proof.
  intros h v Hc Hv. split.
  - intros [h' [v' E]] a o Ha Ho. apply C105_deepcopy in E; auto. destruct E as [_ [_ [f [_ [_ [Hf _]]]]]].
    destruct (Hf _ Ha) as [_ [o' [Ho' [Hk _]]]]. congruence.
  - intros Hk. destruct (dc_total h Hc (S (S (length h))) h [] v) as [[[h' m] v'] E].
    + split; [lia|reflexivity].
    + split; [constructor|]. intros ? ? [].
    + exact Hv.
    + exact Hk.
    + assert (unvisited h [] <= length h); [|lia]. unfold unvisited.
      rewrite <- (seq_length (length h) 0) at 2. generalize (seq 0 (length h)) as l. intros l.
      induction l as [|x l IHl]; cbn; [lia|]. cbn in IHl. lia.
    + unfold deepcopy. rewrite E. eauto.
Qed.
