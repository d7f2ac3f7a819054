(** * C105: concrete cases, and what does change *)
From Coq Require Import String List Arith Bool Lia.
From Verif Require Import ListAux M_Heap M_Minimize S_Heap Thm_Heap Thm_Heap2 Thm_Heap3 Thm_Minimize Thm_Minimize2 Thm_Minimize3.
Import ListNotations.
Local Open Scope nat_scope.
Local Open Scope string_scope.

(** 0: an algorithm with a cycle (its callback knows it) and shared parts; 1: its history; 2: its callback; 3: a termination; 4: a problem
    with a worker pool that is excluded from copying; 5: the pool; 6: a callback passed as an option; 7: its data *)
Definition ex_heap : heap :=
  [ plain [("problem", VNone); ("termination", VNone); ("output", VNone); ("display", VNone); ("history", VRef 1); ("callback", VRef 2); ("seed", VPrim 1); ("data", VRef 2)];
    plain [];
    plain [("algorithm", VRef 0); ("count", VPrim 0)];
    plain [("n_max_gen", VPrim 40)];
    {| o_kind := Plain; o_hide := [("pool", true)]; o_fields := [("pool", VRef 5); ("n_var", VPrim 2)] |};
    {| o_kind := Opaque; o_hide := []; o_fields := [] |};
    plain [("data", VRef 7)];
    plain [] ].

Lemma ex_closed : closed ex_heap.
Proof.
  intros a o k b Ho Hi.
  do 8 (destruct a as [|a]; [cbn in Ho; injection Ho as <-; cbn in Hi;
    repeat (destruct Hi as [Hi|Hi]; [first [discriminate Hi | injection Hi as _ <-; cbn; lia]|]); contradiction|]).
  cbn in Ho. destruct a; discriminate.
Qed.

(** a run that writes to the algorithm, to the callback object reached through it and to the problem *)
Example ex_run : exists h' self, minimize true true ex_heap (VRef 4) (VRef 0) (VRef 3) (VPrim 1) (VPrim 0) [("callback", VRef 6)] h' self /\
  getattr h' self "n_iter" = VPrim 1 /\ getattr h' self "callback" = VRef 6 /\ getattr h' (VRef 7) "recorded" = VPrim 9 /\
  nth_error h' 0 = nth_error ex_heap 0 /\ nth_error h' 3 = nth_error ex_heap 3.
Proof.
  eexists. eexists. split.
  - eapply minimize_setup.
    + vm_compute. reflexivity.
    + vm_compute. reflexivity.
    + vm_compute. reflexivity.
    + vm_compute. reflexivity.
    + eapply st_more; [eapply (s_write everything) with (a := 8) (k := "n_iter") (w := VPrim 1); [left; reflexivity|vm_compute; reflexivity|reflexivity|exact Logic.I]|].
      eapply st_more; [eapply (s_read everything) with (a := 6) (k := "data"); [right; right; left; reflexivity|vm_compute; reflexivity|left; reflexivity|reflexivity]|].
      eapply st_more; [eapply (s_write everything) with (a := 7) (k := "recorded") (w := VPrim 9); [left; reflexivity|vm_compute; reflexivity|reflexivity|exact Logic.I]|].
      apply st_none.
  - vm_compute. repeat split.
Qed.
(** the hypotheses of [C105_algorithm_and_termination_untouched] hold of it *)
Lemma reach_set see h v (P : addr -> Prop) : (match v with VRef a => P a | _ => True end) ->
  (forall a o k b, P a -> nth_error h a = Some o -> In (k, VRef b) (see o) -> P b) -> forall a, reach see h v a -> P a.
Proof.
  intros Hv Hs a Hr. induction Hr as [a|a b o k w H1 H2 H3 IH]; [exact Hv|]. apply IH. destruct w as [| |c]; auto. eapply Hs; eauto.
Qed.
Example ex_separate : forall a, (reach all_fields ex_heap (VRef 0) a -> ~ reachable_from ex_heap [VRef 4; VPrim 1; VPrim 0; VRef 6] a).
Proof.
  intros a Hr [v [Hv Hx]].
  assert (H1 : a < 3).
  { revert Hr. apply (reach_set all_fields ex_heap (VRef 0) (fun a => a < 3)); [lia|]. intros x o k b Hx' Ho Hi. do 3 (destruct x as [|x]; [cbn in Ho; injection Ho as <-; cbn in Hi;
    repeat (destruct Hi as [Hi|Hi]; [first [discriminate Hi | injection Hi as _ <-; lia]|]); contradiction|]). lia. }
  assert (H2 : 4 <= a).
  { revert Hx. apply (reach_set all_fields ex_heap v (fun a => 4 <= a)); [destruct Hv as [<-|[<-|[<-|[<-|[]]]]]; auto; lia|]. intros x o k b Hx' Ho Hi. do 4 (destruct x as [|x]; [lia|]).
    do 4 (destruct x as [|x]; [cbn in Ho; injection Ho as <-; cbn in Hi;
    repeat (destruct Hi as [Hi|Hi]; [first [discriminate Hi | injection Hi as _ <-; lia]|]); contradiction|]). cbn in Ho. destruct x; discriminate. }
  lia.
Qed.

(** Options are not copied: what a run does to a callback passed to minimize stays *)
Theorem C105_options_copied_refuted : exists h problem algorithm termination kw h' self c,
  closed h /\ In ("callback", VRef c) kw /\ minimize true true h problem algorithm termination (VPrim 0) (VPrim 0) kw h' self /\
  getattr h' self "callback" = VRef c /\ nth_error h' c <> nth_error h c.
Proof.
  exists ex_heap, (VRef 4), (VRef 0), (VRef 3), [("callback", VRef 6)]. eexists. eexists. exists 6. split; [exact ex_closed|]. split; [left; reflexivity|]. split.
  - eapply minimize_setup.
    + vm_compute. reflexivity.
    + vm_compute. reflexivity.
    + vm_compute. reflexivity.
    + vm_compute. reflexivity.
    + eapply st_more; [eapply (s_write everything) with (a := 6) (k := "is_initialized") (w := VPrim 1); [right; right; left; reflexivity|vm_compute; reflexivity|reflexivity|exact Logic.I]|].
      apply st_none.
  - vm_compute. split; [reflexivity|discriminate].
Qed.

(** Without copy_algorithm the object itself is used, and the next call with it ignores its problem and options *)
Theorem C105_no_copy : forall ct h a problem termination verbose progress kw h2 t h3, closed h -> a < length h -> valid h problem ->
  getattr h (VRef a) "problem" = VNone ->
  (if is_none termination then Some (h, VNone) else copy_if ct h termination) = Some (h2, t) -> valid h termination ->
  let kw' := (if is_none termination then kw else kw ++ [("termination", t)])%list in
  NoDup (map fst kw') -> ~ In "problem" (map fst kw') ->
  setup h2 (VRef a) problem verbose progress kw' = Some h3 ->
  minimize false ct h problem (VRef a) termination verbose progress kw h3 (VRef a) /\ getattr h3 (VRef a) "problem" = problem.
Proof.
  intros ct h a p t v pr kw h2 t2 h3 Hc Ha Hp Hn Et Hvt kw' Hnd Hnp E. split.
  - eapply minimize_setup; [reflexivity|exact Hn|exact Et|exact E|apply st_none].
  - assert (X : closed h2 /\ length h <= length h2).
    { destruct (is_none t); [injection Et as <- <-; auto|]. destruct ct; cbn [copy_if] in Et; [|injection Et as <- <-; auto].
      destruct (deepcopy_ok everything (fun _ => True) h t h2 t2 (closed_conf _ Hc) (fun _ _ => Logic.I) Hvt Et) as [[Cc _] [[Kl _] _]]. auto. }
    destruct X as [Hc2 Hl]. 
    assert (Hp2 : valid h2 p) by (destruct p; cbn in *; auto; lia). assert (Ha2 : a < length h2) by lia.
    exact (proj1 (C105_setup h2 a p v pr kw' h3 Hc2 Ha2 Hp2 Hnd Hnp E)).
Qed.

(** The history of a concrete run with two iterations between which the population attribute is replaced *)
Example ex_history : exists tr hn Ln, hist_run (VRef 0) (ex_heap, [VRef 0]) tr (hn, Ln) /\ length tr = 2 /\ length (entries hn 1) = 2.
Proof.
  eexists. eexists. eexists. split.
  - eapply hr_snap; [vm_compute; reflexivity|].
    eapply hr_code; [eapply (s_write not_history) with (a := 0) (k := "pop") (w := VPrim 5); [left; reflexivity|vm_compute; reflexivity|reflexivity|exact Logic.I]|].
    eapply hr_snap; [vm_compute; reflexivity|]. apply hr_none.
  - vm_compute. split; reflexivity.
Qed.
Example ex_history_hyps : getattr ex_heap (VRef 0) "history" = VRef 1 /\ (forall v, In v [VRef 0; VRef 0] -> ~ reach (visible not_history) ex_heap v 1).
Proof.
  split; [reflexivity|]. intros v Hv Hr. assert (Hx : 1 = 0 \/ 1 = 2); [|destruct Hx; discriminate]. revert Hr.
  apply (reach_set (visible not_history) ex_heap v (fun a => a = 0 \/ a = 2)).
  - destruct Hv as [<-|[<-|[]]]; auto.
  - intros a o k b [-> | ->] Ho Hi; cbn in Ho; injection Ho as <-; cbn in Hi;
      repeat (destruct Hi as [Hi|Hi]; [first [discriminate Hi | injection Hi as _ <-; auto]|]); contradiction.
Qed.
(** a loop-wise algorithm in the middle of an iteration holds a generator: the history cannot be saved *)
Example ex_generator : fst (save_history (setattr ex_heap (VRef 0) "generator" (VRef 5)) (VRef 0)) <> [] /\
  snd (save_history (setattr ex_heap (VRef 0) "generator" (VRef 5)) (VRef 0)) = false /\ snd (save_history ex_heap (VRef 0)) = true.
Proof. vm_compute. repeat split; discriminate. Qed.
