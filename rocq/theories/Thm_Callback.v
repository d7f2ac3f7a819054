(** * C106: when callbacks are called, what recorders record, what initialisation does to given individuals *)
From Coq Require Import List Arith Bool QArith Lia.
From Verif Require Import ListAux P_Perm M_Termination M_Default M_Callback Thm_Default2.
Import ListNotations.
Local Open Scope nat_scope.

(** ** Callbacks *)
(** A callback object is initialised once, before its first notification - not once per run -, and notified and updated once per call *)
Theorem C106_callback_calls : forall id n, snd (cb_calls n (Cb id false)) = match n with O => [] | _ => EInit id :: concat (repeat [ENotify id; EUpdate id] n) end /\
  snd (cb_calls n (Cb id true)) = concat (repeat [ENotify id; EUpdate id] n) /\
  fst (cb_calls n (Cb id false)) = Cb id (negb (n =? 0)).
Proof.
  intros id. assert (Ht : forall n, cb_calls n (Cb id true) = (Cb id true, concat (repeat [ENotify id; EUpdate id] n))).
  { induction n as [|n IH]; [reflexivity|]. cbn [cb_calls cb_call cb_update]. rewrite IH. reflexivity. }
  intros n. rewrite Ht. split; [|split; [reflexivity|]]; destruct n as [|n]; try reflexivity; cbn [cb_calls cb_call cb_update]; rewrite Ht; reflexivity.
Qed.

(** The callbacks in a collection, at any depth, are only ever updated: once per call, in order; they are neither initialised nor notified *)
Fixpoint leaves (c : cb) : list nat := match c with Cb id _ => [id] | Coll _ l => flat_map leaves l end.
Section CbInd.
  Variable P : cb -> Prop.
  Hypothesis H1 : forall id b, P (Cb id b).
  Hypothesis H2 : forall b l, Forall P l -> P (Coll b l).
  Fixpoint cb_ind2 (c : cb) : P c :=
    match c with
    | Cb id b => H1 id b
    | Coll b l => H2 b l ((fix go l := match l return Forall P l with [] => Forall_nil P | c :: l => Forall_cons c (cb_ind2 c) (go l) end) l)
    end.
End CbInd.
Lemma cb_update_leaves c : cb_update c = map EUpdate (leaves c).
Proof.
  induction c as [id b|b l IH] using cb_ind2; [reflexivity|]. cbn [cb_update leaves]. induction IH as [|c l Hc _ IHl]; [reflexivity|].
  cbn [flat_map]. rewrite map_app, Hc, IHl. reflexivity.
Qed.
Theorem C106_collection_only_updates : forall n b l,
  snd (cb_calls n (Coll b l)) = concat (repeat (map EUpdate (flat_map leaves l)) n) /\
  (forall id, ~ In (EInit id) (snd (cb_calls n (Coll b l))) /\ ~ In (ENotify id) (snd (cb_calls n (Coll b l)))) /\
  (n <> 0 -> fst (cb_calls n (Coll b l)) = Coll true l).
Proof.
  intros n b l.
  assert (E : forall n b, snd (cb_calls n (Coll b l)) = concat (repeat (map EUpdate (flat_map leaves l)) n)).
  { clear. induction n as [|n IH]; intros b; [reflexivity|]. cbn [cb_calls cb_call]. specialize (IH true). destruct (cb_calls n (Coll true l)) as [c e].
    cbn [snd] in *. rewrite IH. rewrite (cb_update_leaves (Coll b l)). reflexivity. }
  split; [apply E|]. split.
  - intros id. rewrite E. split; intros Hi; apply in_concat in Hi; destruct Hi as [x [Hx Hi]]; apply repeat_spec in Hx; subst x;
      apply in_map_iff in Hi; destruct Hi as [y [Hq _]]; discriminate.
  - destruct n as [|n]; [congruence|]. intros _. cbn [cb_calls cb_call].
    assert (Ht : forall n, fst (cb_calls n (Coll true l)) = Coll true l).
    { clear. induction n as [|n IH]; [reflexivity|]. cbn [cb_calls cb_call]. destruct (cb_calls n (Coll true l)) as [c e]. exact IH. }
    specialize (Ht n). destruct (cb_calls n (Coll true l)) as [c e]. exact Ht.
Qed.
Example ex_collection : snd (cb_calls 2 (Coll false [Cb 1 false; Coll false [Cb 2 false]])) = [EUpdate 1; EUpdate 2; EUpdate 1; EUpdate 2].
Proof. reflexivity. Qed.

(** ** Recorders *)
(** Without nth_evals every call is recorded.  With nth_evals = k > 0, a call is recorded exactly if its number of evaluations lies in a
    later block of k evaluations than those of all the calls before it - whatever the counter does in between. *)
Theorem C106_recorder : forall k ns bs, recorder k ns = Some bs -> length bs = length ns /\
  forall i, i < length ns -> (nth i bs false = true <->
    match k with None => True | Some k => forall j, j < i -> nth j ns 0 / k < nth i ns 0 / k end).
Proof.
  intros [k|] ns bs E.
  - destruct ns as [|n0 ns]; [injection E as <-; split; [reflexivity|cbn; lia]|].
    destruct k as [|k']; [discriminate|]. set (k := S k') in *. assert (Hk : k <> 0) by discriminate.
    (* [m]: the largest block so far *)
    assert (G : forall ns m bs r, rec_run (Some k) (S m * k) ns = Some (bs, r) -> length bs = length ns /\
              forall i, i < length ns -> (nth i bs false = true <-> (m < nth i ns 0 / k /\ forall j, j < i -> nth j ns 0 / k < nth i ns 0 / k))).
    { clear - Hk. induction ns as [|n ns IH]; intros m bs r E; cbn [rec_run] in E; [injection E as <- <-; split; [reflexivity|cbn; lia]|].
      unfold rec_notify in E.
      assert (Hcmp : (S m * k <=? n) = (m <? n / k)).
      { destruct (Nat.leb_spec (S m * k) n) as [H|H], (Nat.ltb_spec m (n / k)) as [H'|H']; auto; exfalso.
        - assert (S m <= n / k) by (apply Nat.div_le_lower_bound; [exact Hk|rewrite Nat.mul_comm; exact H]). lia.
        - assert (n / k < S m) by (apply Nat.div_lt_upper_bound; [exact Hk|rewrite Nat.mul_comm; exact H]). lia. }
      rewrite Hcmp in E. destruct (Nat.ltb_spec m (n / k)) as [Hlt|Hge].
      - assert (E' : match rec_run (Some k) (S (n / k) * k) ns with Some (bs0, r0) => Some (true :: bs0, r0) | None => None end = Some (bs, r)).
        { destruct k; [congruence|exact E]. }
        clear E. destruct (rec_run (Some k) (S (n / k) * k) ns) as [[bs0 r0]|] eqn:E0; [|discriminate]. injection E' as <- <-.
        destruct (IH _ _ _ E0) as [Hl Hi]. split; [cbn; lia|]. intros [|i] Hlen; cbn [nth].
        + split; [intros _|reflexivity]. split; [exact Hlt|lia].
        + cbn in Hlen. rewrite Hi by lia. split.
          * intros [H1 H2]. split; [lia|]. intros [|j] Hj; [exact H1|]. apply H2. lia.
          * intros [H1 H2]. split; [apply (H2 0); lia|]. intros j Hj. apply (H2 (S j)). lia.
      - destruct (rec_run (Some k) (S m * k) ns) as [[bs0 r0]|] eqn:E0; [|discriminate]. injection E as <- <-.
        destruct (IH _ _ _ E0) as [Hl Hi]. split; [cbn; lia|]. intros [|i] Hlen; cbn [nth].
        + split; [discriminate|]. lia.
        + cbn in Hlen. rewrite Hi by lia. split.
          * intros [H1 H2]. split; [exact H1|]. intros [|j] Hj; [cbn [nth]; lia|]. apply H2. lia.
          * intros [H1 H2]. split; [exact H1|]. intros j Hj. apply (H2 (S j)). lia. }
    assert (X : rec_run (Some k) 0 (n0 :: ns) = match rec_run (Some k) (S (n0 / k) * k) ns with None => None | Some (bs, r) => Some (true :: bs, r) end) by reflexivity.
    unfold recorder in E. rewrite X in E. clear X.
    destruct (rec_run (Some k) (S (n0 / k) * k) ns) as [[bs0 r0]|] eqn:E0; [|discriminate]. injection E as <-.
    destruct (G _ _ _ _ E0) as [Hl Hi]. split; [cbn; lia|]. intros [|i] Hlen; cbn [nth].
    + split; [intros _; lia|reflexivity].
    + cbn in Hlen. rewrite Hi by lia. split.
      * intros [H1 H2]. intros [|j] Hj; [exact H1|]. apply H2. lia.
      * intros H. split; [apply (H 0); lia|]. intros j Hj. apply (H (S j)). lia.
  - assert (G : forall ns r, rec_run None r ns = Some (map (fun _ => true) ns, r)).
    { clear. induction ns as [|n ns IH]; intros r; [reflexivity|]. cbn [rec_run rec_notify]. rewrite IH. reflexivity. }
    unfold recorder in E. rewrite G in E. injection E as <-. split; [apply map_length|]. intros i Hi. split; auto. intros _.
    rewrite (nth_indep _ false ((fun _ : nat => true) 0)) by (rewrite map_length; exact Hi). rewrite (map_nth (fun _ : nat => true) ns 0 i). reflexivity.
Qed.
(** It raises only for nth_evals = 0 *)
Theorem C106_recorder_total : forall k ns, k <> Some 0 -> recorder k ns <> None.
Proof.
  intros k ns Hk. unfold recorder. assert (G : forall ns r, rec_run k r ns <> None); [|specialize (G ns 0); destruct (rec_run k 0 ns); [discriminate|congruence]].
  clear - Hk. induction ns as [|n ns IH]; intros r; cbn [rec_run]; [discriminate|].
  assert (Hn : exists b r', rec_notify k r n = Some (b, r')).
  { unfold rec_notify. destruct k as [[|k]|]; [congruence| |eauto]. destruct (r <=? n); eauto. }
  destruct Hn as [b [r' ->]]. specialize (IH r'). destruct (rec_run k r' ns) as [[bs r2]|]; [discriminate|congruence].
Qed.
(** A recorder used for a second run starts where the first one stopped: the second run is recorded only once it gets past every block
    of evaluations that the first run reached *)
Corollary C106_recorder_reused : forall k ns1 ns2 bs, recorder (Some k) (ns1 ++ ns2) = Some bs ->
  (exists n, In n ns1 /\ forall m, In m ns2 -> m / k <= n / k) -> forall i, i < length ns2 -> nth (length ns1 + i) bs false = false.
Proof.
  intros k ns1 ns2 bs E [n [Hn Hm]] i Hi. destruct (C106_recorder _ _ _ E) as [_ H].
  destruct (nth (length ns1 + i) bs false) eqn:Eb; [|reflexivity]. exfalso.
  apply In_nth with (d := 0) in Hn. destruct Hn as [j [Hj Hq]].
  rewrite H in Eb by (rewrite app_length; lia). specialize (Eb j ltac:(lia)). rewrite app_nth1 in Eb by exact Hj. rewrite app_nth2_plus in Eb.
  specialize (Hm (nth i ns2 0) (nth_In _ _ Hi)). rewrite Hq in Eb. lia.
Qed.
Example ex_recorder : recorder (Some 100) [50; 80; 120; 190; 350; 351] = Some [true; false; true; false; true; false].
Proof. reflexivity. Qed.

(** What the single-objective recorder saves: the least violation, the least feasible objective and its distance to the known optimum *)
Theorem C106_single_objective_entry : forall n opt pf e, so_save n opt pf = Some e ->
  e_evals e = n /\
  (exists i, In i opt /\ snd (fst i) = e_cv e) /\ (forall i, In i opt -> (e_cv e <= snd (fst i))%Q) /\
  match e_f e with
  | Some f => (exists i, In i opt /\ fst (fst i) = true /\ snd i = f) /\ forall i, In i opt -> fst (fst i) = true -> (f <= snd i)%Q
  | None => forall i, In i opt -> fst (fst i) = false
  end /\
  match e_gap e, e_f e, pf with
  | Some g, Some f, Some p => exists o, In o p /\ (forall x, In x p -> (o <= x)%Q) /\ g = (f - o)%Q
  | Some _, _, _ => False
  | None, None, _ => True
  | None, Some _, p => p = None \/ p = Some []
  end.
Proof.
  intros n opt pf e E. unfold so_save in E. destruct opt as [|[[b0 c0] f0] rest]; [discriminate|]. set (opt := (b0, c0, f0) :: rest) in *.
  match type of E with Some ?x = Some _ => assert (Ee : x = e) by congruence end. rewrite <- Ee. clear E Ee. cbn [e_evals e_cv e_f e_gap]. destruct (py_min_In c0 (map (fun i => snd (fst i)) rest)) as [Hc1 Hc2].
  assert (Hcs : c0 :: map (fun i => snd (fst i)) rest = map (fun i => snd (fst i)) opt) by reflexivity. rewrite Hcs in Hc1, Hc2.
  split; [reflexivity|]. split; [apply in_map_iff in Hc1; destruct Hc1 as [i [Hq Hi]]; eauto|]. split; [intros i Hi; apply Hc2; apply in_map_iff; eauto|].
  destruct (map snd (filter (fun i => fst (fst i)) opt)) as [|f1 fs] eqn:Ef.
  - split.
    + intros i Hi. destruct (fst (fst i)) eqn:Eb; [|reflexivity]. exfalso.
      assert (Hx : In (snd i) (map snd (filter (fun i => fst (fst i)) opt))) by (apply in_map; apply filter_In; auto). rewrite Ef in Hx. destruct Hx.
    + destruct pf as [[|p0 ps]|]; exact Logic.I.
  - destruct (py_min_In f1 fs) as [Hf1 Hf2]. rewrite <- Ef in Hf1, Hf2. split; [split|].
    + apply in_map_iff in Hf1. destruct Hf1 as [i [Hq Hi]]. apply filter_In in Hi. exists i. tauto.
    + intros i Hi Hb. apply Hf2. apply in_map_iff. exists i. split; [reflexivity|]. apply filter_In. auto.
    + destruct pf as [[|p0 ps]|]; auto. destruct (py_min_In p0 ps) as [Hp1 Hp2]. exists (py_min p0 ps). auto.
Qed.

(** ** Initialisation *)
Section InitThm.
  Context {Xv : Type} (dflt : ind Xv).
  Notation nthi := (fun s r => nth r s dflt).

  Lemma repair_fold refs : forall xp s, NoDup refs -> length xp = length refs -> Forall (fun r => r < length s) refs ->
    let s' := fold_left (fun s rx => upd s (fst rx) {| i_x := snd rx; i_eval := i_eval (nth (fst rx) s dflt) |}) (combine refs xp) s in
    length s' = length s /\ (forall r, ~ In r refs -> nth r s' dflt = nth r s dflt) /\
    forall i d, i < length refs -> nth (nth i refs 0) s' dflt = {| i_x := nth i xp d; i_eval := i_eval (nth (nth i refs 0) s dflt) |}.
  Proof.
    induction refs as [|r refs IH]; intros [|x xp] s Hnd Hl Hf; cbn [length] in Hl; try lia; cbv zeta; cbn [combine fold_left fst snd].
    - split; [reflexivity|]. split; [auto|]. cbn. lia.
    - apply NoDup_cons_iff in Hnd. destruct Hnd as [Hr Hnd]. pose proof (Forall_inv Hf) as Hr0. apply Forall_inv_tail in Hf.
      set (s1 := upd s r {| i_x := x; i_eval := i_eval (nth r s dflt) |}).
      assert (L1 : length s1 = length s) by apply length_upd.
      destruct (IH xp s1 Hnd) as [A [B C]]; [lia|rewrite L1; exact Hf|]. cbv zeta in A, B, C. split; [lia|]. split.
      + intros q Hq. cbn in Hq. rewrite B by tauto. unfold s1. rewrite nth_upd_neq by (intros ->; tauto). reflexivity.
      + intros [|i] d Hi; cbn [nth].
        * rewrite B by exact Hr. unfold s1. rewrite nth_upd_eq by exact Hr0. reflexivity.
        * cbn in Hi. rewrite C with (d := d) by lia. f_equal. f_equal. unfold s1. apply nth_upd_neq.
          intros Hq. apply Hr. rewrite <- Hq. apply nth_In. lia.
  Qed.

  (** The population after [do]: the individuals that came in, without the ones the duplicate elimination masks, in order.  Individuals
      that are already evaluated are not touched; each of the others has the X the repair computed for it from all of them - in the very
      objects of a population passed by the user.  No other individual changes. *)
  Theorem C106_initialization : forall repair dup sm n_samples s s' res,
    (forall l, length (dup l) = length l) ->
    init_do Xv dflt repair dup sm n_samples s = Some (s', res) ->
    let s0 := fst (initial_pop Xv sm n_samples s) in
    let pop := snd (initial_pop Xv sm n_samples s) in
    NoDup pop -> Forall (fun r => r < length s0) pop ->
    let todo := filter (fun r => negb (i_eval (nth r s0 dflt))) pop in
    let xp := repair (map (fun r => i_x (nth r s0 dflt)) todo) in
    let mask := dup (map (fun r => i_x (nth r s' dflt)) pop) in
    (forall r, ~ In r todo -> nth r s' dflt = nth r s0 dflt) /\
    (forall i d, i < length todo -> nth (nth i todo 0) s' dflt = {| i_x := nth i xp d; i_eval := false |}) /\
    (todo <> [] -> length xp = length todo) /\
    (forall r, In r res <-> exists i, i < length pop /\ nth i pop 0 = r /\ nth i mask false = false) /\
    (forall i j, i < length res -> j < i -> exists a b, b < a < length pop /\ nth a pop 0 = nth i res 0 /\ nth b pop 0 = nth j res 0).
  Proof.
    intros repair dup sm n s s' res Hdup E s0 pop Hnd Hf todo xp mask.
    unfold init_do in E. rewrite (surjective_pairing (initial_pop Xv sm n s)) in E. fold s0 pop in E. fold todo in E.
    destruct (repair_do Xv dflt repair s0 todo) as [s1|] eqn:Er; [|discriminate]. injection E as <- <-. fold mask.
    assert (Htn : NoDup todo) by (apply NoDup_filter; exact Hnd).
    assert (Htf : Forall (fun r => r < length s0) todo).
    { apply Forall_forall. intros r Hr. apply filter_In in Hr. rewrite Forall_forall in Hf. apply Hf. apply Hr. }
    assert (R : (forall r, ~ In r todo -> nth r s1 dflt = nth r s0 dflt) /\
                (forall i d, i < length todo -> nth (nth i todo 0) s1 dflt = {| i_x := nth i xp d; i_eval := false |}) /\
                (todo <> [] -> length xp = length todo)).
    { unfold repair_do in Er. fold xp in Er. destruct todo as [|t0 ts] eqn:Et.
      - injection Er as <-. split; [auto|]. split; [cbn; lia|congruence].
      - rewrite <- Et in *. destruct (Nat.eqb_spec (length xp) (length todo)) as [Hl|]; [|discriminate]. injection Er as <-.
        destruct (repair_fold todo xp s0 Htn Hl Htf) as [_ [B C]]. split; [exact B|]. split; [|auto].
        intros i d Hi. rewrite C with (d := d) by exact Hi. f_equal.
        assert (Hin : In (nth i todo 0) todo) by (apply nth_In; exact Hi). rewrite Et in Hin. rewrite <- Et in Hin. unfold todo in Hin.
        apply filter_In in Hin. apply negb_true_iff. apply Hin. }
    destruct R as [R1 [R2 R3]]. split; [exact R1|]. split; [exact R2|]. split; [exact R3|].
    assert (Hml : length mask = length pop) by (unfold mask; rewrite Hdup, map_length; reflexivity).
    clearbody mask. clear - Hml. revert mask Hml. induction pop as [|p pop IH]; intros [|m mask] Hml; cbn [length] in Hml; try lia.
    - cbn. split; [|lia]. intros r. split; [intros []|intros [i [Hi _]]; lia].
    - destruct (IH mask ltac:(lia)) as [A B]. cbn [combine filter snd]. destruct m; cbn [negb].
      + split.
        * intros r. rewrite A. split.
          -- intros [i [Hi [H1 H2]]]. exists (S i). cbn. split; [lia|auto].
          -- intros [[|i] [Hi [H1 H2]]]; [discriminate|]. exists i. cbn in *. split; [lia|auto].
        * intros i j Hi Hj. destruct (B i j Hi Hj) as [a [b [Hab [H1 H2]]]]. exists (S a), (S b). cbn. split; [lia|auto].
      + cbn [map fst]. split.
        * intros r. cbn [In]. rewrite A. split.
          -- intros [->|[i [Hi [H1 H2]]]]; [exists 0; cbn; split; [lia|auto]|]. exists (S i). cbn. split; [lia|auto].
          -- intros [[|i] [Hi [H1 H2]]]; [left; exact H1|]. right. exists i. cbn in *. split; [lia|auto].
        * intros i j Hi Hj. cbn [length] in Hi. destruct i as [|i]; [lia|]. destruct j as [|j].
          -- assert (Hin : In (nth i (map fst (filter (fun rb => negb (snd rb)) (combine pop mask))) 0) (map fst (filter (fun rb => negb (snd rb)) (combine pop mask)))) by (apply nth_In; lia).
             apply A in Hin. destruct Hin as [a [Ha [H1 _]]]. exists (S a), 0. cbn. split; [lia|]. split; [exact H1|reflexivity].
          -- destruct (B i j ltac:(lia) ltac:(lia)) as [a [b [Hab [H1 H2]]]]. exists (S a), (S b). cbn. split; [lia|auto].
  Qed.
End InitThm.
(** Where the initial individuals come from: a given population is used as it is, nothing is created; for given points or a sampling operator one new,
    unevaluated individual per point, in order - for given points all of them, whatever the number asked for; existing individuals stay. *)
Theorem C106_initial_population (Xv : Type) (d : ind Xv) (n_samples : nat) (s : store Xv) :
  (forall refs, initial_pop Xv (GivenPop Xv refs) n_samples s = (s, refs)) /\
  (forall xs sm, sm = GivenX Xv xs \/ (exists draw, sm = Sampler Xv draw /\ draw n_samples = xs) ->
     let s' := fst (initial_pop Xv sm n_samples s) in let pop := snd (initial_pop Xv sm n_samples s) in
     length pop = length xs /\ length s' = length s + length xs /\ NoDup pop /\
     (forall r, r < length s -> nth r s' d = nth r s d) /\
     (forall i x, i < length xs -> length s <= nth i pop 0 < length s' /\ nth (nth i pop 0) s' d = {| i_x := nth i xs x; i_eval := false |})).
Proof.
  split; [reflexivity|]. intros xs sm H.
  assert (E : initial_pop Xv sm n_samples s = new_inds Xv s xs) by (destruct H as [-> | (draw & -> & <-)]; reflexivity).
  rewrite E. unfold new_inds. cbn [fst snd]. rewrite seq_length, app_length, map_length.
  split; [auto|]. split; [auto|]. split; [apply seq_NoDup|]. split; [intros r Hr; now apply app_nth1|].
  intros i x Hi. rewrite seq_nth by auto. split; [lia|]. rewrite app_nth2 by lia.
  replace (length s + i - length s) with i by lia.
  rewrite (nth_indep _ d {| i_x := x; i_eval := false |}) by (rewrite map_length; lia).
  now rewrite (map_nth (fun x => {| i_x := x; i_eval := false |}) xs x).
Qed.
Example ex_init : init_do nat {| i_x := 0; i_eval := false |} (map S) (fun l => map (fun _ => false) l) (GivenPop nat [2; 0; 1]) 99
    [{| i_x := 10; i_eval := false |}; {| i_x := 20; i_eval := true |}; {| i_x := 30; i_eval := false |}]
  = Some ([{| i_x := 11; i_eval := false |}; {| i_x := 20; i_eval := true |}; {| i_x := 31; i_eval := false |}], [2; 0; 1]).
Proof. reflexivity. Qed.
