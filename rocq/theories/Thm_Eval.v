(** * Theorems C18 (evaluation bookkeeping) and C43 (population container) *)
From Coq Require Import String List Arith Bool Lia Permutation.
From Verif Require Import ListAux M_Population P_Population.
Import ListNotations.
Local Open Scope nat_scope.

(** contract of [problem.evaluate(.., return_as_dictionary=True)] (C52): different keys, one value per row, at least the requested keys *)
Definition problem_ok {V} (prob : problem_t V) : Prop :=
  forall X keys, NoDup (map fst (prob X keys)) /\ Forall (fun kv => length (snd kv) = length X) (prob X keys) /\
    forall k, In k keys -> In k (map fst (prob X keys)).

(** C18: one call of [eval] on a population of different individuals.  [J] = positions of the individuals handed to the problem. *)
Theorem C18_eval : forall (V : Type) (prob : problem_t V) skip keys count st pop,
  problem_ok prob -> NoDup pop -> keys <> [] ->
  let st' := eval prob skip keys count st pop in
  exists J, NoDup J /\
    (* exactly the individuals lacking one of the requested values (all of them if skipping is off) *)
    (forall i, In i J <-> i < length pop /\ (skip = true -> exists k, In k keys /\ ~ In k (evald (obj (hp st) (nth i pop 0))))) /\
    let X := map (fun i => vals (obj (hp st) (nth i pop 0)) "X"%string) J in
    let out := prob X keys in
    (* one problem call, with their variables, if there is anything to do *)
    calls st' = calls st ++ (match J with [] => [] | _ => [(X, keys)] end) /\
    n_eval st' = n_eval st + (if count then length J else 0) /\
    (* all others untouched *)
    (forall r, (forall i, In i J -> r <> nth i pop 0) -> obj (hp st') r = obj (hp st) r) /\
    (* row j of the returned values is stored in the j-th of them, nothing else changes, and they are marked *)
    (forall j, j < length J ->
       let r := nth (nth j J 0) pop 0 in
       (forall k vs, In (k, vs) out -> vals (obj (hp st') r) k = nth_error vs j) /\
       (forall k, ~ In k (map fst out) -> vals (obj (hp st') r) k = vals (obj (hp st) r) k) /\
       (forall k, In k (evald (obj (hp st') r)) <-> In k (map fst out) \/ In k (evald (obj (hp st) r)))).
Proof.
  intros V prob skip keys count st pop HP Hnd Hk. cbv zeta. unfold eval.
  set (J := if skip then _ else _). exists J.
  assert (HJn : NoDup J) by (unfold J; destruct skip; [apply NoDup_where|apply seq_NoDup]).
  assert (HJ : forall i, In i J <-> i < length pop /\ (skip = true -> exists k, In k keys /\ ~ In k (evald (obj (hp st) (nth i pop 0))))).
  { intros i. unfold J. destruct skip.
    - rewrite In_where, lacking_iff. intuition.
    - rewrite in_seq. split; [intros; split; [lia|discriminate]|intros [H _]; lia]. }
  split; auto. split; auto.
  assert (HX : pop_get (hp st) (gather 0 pop J) "X"%string = map (fun i => vals (obj (hp st) (nth i pop 0)) "X"%string) J).
  { unfold pop_get, gather. now rewrite map_map. }
  set (X := map (fun i => vals (obj (hp st) (nth i pop 0)) "X"%string) J) in *.
  destruct (HP X keys) as (P1 & P2 & P3).
  assert (HLX : length X = length J) by apply map_length.
  assert (HG : NoDup (gather 0 pop J)).
  { unfold gather. apply NoDup_map_inj; auto. intros x y Hx Hy E. apply HJ in Hx, Hy. eapply (proj1 (NoDup_nth pop 0)); eauto; tauto. }
  destruct (Nat.ltb_spec 0 (length J)) as [HL|HL]; cbn [hp n_eval calls].
  2: { assert (J = []) as -> by (destruct J; [auto|simpl in HL; lia]). rewrite app_nil_r. cbn [length].
       split; auto. split; [destruct count; lia|]. split; auto. intros; simpl in *; lia. }
  unfold eval_sub. cbn [hp n_eval calls]. rewrite HX.
  assert (HP2 : Forall (fun kv : string * list V => length (snd kv) = length (gather 0 pop J)) (prob X keys)).
  { rewrite length_gather. now rewrite <- HLX. }
  rewrite fold_pop_set; auto; [|rewrite length_gather; lia].
  destruct (set_keys_effect (gather 0 pop J) HG (prob X keys) (hp st) HP2) as (E1 & E2 & E3 & E4 & E5 & E6). cbv zeta in *.
  set (h := fst (set_keys (hp st) (gather 0 pop J) (prob X keys))) in *.
  destruct (mark_effect (map fst (prob X keys)) (gather 0 pop J) h) as (M1 & M2 & M3 & M4). cbv zeta in *.
  split; [destruct J; [simpl in HL; lia|reflexivity]|]. split; [destruct count; lia|]. split.
  - intros r Hr. assert (Hni : ~ In r (gather 0 pop J)).
    { intros Hin. apply in_map_iff in Hin as (i & E & Hi). eapply Hr; eauto. }
    rewrite M3 by auto. now apply E3.
  - intros j Hj. assert (Er : nth j (gather 0 pop J) 0 = nth (nth j J 0) pop 0) by now rewrite nth_gather.
    assert (Hin : In (nth (nth j J 0) pop 0) (gather 0 pop J)) by (rewrite <- Er; apply nth_In; now rewrite length_gather).
    split; [|split].
    + intros k vs Hkv. rewrite M2, <- Er. apply E6; auto. now rewrite length_gather.
    + intros k Hkn. rewrite M2. now apply E5.
    + intros k. rewrite M4 by auto. now rewrite E4.
Qed.
Print Assumptions C18_eval.

(** C18: for a problem that works row by row, every individual handed over gets the problem's values for its own variables *)
Theorem C18_values : forall (V : Type) (prob : problem_t V) (f : string -> option V -> V) skip keys count st pop,
  problem_ok prob -> NoDup pop -> keys <> [] -> (forall X ks, prob X ks = map (fun k => (k, map (f k) X)) ks) ->
  forall i k, i < length pop -> In k keys -> NoDup keys ->
  (skip = true -> exists k, In k keys /\ ~ In k (evald (obj (hp st) (nth i pop 0)))) ->
  vals (obj (hp (eval prob skip keys count st pop)) (nth i pop 0)) k = Some (f k (vals (obj (hp st) (nth i pop 0)) "X"%string)).
Proof.
  intros V prob f skip keys count st pop HP Hnd Hk Hf i k Hi Hin Hkn Hlack.
  destruct (C18_eval V prob skip keys count st pop HP Hnd Hk) as (J & J1 & J2 & _ & _ & _ & J3).
  assert (HiJ : In i J) by (apply J2; auto). apply (In_nth _ _ 0) in HiJ as (j & Hj & Ej).
  destruct (J3 j Hj) as (V1 & _ & _). rewrite Ej in V1. rewrite Hf in V1.
  rewrite (V1 k (map (f k) (map (fun i => vals (obj (hp st) (nth i pop 0)) "X"%string) J))).
  - rewrite !map_map. set (g := fun x => f k (vals (obj (hp st) (nth x pop 0)) "X"%string)).
    change (Some (f k (vals (obj (hp st) (nth i pop 0)) "X"%string))) with (Some (g i)).
    erewrite map_nth_error; [reflexivity|]. rewrite <- Ej. now apply nth_error_nth'.
  - apply in_map_iff. exists k. auto.
Qed.
Print Assumptions C18_values.

(** C18: evaluating a second time is a no-op (no call, no count, no change) *)
Theorem C18_idempotent : forall (V : Type) (prob : problem_t V) keys c1 c2 st pop,
  problem_ok prob -> NoDup pop -> keys <> [] ->
  let st1 := eval prob true keys c1 st pop in
  eval prob true keys c2 st1 pop = st1.
Proof.
  intros V prob keys c1 c2 st pop HP Hnd Hk. cbv zeta.
  destruct (C18_eval V prob true keys c1 st pop HP Hnd Hk) as (J & J1 & J2 & _ & _ & J4 & J3).
  set (st1 := eval prob true keys c1 st pop) in *. unfold eval at 1.
  assert (E : where_ (fun i => lacking (hp st1) keys (nth i pop 0)) (length pop) = []).
  { destruct (where_ _ _) as [|i l] eqn:E; auto. exfalso.
    assert (Hi : In i (where_ (fun i => lacking (hp st1) keys (nth i pop 0)) (length pop))) by (rewrite E; simpl; auto).
    apply In_where in Hi as [Hi Hl]. apply lacking_iff in Hl as (k & Hk1 & Hk2).
    destruct (in_dec Nat.eq_dec i J) as [Hin|Hin].
    - apply (In_nth _ _ 0) in Hin as (j & Hj & Ej). destruct (J3 j Hj) as (_ & _ & V3). rewrite Ej in V3.
      apply Hk2, V3. left. now apply HP.
    - rewrite J4 in Hk2.
      + apply Hin, J2. split; auto. intros _. eauto.
      + intros i' Hi' E'. assert (i = i'); [|subst; auto]. apply J2 in Hi' as [Hi' _]. eapply (proj1 (NoDup_nth pop 0)); eauto. }
  rewrite E. cbn [length Nat.ltb Nat.leb]. rewrite Nat.add_0_r. destruct st1; now destruct c2.
Qed.
Print Assumptions C18_idempotent.

(** C18: over any sequence of counted evaluations (any populations, settings, problems) the counter grows by exactly the number of rows
    the problem was called with *)
Definition rows {V} (cs : list (list (option V) * list string)) : nat := list_sum (map (fun c => length (fst c)) cs).
Theorem C18_counter_history : forall (V : Type) (hist : list (problem_t V * bool * list string * list nat)) st,
  let st' := fold_left (fun st e => let '(prob, skip, keys, pop) := e in eval prob skip keys true st pop) hist st in
  exists new, calls st' = calls st ++ new /\ n_eval st' = n_eval st + rows new.
Proof.
  intros V hist. induction hist as [|[[[prob skip] keys] pop] hist IH]; intros st; cbn [fold_left].
  - exists []. rewrite app_nil_r. unfold rows. simpl. auto.
  - destruct (IH (eval prob skip keys true st pop)) as (new & E1 & E2). cbv zeta in *. rewrite E1, E2.
    unfold eval. set (J := if skip then _ else _). destruct (Nat.ltb_spec 0 (length J)) as [H|H]; cbn [calls n_eval hp eval_sub].
    + eexists (_ :: new). rewrite <- app_assoc. split; [reflexivity|]. unfold rows. cbn [map list_sum fold_right fst].
      unfold pop_get. rewrite map_length, length_gather. unfold list_sum. lia.
    + exists new. split; auto. lia.
Qed.
Print Assumptions C18_counter_history.

(** ** C43 *)
(** merging concatenates; None and the empty population are neutral; merging is associative *)
Theorem C43_merge : 
  (forall a b, merge2 (Some a) (Some b) = Some (a ++ b)) /\
  (forall a, merge2 (Some a) None = Some a /\ merge2 None (Some a) = Some a /\ merge2 (Some a) (Some []) = Some a /\ merge2 (Some []) (Some a) = Some a) /\
  merge2 None None = None /\
  (forall a b others, pop_merge (Some a) (Some b) (map Some others) = Some (a ++ b ++ concat others)).
Proof.
  assert (H : forall a b, merge2 (Some a) (Some b) = Some (a ++ b)).
  { intros [|x a] [|y b]; simpl; rewrite ?app_nil_r; auto. }
  split; auto. split; [intros [|x a]; simpl; auto|]. split; auto.
  intros a b others. unfold pop_merge. rewrite H.
  assert (G : forall others m, merge_all (Some m) (map Some others) = Some (m ++ concat others)).
  { induction others0 as [|o os IH]; intros m; cbn [map merge_all concat]; [now rewrite app_nil_r|].
    rewrite H. rewrite IH. now rewrite app_assoc. }
  rewrite G. now rewrite app_assoc.
Qed.
Print Assumptions C43_merge.
Theorem C43_merge_assoc : forall a b c, merge2 (merge2 a (Some b)) c = merge2 a (merge2 (Some b) c).
Proof.
  destruct C43_merge as (H & _ & _ & _).
  intros [a|] b [c|].
  - rewrite !H. now rewrite app_assoc.
  - change (merge2 (Some b) None) with (Some b). rewrite H. reflexivity.
  - change (merge2 None (Some b)) with (Some b). rewrite H. reflexivity.
  - reflexivity.
Qed.
Print Assumptions C43_merge_assoc.

(** set, then get: the same values in order; other attributes, other individuals and evaluation marks are untouched *)
Theorem C43_set_get : forall (V : Type) (h : heap V) pop kvs,
  NoDup pop -> NoDup (map fst kvs) -> Forall (fun kv => length (snd kv) = length pop) kvs ->
  let h' := fst (pop_set h pop kvs) in
  snd (pop_set h pop kvs) = true /\
  (forall k vs, In (k, vs) kvs -> pop_get h' pop k = map Some vs) /\
  (forall k p', ~ In k (map fst kvs) -> pop_get h' p' k = pop_get h p' k) /\
  (forall r, ~ In r pop -> obj h' r = obj h r) /\ (forall r, evald (obj h' r) = evald (obj h r)).
Proof.
  intros V h pop kvs Hnd Hk HF. cbv zeta. destruct (pop_set_effect pop kvs h Hnd HF) as (E1 & E2 & E3 & E4 & E5 & E6). cbv zeta in *.
  split; auto. split; [|split; [|split; auto]].
  - intros k vs Hin. assert (Hl : length vs = length pop) by (rewrite Forall_forall in HF; apply (HF (k, vs)); auto).
    apply nth_ext with (d := None) (d' := None); unfold pop_get; rewrite !map_length; auto.
    intros i Hi. rewrite nth_indep with (d' := (fun r => vals (obj (fst (pop_set h pop kvs)) r) k) 0) by now rewrite map_length.
    rewrite (map_nth (fun r => vals (obj (fst (pop_set h pop kvs)) r) k)). rewrite (E6 Hk k vs i Hin Hi).
    assert (Hi' : i < length vs) by lia. clear -Hi'. revert i Hi'. induction vs as [|v vs IH]; intros [|i] Hi; simpl in *; try lia; auto. apply IH. lia.
  - intros k p' Hkn. unfold pop_get. apply map_ext. intros r. now apply E5.
Qed.
Print Assumptions C43_set_get.

(** a wrong number of values raises; the offending attribute is not changed anywhere, the attributes given before it are set *)
Theorem C43_set_mismatch : forall (V : Type) (h : heap V) pop pre key vs post,
  NoDup pop -> pop <> [] -> Forall (fun kv => length (snd kv) = length pop) pre -> length vs <> length pop ->
  pop_set h pop (pre ++ (key, vs) :: post) = (fst (pop_set h pop pre), false) /\
  (~ In key (map fst pre) -> forall r, vals (obj (fst (pop_set h pop (pre ++ (key, vs) :: post))) r) key = vals (obj h r) key).
Proof.
  intros V h pop pre key vs post Hnd Hne HF Hl.
  assert (E : pop_set h pop (pre ++ (key, vs) :: post) = (fst (pop_set h pop pre), false)).
  { unfold pop_set. destruct (Nat.eqb_spec (length pop) 0) as [E|E]; [destruct pop; [congruence|discriminate]|].
    clear E Hne. revert h. induction pre as [|[k v] pre IH]; intros h; cbn [app set_keys fst].
    - destruct (Nat.eqb_spec (length vs) (length pop)); [congruence|auto].
    - apply Forall_cons_iff in HF as [E HF]. cbn [snd] in E. rewrite E, Nat.eqb_refl. now apply IH. }
  split; auto. intros Hk r. rewrite E. cbn [fst]. destruct (pop_set_effect pop pre h Hnd HF) as (_ & _ & _ & _ & E5 & _). now apply E5.
Qed.
Print Assumptions C43_set_mismatch.

(** a new population: fresh, pairwise different individuals, as many as values given, holding exactly these values; sizes that differ raise *)
Theorem C43_new : forall (V : Type) (h : heap V) kvs,
  (pop_new h kvs = None <-> exists k1 v1 k2 v2, In (k1, v1) kvs /\ In (k2, v2) kvs /\ length v1 <> length v2) /\
  forall h' pop, pop_new h kvs = Some (h', pop) ->
    NoDup pop /\ (forall r, In r pop -> alloc h <= r < alloc h') /\ (forall r, r < alloc h -> obj h' r = obj h r) /\
    (forall k vs, In (k, vs) kvs -> length pop = length vs) /\
    (NoDup (map fst kvs) -> forall k vs, In (k, vs) kvs -> pop_get h' pop k = map Some vs) /\
    (forall r, In r pop -> evald (obj h' r) = []).
Proof.
  intros V h kvs. destruct kvs as [|[k0 v0] kvs].
  - cbn [pop_new]. split; [split; [discriminate|intros (k1 & v1 & k2 & v2 & [] & _)]|].
    intros h' pop E. injection E as <- <-. cbn [seq pop_empty]. repeat split; auto; try (constructor); intros; simpl in *; try tauto.
    destruct (Nat.leb_spec (alloc h) r); [lia|reflexivity].
  - cbn [pop_new]. set (kv0 := (k0, v0) :: kvs).
    destruct (forallb (fun kv => length (snd kv) =? length v0) kvs) eqn:Ef.
    + rewrite forallb_forall in Ef.
      assert (HL : forall k v, In (k, v) kv0 -> length v = length v0).
      { intros k v [E|Hin]; [now injection E as -> ->|]. apply Ef in Hin. now apply Nat.eqb_eq in Hin. }
      split.
      * split; [discriminate|]. intros (k1 & v1 & k2 & v2 & H1 & H2 & H3). exfalso. apply H3. rewrite (HL _ _ H1), (HL _ _ H2). auto.
      * cbn [pop_empty]. intros h' pop E. injection E as <- <-.
        set (h1 := {| alloc := _; obj := _ |}). set (pop := seq (alloc h) (length v0)).
        assert (Hnd : NoDup pop) by apply seq_NoDup.
        assert (Hlp : length pop = length v0) by apply seq_length.
        assert (HF : Forall (fun kv => length (snd kv) = length pop) kv0).
        { apply Forall_forall. intros [k v] Hin. cbn [snd]. rewrite Hlp. eauto. }
        destruct (pop_set_effect pop kv0 h1 Hnd HF) as (E1 & E2 & E3 & E4 & E5 & E6). cbv zeta in *.
        split; auto. split; [intros r Hr; apply in_seq in Hr; rewrite E2; cbn [alloc h1]; lia|].
        split.
        { intros r Hr. rewrite E3 by (intros Hin; apply in_seq in Hin; lia). cbn [obj h1]. destruct (Nat.leb_spec (alloc h) r); [lia|reflexivity]. }
        split; [intros k vs Hin; rewrite Hlp; symmetry; eauto|]. split.
        { intros Hk. destruct (C43_set_get V h1 pop kv0 Hnd Hk HF) as (_ & G & _). exact G. }
        { intros r Hr. rewrite E4. apply in_seq in Hr. cbn [obj h1].
          destruct (Nat.leb_spec (alloc h) r); [|lia]. destruct (Nat.ltb_spec r (alloc h + length v0)); [reflexivity|lia]. }
    + split; [|discriminate]. split; auto. intros _.
      assert (exists kv, In kv kvs /\ (length (snd kv) =? length v0) = false) as ([k v] & Hin & E).
      { clear kv0. induction kvs as [|x kvs IH]; [discriminate|]. cbn [forallb] in Ef. destruct (length (snd x) =? length v0) eqn:Ex.
        - destruct IH as (kv & H1 & H2); auto. exists kv. simpl. auto.
        - exists x. simpl. auto. }
      apply Nat.eqb_neq in E. exists k, v, k0, v0. unfold kv0. simpl. auto.
Qed.
Print Assumptions C43_new.

(** slices share the individuals: setting through a slice is visible in the whole population, at the sliced positions only *)
Theorem C43_slice_aliasing : forall (V : Type) (h : heap V) pop I key vs,
  NoDup pop -> NoDup I -> (forall i, In i I -> i < length pop) -> length vs = length I ->
  let h' := fst (pop_set h (gather 0 pop I) [(key, vs)]) in
  (forall j, j < length I -> vals (obj h' (nth (nth j I 0) pop 0)) key = nth_error vs j) /\
  (forall i, i < length pop -> ~ In i I -> obj h' (nth i pop 0) = obj h (nth i pop 0)).
Proof.
  intros V h pop I key vs Hnd HI Hb Hl. cbv zeta.
  assert (HG : NoDup (gather 0 pop I)).
  { unfold gather. apply NoDup_map_inj; auto. intros x y Hx Hy E. eapply (proj1 (NoDup_nth pop 0)); eauto. }
  destruct (pop_set_effect (gather 0 pop I) [(key, vs)] h HG) as (_ & _ & E3 & _ & _ & E6).
  { repeat constructor. now rewrite length_gather. }
  cbv zeta in *. split.
  - intros j Hj. rewrite <- (nth_gather 0 pop I j 0) by auto. apply E6; [repeat constructor; simpl; tauto|simpl; auto|now rewrite length_gather].
  - intros i Hi Hni. apply E3. intros Hin. apply in_map_iff in Hin as (x & E & Hx). apply Hni.
    assert (x = i); [|now subst]. eapply (proj1 (NoDup_nth pop 0)); eauto.
Qed.
Print Assumptions C43_slice_aliasing.

(** ** examples: a problem with two outputs meets the contract; two evaluations *)
Definition prob_ex : problem_t nat := fun X ks => map (fun k => (k, map (fun x => match x with Some v => v * 10 + String.length k | None => 0 end) X)) (nodup string_dec ks).
Example prob_ex_ok : problem_ok prob_ex.
Proof.
  intros X ks. unfold prob_ex. rewrite map_map, map_id. split; [apply NoDup_nodup|]. split.
  - apply Forall_map, Forall_forall. intros k _. cbn [snd]. apply map_length.
  - intros k Hk. now apply nodup_In.
Qed.
Definition st_ex : estate nat :=
  match pop_new {| alloc := 0; obj := fun _ => empty_ind |} [("X"%string, [1; 2; 3])] with
  | Some (h, _) => {| hp := h; n_eval := 0; calls := [] |} | None => {| hp := {| alloc := 0; obj := fun _ => empty_ind |}; n_eval := 0; calls := [] |} end.
Example ex_eval :
  let s1 := eval prob_ex true ["F"%string; "G"%string] true st_ex [0; 2] in
  let s2 := eval prob_ex true ["F"%string; "G"%string] true s1 [0; 1; 2] in
  n_eval s1 = 2 /\ n_eval s2 = 3 /\ map (fun c => fst c) (calls s2) = [[Some 1; Some 3]; [Some 2]] /\
  pop_get (hp s2) [0; 1; 2] "F"%string = [Some 11; Some 21; Some 31].
Proof. vm_compute. auto. Qed.
