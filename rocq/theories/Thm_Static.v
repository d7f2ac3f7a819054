(** * C75, C76: converting to a single objective; problems given by functions or by values *)
From Coq Require Import String List ZArith Arith Bool QArith Lia.
From Verif Require Import Flt ListAux M_Params P_Params M_Evaluate M_Decomp M_Static P_Selection Thm_Evaluate.
Import ListNotations.
Local Open Scope nat_scope.

(** ** C75 *)
(** C75: for any number of points but one, the single objective of a point is its scalarisation with the given weights *)
Theorem C75_values sc rnd eps init w ideal utop m F : 2 <= m -> length F <> 1 ->
  exists rows, multi_to_single sc rnd eps init (Some (w, ideal, utop)) m F = Some (M2 rows) /\ length rows = length F /\
    forall i, i < length F -> nth i rows [] = [sc (utopian rnd eps m ideal utop) (nth i F []) w].
Proof.
  intros Hm Hn. unfold multi_to_single, decomp_do, auto_type, ndim. cbn [rows_of cols_of length].
  destruct (Nat.eqb_spec (length F) 1); [contradiction|]. destruct (Nat.eqb_spec m 1); [lia|]. cbn [orb Nat.eqb andb Nat.ltb Nat.leb].
  unfold bcast. assert (E : np_repeat [w] (length F) = repeat w (length F)) by (unfold np_repeat; cbn [flat_map]; apply app_nil_r). rewrite E, repeat_length, Nat.eqb_refl. cbn [option_map new_axis].
  eexists. split; [reflexivity|]. rewrite map_length, length_map2, repeat_length, Nat.min_id. split; [reflexivity|].
  intros i Hi. set (g := fun q : Q => [q]). rewrite (nth_indep _ [] (g 0%Q)) by (rewrite map_length, length_map2, repeat_length; lia). rewrite (map_nth g). unfold g. f_equal.
  rewrite (nth_map2 _ F (repeat w (length F)) i 0%Q [] w) by (rewrite ?repeat_length; lia). now rewrite nth_repeat.
Qed.
(** a single point gets an array with one axis too many *)
Theorem C75_single_refuted sc rnd eps init w ideal utop m f :
  multi_to_single sc rnd eps init (Some (w, ideal, utop)) m [f] = Some (M3 [[[sc (utopian rnd eps m ideal utop) f w]]]).
Proof. reflexivity. Qed.
(** without keyword arguments every evaluation ends with an exception *)
Theorem C75_default_refuted sc rnd eps init m F : multi_to_single sc rnd eps init None m F = None.
Proof. reflexivity. Qed.
Example C75_ex : multi_to_single (weighted_sum (fun x => x) (SNode (SLeaf 0) (SLeaf 1))) (fun x => x) 0 TAuto (Some ([1; 2], None, None))%Q 2 [[1; 1]; [2; 5]]%Q = Some (M2 [[3]; [12]])%Q.
Proof. vm_compute. reflexivity. Qed.

(** ** C76 *)
(** C76: a problem given by functions returns for each point the values of the functions, in their order, whatever the runner *)
Theorem C76_functional (X : Type) n_var run (objs ieq eqc : list (X -> flt)) xs rv : (forall g ys, run g ys = Some (map g ys)) -> xs <> [] ->
  exists d, functional_evaluate n_var run objs ieq eqc xs false rv = Some d /\
    dget d "F" = Some (RRows (map (fun x => map (fun o => o x) objs) xs)) /\ dget d "G" = Some (RRows (map (fun x => map (fun o => o x) ieq) xs)) /\
    dget d "H" = Some (RRows (map (fun x => map (fun o => o x) eqc) xs)).
Proof.
  intros HR Hne. set (sz := fun k => if String.eqb k "F" then length objs else if String.eqb k "G" then length ieq else length eqc).
  destruct (C52_elementwise X (functional_conf n_var objs ieq eqc) run (functional_set objs ieq eqc) xs false rv ["F"; "G"; "H"]%string sz HR Hne ltac:(discriminate)) as (d & E & R).
  - intros x _. split; [cbn; repeat constructor; cbn; intuition discriminate|]. intros k. reflexivity.
  - intros k Hk. destruct Hk as [<-|[<-|[<-|[]]]]; (split; [intros x _; cbn; now rewrite map_length|]); intros s; cbn; intros [= <-]; reflexivity.
  - exists d. split; [exact E|]. unfold returns in R.
    assert (A : forall k, In k ["F"; "G"; "H"]%string -> dget d k = Some (RRows (map (fun x => value_of k (functional_set objs ieq eqc x)) xs))).
    { intros k Hk. destruct (R k) as (R1 & _). destruct (R1 Hk) as (R2 & _). exact (R2 eq_refl). }
    split; [apply (A "F"%string); cbn; auto|]. split; [apply (A "G"%string); cbn; auto|apply (A "H"%string); cbn; auto].
Qed.
Theorem C76_functional_single (X : Type) n_var run (objs ieq eqc : list (X -> flt)) x rv : (forall g ys, run g ys = Some (map g ys)) ->
  exists d, functional_evaluate n_var run objs ieq eqc [x] true rv = Some d /\
    dget d "F" = Some (RRow (map (fun o => o x) objs)) /\ dget d "G" = Some (RRow (map (fun o => o x) ieq)) /\ dget d "H" = Some (RRow (map (fun o => o x) eqc)).
Proof.
  intros HR. set (sz := fun k => if String.eqb k "F" then length objs else if String.eqb k "G" then length ieq else length eqc).
  destruct (C52_elementwise X (functional_conf n_var objs ieq eqc) run (functional_set objs ieq eqc) [x] true rv ["F"; "G"; "H"]%string sz HR ltac:(discriminate) ltac:(reflexivity)) as (d & E & R).
  - intros y _. split; [cbn; repeat constructor; cbn; intuition discriminate|]. intros k. reflexivity.
  - intros k Hk. destruct Hk as [<-|[<-|[<-|[]]]]; (split; [intros y _; cbn; now rewrite map_length|]); intros s; cbn; intros [= <-]; reflexivity.
  - exists d. split; [exact E|]. unfold returns in R.
    assert (A : forall k, In k ["F"; "G"; "H"]%string -> dget d k = Some (RRow (value_of k (functional_set objs ieq eqc x)))).
    { intros k Hk. destruct (R k) as (R1 & _). destruct (R1 Hk) as (_ & R2). exact (R2 x eq_refl eq_refl). }
    split; [apply (A "F"%string); cbn; auto|]. split; [apply (A "G"%string); cbn; auto|apply (A "H"%string); cbn; auto].
Qed.

(** C76: StaticProblem over a vectorised problem returns the given values, one row per point (a NaN is replaced if the problem asks for it) *)
Theorem C76_static (X : Type) c kw (xs : list X) rv : NoDup (map fst kw) ->
  (forall k rows, In (k, rows) kw -> length rows = length xs /\ exists s, Forall (fun r => length r = s) rows /\ forall s', row_size c k = Some s' -> s' = s) ->
  exists d, static_evaluate c false kw xs false rv = Some d /\ forall k rows, In (k, rows) kw -> dget d k = Some (RRows (map (fix_nan c) rows)).
Proof.
  intros HN HK. set (N := length xs). set (val := fun (k : string) (i : nat) => match dget kw k with Some rows => nth i rows [] | None => [] end).
  assert (G0 : forall k rows, In (k, rows) kw -> dget kw k = Some rows) by (intros k rows Hk; apply In_dget; auto).
  assert (L : forall (rows : list (list flt)), map (fun i => nth i rows []) (seq 0 (length rows)) = rows).
  { intros rows. apply nth_ext with (d := []) (d' := []); [now rewrite map_length, seq_length|]. intros i Hi. rewrite map_length, seq_length in Hi.
    rewrite (nth_indep _ [] ((fun i => nth i rows []) (length rows))) by (rewrite map_length, seq_length; lia). rewrite (map_nth (fun i => nth i rows [])). now rewrite seq_nth by lia. }
  destruct (C52_vectorized nat c (fun _ => map (fun kv => (fst kv, UArr (snd kv))) kw) (seq 0 N) false rv (map fst kw)
    (fun k => match dget kw k with Some (r :: _) => length r | Some [] => match row_size c k with Some s => s | None => 0 end | None => 0 end) val ltac:(discriminate)) as (d & E & R).
  - rewrite map_map. cbn. exact HN.
  - intros k. assert (M : dget (map (fun kv => (fst kv, UArr (snd kv))) kw) k = option_map UArr (dget kw k)).
    { clear. induction kw as [|[k' v] kw IH]; [reflexivity|]. cbn [map dget fst snd]. destruct (String.eqb k' k); auto. }
    rewrite M. destruct (memk k (map fst kw)) eqn:E.
    + apply memk_In in E. apply in_map_iff in E. destruct E as ([k' rows] & <- & Hin). cbn [fst]. rewrite (G0 k' rows Hin). cbn [option_map]. do 2 f_equal.
      unfold val. rewrite (G0 k' rows Hin). destruct (HK k' rows Hin) as (Hl & _). unfold N. rewrite <- Hl. symmetry. apply L.
    + destruct (dget kw k) as [rows|] eqn:E2; [|reflexivity]. exfalso. apply dget_In in E2. apply (in_map fst) in E2. apply memk_In in E2. cbn [fst] in E2. congruence.
  - intros k Hk. apply in_map_iff in Hk. destruct Hk as ([k' rows] & <- & Hin). cbn [fst]. destruct (HK k' rows Hin) as (Hl & s & Hs & Hz). unfold val. rewrite (G0 k' rows Hin). split.
    + intros i Hi. apply in_seq in Hi. fold N in Hl. rewrite Forall_forall in Hs. destruct rows as [|r rows]; [cbn in Hl; lia|]. rewrite (Hs r ltac:(left; reflexivity)). apply Hs. apply nth_In. lia.
    + intros s' Hs'. destruct rows as [|r rows]; [now rewrite Hs'|]. rewrite (Hz s' Hs'). inversion Hs. auto.
  - exists d. split.
    + unfold static_evaluate. rewrite <- E. unfold evaluate. rewrite seq_length. reflexivity.
    + intros k rows Hin. destruct (R k) as (R1 & _). destruct (R1 ltac:(apply (in_map fst) in Hin; exact Hin)) as (R2 & _). rewrite (R2 eq_refl). do 2 f_equal.
      unfold val. rewrite (G0 k rows Hin). destruct (HK k rows Hin) as (Hl & _). unfold N. rewrite <- Hl. rewrite <- (L rows) at 2. now rewrite map_map.
Qed.
Lemma fmt_set_None c N n v out : In (n, Some v) out -> fmt_value c N n v = None -> fmt_set c N out = None.
Proof.
  induction out as [|[k o] out IH]; intros Hin HN; [destruct Hin|]. destruct Hin as [Heq|Hin].
  - injection Heq as -> ->. cbn [fmt_set]. now rewrite HN.
  - cbn [fmt_set]. specialize (IH Hin HN). rewrite IH. destruct o as [u|]; [now destruct (fmt_value c N k u)|reflexivity].
Qed.
(** but over an elementwise problem it raises an exception as soon as there are two points *)
Theorem C76_elementwise_refuted (X : Type) c kw (xs : list X) single rv rows : NoDup (map fst kw) -> In ("F"%string, rows) kw -> 2 <= length xs -> length rows = length xs ->
  Forall (fun r => length r = p_obj c) rows -> 1 <= p_obj c -> static_evaluate c true kw xs single rv = None.
Proof.
  intros HN Hin H2 HL HS Ho. unfold static_evaluate, evaluate. set (names := match rv with Some n => n | None => default_names c end).
  set (f := fun _ : X => map (fun kv => (fst kv, concat (snd kv))) kw). set (ks := map fst kw).
  assert (Fk : forall x, map fst (f x) = ks) by (intros x; unfold f; rewrite map_map; reflexivity).
  assert (HE : forall e, In e (map f xs) -> NoDup (map fst e) /\ forall k, In k ks <-> In k (map fst e)).
  { intros e He. apply in_map_iff in He as (x & <- & Hx). rewrite Fk. split; [exact HN|]. intros k. reflexivity. }
  destruct (collect_spec names (map f xs) ks ltac:(destruct xs; [cbn in H2; lia|discriminate]) HE) as [C1 C2].
  destruct (to_arrays_spec (collect names (map f xs)) C1) as (o & O1 & O2 & O3).
  { intros k r Hk. rewrite C2 in Hk. destruct (memk k ks) eqn:E; [|destruct (memk k names); discriminate]. injection Hk as <-.
    set (e0 := map (fun kv => (fst kv, concat (snd kv))) kw). apply same_len_ok with (s := length (value_of k e0)). rewrite map_map. apply Forall_map, Forall_forall. intros x _. reflexivity. }
  unfold elementwise. rewrite O1. unfold format_dict.
  assert (GF : dget kw "F" = Some rows) by (apply In_dget; auto).
  assert (DF : forall x, value_of "F" (f x) = concat rows).
  { intros x. unfold value_of, f. assert (M : dget (map (fun kv => (fst kv, concat (snd kv))) kw) "F" = option_map (@concat flt) (dget kw "F")).
    { clear. induction kw as [|[k' v] kw IH]; [reflexivity|]. cbn [map dget fst snd]. destruct (String.eqb k' "F"); auto. }
    rewrite M, GF. reflexivity. }
  assert (A : dget o "F" = Some (Some (UArr (repeat (concat rows) (length xs))))).
  { rewrite O3, C2. replace (memk "F" ks) with true by (symmetry; apply memk_In; apply (in_map fst) in Hin; exact Hin). rewrite map_map. do 3 f_equal.
    clear -DF. induction xs as [|x xs IH]; [reflexivity|]. cbn [map length repeat]. rewrite IH. f_equal. apply DF. }
  rewrite (fmt_set_None c (length xs) "F" (UArr (repeat (concat rows) (length xs))) o); [reflexivity|now apply dget_In|].
  unfold fmt_value. cbn [row_size String.eqb Ascii.eqb Bool.eqb].
  assert (LC : length (concat rows) = length rows * p_obj c) by (clear -HS; induction HS as [|r l Hr Hl IH]; cbn; auto; rewrite app_length, IH; lia).
  assert (LR : length (concat (repeat (concat rows) (length xs))) = length xs * (length xs * p_obj c)).
  { clear -LC HL. rewrite <- HL. rewrite <- LC. generalize (length rows) as k. generalize (concat rows) as v. intros v k. induction k as [|k IH]; [reflexivity|]. cbn [repeat concat]. rewrite app_length, IH. lia. }
  rewrite LR. destruct (Nat.eqb_spec (length xs * (length xs * p_obj c)) (length xs * p_obj c)); [|reflexivity]. exfalso. nia.
Qed.
Example C76_ex : exists d, static_evaluate {| p_var := 1; p_obj := 2; p_ieq := 0; p_eq := 0; p_nan := None |} false [("F"%string, [[fz 1%Z; fz 2%Z]; [fz 3%Z; fz 4%Z]])] [tt; tt] false None = Some d /\
  dget d "F" = Some (RRows [[fz 1%Z; fz 2%Z]; [fz 3%Z; fz 4%Z]]).
Proof. eexists. split; vm_compute; reflexivity. Qed.
Print Assumptions C75_values. Print Assumptions C76_functional. Print Assumptions C76_static. Print Assumptions C76_elementwise_refuted.
