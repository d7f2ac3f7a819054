(** * C52: evaluation of a problem *)
From Coq Require Import String List ZArith Arith Bool Lia Permutation.
From Verif Require Import Flt ListAux M_Params P_Params M_Evaluate P_Selection.
Import ListNotations.
Local Open Scope nat_scope.

(** ** runners *)
Lemma all_some_map {R} (l : list R) : all_some (map Some l) = Some l.
Proof. induction l as [|x l IH]; auto. cbn [map all_some]. now rewrite IH. Qed.
Lemma run_jobs_nth {X R} (f : X -> R) xs sched i x : nth_error xs i = Some x -> nth i (run_jobs f xs sched) None = if existsb (Nat.eqb i) sched then Some (f x) else None.
Proof.
  intros Hx. assert (Hi : i < length xs) by (apply nth_error_Some; congruence).
  assert (HG : forall sched st, length st = length xs -> nth i (fold_left (fun st i => match nth_error xs i with Some x => upd st i (Some (f x)) | None => st end) sched st) None = if existsb (Nat.eqb i) sched then Some (f x) else nth i st None).
  { clear sched. induction sched as [|a sched IH]; intros st HL; cbn [fold_left existsb]; auto.
    destruct (nth_error xs a) as [y|] eqn:E.
    - rewrite IH by (rewrite length_upd; auto). destruct (Nat.eqb_spec i a) as [->|Hne]; cbn [orb].
      + rewrite E in Hx. injection Hx as ->. rewrite nth_upd_eq by lia. now destruct (existsb (Nat.eqb a) sched).
      + now rewrite nth_upd_neq by auto.
    - rewrite IH by auto. destruct (Nat.eqb_spec i a) as [->|Hne]; [congruence|]. reflexivity. }
  unfold run_jobs. rewrite HG by apply repeat_length. destruct (existsb (Nat.eqb i) sched); auto. apply nth_repeat.
Qed.
(** C52: whatever the order in which the jobs finish, the results come in the order of the points *)
Theorem C52_runner : forall (X R : Type) (f : X -> R) xs sched, Permutation sched (seq 0 (length xs)) -> runner sched f xs = Some (map f xs).
Proof.
  intros X R f xs sched HP. unfold runner. rewrite <- all_some_map. f_equal.
  assert (HL : length (run_jobs f xs sched) = length xs).
  { unfold run_jobs. assert (HG : forall sched (st : list (option R)), length (fold_left (fun st i => match nth_error xs i with Some x => upd st i (Some (f x)) | None => st end) sched st) = length st).
    { induction sched0 as [|a s IH]; intros st; cbn; auto. destruct (nth_error xs a); rewrite IH; auto. apply length_upd. }
    rewrite HG. apply repeat_length. }
  apply (nth_ext _ _ None None); [rewrite HL, !map_length; auto|]. intros i Hi. rewrite HL in Hi. destruct (nth_error xs i) as [x|] eqn:E; [|apply nth_error_None in E; lia].
  rewrite (run_jobs_nth f xs sched i x E). replace (existsb (Nat.eqb i) sched) with true.
  - symmetry. apply nth_error_nth. rewrite map_map. erewrite map_nth_error; eauto.
  - symmetry. apply existsb_exists. exists i. split; [|apply Nat.eqb_refl]. eapply Permutation_in; [symmetry; exact HP|]. apply in_seq. lia.
Qed.
Print Assumptions C52_runner.

(** ** dictionaries *)
Definition memk (k : string) (l : list string) : bool := existsb (String.eqb k) l.
Lemma memk_In k l : memk k l = true <-> In k l.
Proof. unfold memk. rewrite existsb_exists. split; [intros (x & Hx & E); apply String.eqb_eq in E; now subst|intros H; exists k; split; auto; apply String.eqb_refl]. Qed.
Lemma init_dict {V} names : forall (d : list (string * option V)) k, dget (fold_left (fun d n => dset d n None) names d) k = if memk k names then Some None else dget d k.
Proof.
  induction names as [|n names IH]; intros d k; cbn [fold_left memk existsb]; auto. rewrite IH, dget_dset. fold (memk k names).
  rewrite (String.eqb_sym k n). destruct (String.eqb n k); cbn [orb]; destruct (memk k names); auto.
Qed.
Lemma init_NoDup {V} names : forall (d : list (string * option V)), NoDup (map fst d) -> NoDup (map fst (fold_left (fun d n => dset d n None) names d)).
Proof. induction names as [|n names IH]; intros d H; cbn; auto. apply IH, dset_NoDup, H. Qed.

(** what a fully filled [out] dictionary looks like: the names in [ks] hold [val k], the other requested names None *)
Definition filled (names ks : list string) (val : string -> uval) (out : list (string * option uval)) : Prop :=
  NoDup (map fst out) /\ forall k, dget out k = if memk k ks then Some (Some (val k)) else if memk k names then Some None else None.

Lemma fmt_set_spec c N out : NoDup (map fst out) -> (forall k v, dget out k = Some (Some v) -> exists r, fmt_value c N k v = Some r) ->
  exists d, fmt_set c N out = Some d /\ NoDup (map fst d) /\ (forall k, In k (map fst d) -> In k (map fst out)) /\
    forall k, dget d k = match dget out k with Some (Some v) => fmt_value c N k v | _ => None end.
Proof.
  induction out as [|[n [v|]] out IH]; intros HN HV; cbn [fmt_set map fst].
  - exists []. repeat split; auto; constructor.
  - inversion HN; subst. destruct (HV n v) as (r & Hr); [cbn [dget]; now rewrite String.eqb_refl|]. rewrite Hr.
    destruct IH as (d & -> & H3 & H4 & H5); auto.
    { intros k v' Hk. apply (HV k v'). cbn [dget]. destruct (String.eqb_spec n k) as [->|Hne]; auto. exfalso. apply H1. apply dget_In in Hk. apply (in_map fst) in Hk. exact Hk. }
    exists ((n, r) :: d). split; auto. cbn [map fst]. split; [constructor; auto|]. split; [cbn; intuition|]. intros k. cbn [dget]. destruct (String.eqb_spec n k) as [->|Hne]; auto.
  - inversion HN; subst. destruct IH as (d & E & H3 & H4 & H5); auto.
    { intros k v' Hk. apply (HV k v'). cbn [dget]. destruct (String.eqb_spec n k) as [->|Hne]; auto. exfalso. apply H1. apply dget_In in Hk. apply (in_map fst) in Hk. exact Hk. }
    exists d. split; auto. split; auto. split; [cbn; intuition|]. intros k. cbn [dget]. destruct (String.eqb_spec n k) as [->|Hne]; auto.
    rewrite H5. destruct (dget out k) eqn:E2; auto. exfalso. apply H1. apply dget_In in E2. apply (in_map fst) in E2. exact E2.
Qed.
Lemma defaults_spec c N names : forall ret, NoDup (map fst ret) ->
  let d := fold_left (fun ret n => match dget ret n with Some _ => ret | None => dset ret n (default_value c N n) end) names ret in
  NoDup (map fst d) /\ forall k, dget d k = match dget ret k with Some v => Some v | None => if memk k names then Some (default_value c N k) else None end.
Proof.
  induction names as [|n names IH]; intros ret HN; cbn [fold_left].
  - split; auto. intros k. cbn. now destruct (dget ret k).
  - destruct (dget ret n) as [v|] eqn:E.
    + destruct (IH ret HN) as [I1 I2]. split; auto. intros k. rewrite I2. destruct (dget ret k) eqn:Ek; auto. unfold memk. cbn [existsb]. fold (memk k names).
      destruct (String.eqb_spec k n) as [->|Hne]; [congruence|reflexivity].
    + destruct (IH (dset ret n (default_value c N n)) (dset_NoDup _ _ _ HN)) as [I1 I2]. split; auto. intros k. rewrite I2, dget_dset. unfold memk. cbn [existsb]. fold (memk k names). rewrite (String.eqb_sym k n).
      destruct (String.eqb_spec n k) as [->|Hne]; cbn [orb]; auto. now rewrite E.
Qed.
Lemma post_spec c single d : NoDup (map fst d) -> (single = true -> forall k r, dget d k = Some r -> r <> []) ->
  exists e, post c single d = Some e /\ forall k, dget e k = match dget d k with Some r => finish c single r | None => None end.
Proof.
  unfold post. induction d as [|[n r] d IH]; intros HN HS; cbn [map all_some fst snd]; [exists []; auto|]. inversion HN; subst.
  assert (HF : exists v, finish c single r = Some v) by (unfold finish; destruct single; [|eauto]; specialize (HS eq_refl n r); cbn [dget] in HS; rewrite String.eqb_refl in HS; specialize (HS eq_refl); destruct r; [congruence|eauto]).
  destruct HF as (v & Hv). rewrite Hv. cbn [option_map all_some].
  destruct IH as (e & -> & He); auto.
  { intros Hs k r' Hk. apply (HS Hs k r'). cbn [dget]. destruct (String.eqb_spec n k) as [->|Hne]; auto. exfalso. apply H1. apply dget_In in Hk. apply (in_map fst) in Hk. exact Hk. }
  cbn [option_map]. exists ((n, v) :: e). split; auto. intros k. cbn [dget fst]. destruct (String.eqb_spec n k) as [->|Hne]; auto.
Qed.

Lemma concat_len {A} s (rows : list (list A)) : Forall (fun r => length r = s) rows -> length (concat rows) = length rows * s.
Proof. induction 1; cbn [concat length]; auto. rewrite app_length. lia. Qed.
Lemma reshape_concat {A} s (rows : list (list A)) : Forall (fun r => length r = s) rows -> reshape (length rows) s (concat rows) = rows.
Proof.
  induction 1 as [|r rows Hr HF IH]; cbn [length reshape concat]; auto. rewrite firstn_app, skipn_app, Hr, Nat.sub_diag. rewrite firstn_all2, skipn_all2 by lia. cbn [firstn skipn app]. now rewrite app_nil_r, IH.
Qed.


Lemma fix_nan_inf c n : fix_nan c (repeat f_inf n) = repeat f_inf n.
Proof. unfold fix_nan. destruct (p_nan c); auto. induction n; cbn [repeat map]; auto. f_equal; auto. Qed.
Lemma map_repeat {A B} (f : A -> B) x n : map f (repeat x n) = repeat (f x) n.
Proof. induction n; cbn; congruence. Qed.

(** every point has, under every name of [ks], a value of [sz] entries, and this is the expected number for names with an expected shape *)
Definition sized {X} (c : pconf) (ks : list string) (sz : string -> nat) (val : string -> X -> list flt) (xs : list X) : Prop :=
  forall k, In k ks -> (forall x, In x xs -> length (val k x) = sz k) /\ (forall s, row_size c k = Some s -> s = sz k).
(** what [evaluate] must return under the names: the values of the points in order (NaN replaced on request), or infinite values of the expected shape for a
    requested name that was not set; for a single point without the first dimension *)
Definition returns {X} (c : pconf) (names ks : list string) (val : string -> X -> list flt) (xs : list X) (single : bool) (d : list (string * rval)) : Prop :=
  forall k,
    (In k ks -> (single = false -> dget d k = Some (RRows (map (fun x => fix_nan c (val k x)) xs))) /\ (forall x, single = true -> xs = [x] -> dget d k = Some (RRow (fix_nan c (val k x))))) /\
    (~ In k ks -> In k names -> let row := repeat f_inf (match row_size c k with Some s => s | None => 1 end) in
       (single = false -> dget d k = Some (RRows (repeat row (length xs)))) /\ (single = true -> length xs = 1 -> dget d k = Some (RRow row))) /\
    (~ In k ks -> ~ In k names -> dget d k = None).
Lemma evaluate_filled {X} c (fill : list string -> list X -> option (list (string * option uval))) xs single rv ks sz val out :
  let names := match rv with Some n => n | None => default_names c end in
  fill names xs = Some out -> filled names ks (fun k => UArr (map (val k) xs)) out -> sized c ks sz val xs -> (single = true -> length xs = 1) ->
  exists d, evaluate c fill xs single rv = Some d /\ returns c names ks val xs single d.
Proof.
  intros names HF [HN HO] HS H1. unfold evaluate. fold names. rewrite HF. unfold format_dict.
  assert (HV : forall k, In k ks -> fmt_value c (length xs) k (UArr (map (val k) xs)) = Some (map (val k) xs)).
  { intros k Hk. destruct (HS k Hk) as [S1 S2]. unfold fmt_value. destruct (row_size c k) as [s|]; auto. specialize (S2 s eq_refl). subst s.
    assert (HFa : Forall (fun r => length r = sz k) (map (val k) xs)) by (apply Forall_map, Forall_forall; auto). rewrite (concat_len _ _ HFa), map_length, Nat.eqb_refl. f_equal.
    pose proof (reshape_concat _ _ HFa) as HR. rewrite map_length in HR. exact HR. }
  destruct (fmt_set_spec c (length xs) out HN) as (d & -> & D1 & _ & D2).
  { intros k v Hk. rewrite HO in Hk. destruct (memk k ks) eqn:E; [|destruct (memk k names); discriminate]. injection Hk as <-. apply memk_In in E. rewrite HV; eauto. }
  cbn [option_map]. destruct (defaults_spec c (length xs) names d D1) as [E1 E2]. set (d2 := fold_left _ names d) in *.
  assert (HD : forall k, dget d2 k = if memk k ks then Some (map (val k) xs) else if memk k names then Some (default_value c (length xs) k) else None).
  { intros k. rewrite E2, D2, HO. destruct (memk k ks) eqn:E; [apply memk_In in E; now rewrite HV|]. destruct (memk k names); auto. }
  destruct (post_spec c single d2 E1) as (e & -> & He).
  { intros Hs k r Hk. specialize (H1 Hs). rewrite HD in Hk. destruct (memk k ks); [|destruct (memk k names); [|discriminate]]; injection Hk as <-; intros E; apply (f_equal (@length _)) in E; [rewrite map_length in E|unfold default_value in E; rewrite repeat_length in E]; cbn in E; lia. }
  exists e. split; auto. intros k. rewrite He, HD. split; [|split].
  - intros Hk. apply memk_In in Hk. rewrite Hk. unfold finish. split; [intros ->; now rewrite map_map|]. intros x -> ->. reflexivity.
  - intros Hk Hn. assert (memk k ks = false) by (destruct (memk k ks) eqn:E; auto; apply memk_In in E; contradiction). apply memk_In in Hn. rewrite H, Hn. unfold finish, default_value. split.
    + intros ->. now rewrite map_repeat, fix_nan_inf.
    + intros -> ->. cbn [repeat]. now rewrite fix_nan_inf.
  - intros Hk Hn. assert (memk k ks = false) by (destruct (memk k ks) eqn:E; auto; apply memk_In in E; contradiction). assert (memk k names = false) by (destruct (memk k names) eqn:E; auto; apply memk_In in E; contradiction). now rewrite H, H0.
Qed.

(** ** elementwise *)
Definition value_of (k : string) (e : list (string * list flt)) : list flt := match dget e k with Some v => v | None => [] end.
Lemma append_elem (e : list (string * list flt)) : forall out, NoDup (map fst e) ->
  forall k, dget (fold_left append_value e out) k = match dget e k with Some v => Some (Some ((match dget out k with Some (Some l) => l | _ => [] end) ++ [v])) | None => dget out k end.
Proof.
  induction e as [|[n v] e IH]; intros out HN k; cbn [fold_left dget]; auto. inversion HN; subst. rewrite IH by auto. unfold append_value at 1 2. cbn [fst snd]. rewrite !dget_dset.
  destruct (String.eqb_spec n k) as [->|Hne]; [|reflexivity]. destruct (dget e k) eqn:E; [exfalso; apply H1; apply dget_In in E; apply (in_map fst) in E; exact E|reflexivity].
Qed.
Lemma append_NoDup (e : list (string * list flt)) : forall out, NoDup (map fst out) -> NoDup (map fst (fold_left append_value e out)).
Proof. induction e as [|kv e IH]; intros out H; cbn; auto. apply IH. unfold append_value. now apply dset_NoDup. Qed.
Lemma collect_spec names elems ks : elems <> [] -> (forall e, In e elems -> NoDup (map fst e) /\ forall k, In k ks <-> In k (map fst e)) ->
  NoDup (map fst (collect names elems)) /\ forall k, dget (collect names elems) k = if memk k ks then Some (Some (map (value_of k) elems)) else if memk k names then Some None else None.
Proof.
  intros Hne HE. unfold collect. set (init := fold_left (fun d n => dset d n None) names []).
  assert (HI : forall k, dget init k = if memk k names then Some None else None) by (intros k; unfold init; rewrite init_dict; reflexivity).
  assert (HN : NoDup (map fst init)) by (apply init_NoDup; constructor).
  assert (HG : forall pre out, NoDup (map fst out) -> (forall e, In e elems -> NoDup (map fst e) /\ forall k, In k ks <-> In k (map fst e)) ->
    (forall k, dget out k = if memk k ks then match pre with [] => if memk k names then Some None else None | _ => Some (Some (map (value_of k) pre)) end else if memk k names then Some None else None) ->
    (pre ++ elems <> []) ->
    NoDup (map fst (fold_left (fun out elem => fold_left append_value elem out) elems out)) /\
    forall k, dget (fold_left (fun out elem => fold_left append_value elem out) elems out) k = if memk k ks then Some (Some (map (value_of k) (pre ++ elems))) else if memk k names then Some None else None).
  { clear HN HI init HE Hne. induction elems as [|e elems IH]; intros pre out HN HE HO Hne; cbn [fold_left].
    - rewrite app_nil_r in *. split; auto. intros k. rewrite HO. destruct pre; [congruence|reflexivity].
    - destruct (HE e ltac:(cbn; auto)) as [HNe HKe].
      assert (HA : pre ++ e :: elems = (pre ++ [e]) ++ elems) by now rewrite <- app_assoc. rewrite HA. apply IH; [now apply append_NoDup|intros e' He'; apply HE; cbn; auto| |rewrite <- HA; auto].
      intros k. rewrite append_elem by auto. destruct (memk k ks) eqn:E.
      + apply memk_In in E as E'. apply HKe in E'. destruct (dget e k) as [v|] eqn:Ev; [|apply dget_None_key in Ev; contradiction].
        assert (Hv : value_of k e = v) by (unfold value_of; now rewrite Ev). rewrite HO, E. destruct (pre ++ [e]) as [|z l] eqn:EP; [destruct pre; discriminate|]. rewrite <- EP, map_app. cbn [map]. rewrite Hv.
        destruct pre; [destruct (memk k names); reflexivity|reflexivity].
      + destruct (dget e k) as [v|] eqn:Ev; [|now rewrite HO, E]. exfalso. assert (In k ks) by (apply HKe; apply dget_In in Ev; apply (in_map fst) in Ev; exact Ev). apply memk_In in H. congruence. }
  apply (HG [] init HN HE); [|exact Hne]. intros k. rewrite HI. now destruct (memk k ks).
Qed.
Lemma to_arrays_spec (out : list (string * option (list (list flt)))) : NoDup (map fst out) -> (forall k r, dget out k = Some (Some r) -> same_len r = true) ->
  exists o, to_arrays out = Some o /\ map fst o = map fst out /\ forall k, dget o k = match dget out k with Some (Some r) => Some (Some (UArr r)) | Some None => Some None | None => None end.
Proof.
  unfold to_arrays. induction out as [|[n v] out IH]; intros HN HS; cbn [map all_some fst snd]; [exists []; auto|]. inversion HN; subst.
  destruct IH as (o & E & Hk & Ho); auto.
  { intros k r Hk. apply (HS k r). cbn [dget]. destruct (String.eqb_spec n k) as [->|Hne]; auto. exfalso. apply H1. apply dget_In in Hk. apply (in_map fst) in Hk. exact Hk. }
  destruct v as [r|].
  - assert (Hr : same_len r = true) by (apply (HS n r); cbn [dget]; now rewrite String.eqb_refl). rewrite Hr. cbn [all_some]. rewrite E. cbn [option_map]. exists ((n, Some (UArr r)) :: o). split; auto. split; [cbn; congruence|].
    intros k. cbn [dget]. destruct (String.eqb n k); auto.
  - cbn [all_some]. rewrite E. cbn [option_map]. exists ((n, None) :: o). split; auto. split; [cbn; congruence|]. intros k. cbn [dget]. destruct (String.eqb n k); auto.
Qed.
Lemma same_len_ok rows s : Forall (fun r : list flt => length r = s) rows -> same_len rows = true.
Proof. destruct rows as [|r rows]; auto. intros H. inversion H; subst. cbn. apply forallb_forall. intros r' Hr'. rewrite Forall_forall in H3. apply Nat.eqb_eq. auto. Qed.

(** C52: elementwise.  The element function [f] returns for every point a dictionary with the same keys [ks]; the runner returns the results in the order of
    the points (C52_runner) *)
Theorem C52_elementwise : forall (X : Type) c (run : (X -> list (string * list flt)) -> list X -> option (list (list (string * list flt)))) f xs single rv ks sz,
  (forall g ys, run g ys = Some (map g ys)) -> xs <> [] -> (single = true -> length xs = 1) ->
  (forall x, In x xs -> NoDup (map fst (f x)) /\ forall k, In k ks <-> In k (map fst (f x))) ->
  sized c ks sz (fun k x => value_of k (f x)) xs ->
  exists d, evaluate c (elementwise run f) xs single rv = Some d /\
    returns c (match rv with Some n => n | None => default_names c end) ks (fun k x => value_of k (f x)) xs single d.
Proof.
  intros X c run f xs single rv ks sz HR Hne H1 HK HS. set (names := match rv with Some n => n | None => default_names c end).
  assert (HE : forall e, In e (map f xs) -> NoDup (map fst e) /\ forall k, In k ks <-> In k (map fst e)) by (intros e He; apply in_map_iff in He as (x & <- & Hx); auto).
  destruct (collect_spec names (map f xs) ks ltac:(destruct xs; [congruence|discriminate]) HE) as [C1 C2].
  destruct (to_arrays_spec (collect names (map f xs)) C1) as (o & O1 & O2 & O3).
  { intros k r Hk. rewrite C2 in Hk. destruct (memk k ks) eqn:E; [|destruct (memk k names); discriminate]. injection Hk as <-. apply memk_In in E. destruct (HS k E) as [S1 _].
    apply same_len_ok with (s := sz k). rewrite map_map. apply Forall_map, Forall_forall. auto. }
  eapply evaluate_filled with (out := o) (sz := sz); auto; fold names.
  - unfold elementwise. rewrite HR. exact O1.
  - split; [now rewrite O2|]. intros k. rewrite O3, C2. destruct (memk k ks); [now rewrite map_map|]. destruct (memk k names); auto.
Qed.
Print Assumptions C52_elementwise.

(** ** vectorised *)
Lemma vectorized_spec {X} (g : list X -> list (string * uval)) names xs : NoDup (map fst (g xs)) ->
  NoDup (map fst (vectorized g names xs)) /\ forall k, dget (vectorized g names xs) k = match dget (g xs) k with Some v => Some (Some v) | None => if memk k names then Some None else None end.
Proof.
  unfold vectorized. intros HN. set (init := fold_left (fun d n => dset d n None) names []).
  assert (HI : forall k, dget init k = if memk k names then Some None else None) by (intros k; unfold init; rewrite init_dict; reflexivity).
  assert (HIN : NoDup (map fst init)) by (apply init_NoDup; constructor).
  assert (HG : forall l (d : list (string * option uval)), NoDup (map fst l) -> NoDup (map fst d) -> let r := fold_left (fun d kv => dset d (fst kv) (Some (snd kv))) l d in
    NoDup (map fst r) /\ forall k, dget r k = match dget l k with Some v => Some (Some v) | None => dget d k end).
  { induction l as [|[n v] l IH]; intros d H H'; cbn [fold_left dget fst snd]; [auto|]. inversion H as [|? ? H3 H4]; subst. destruct (IH (dset d n (Some v)) H4 (dset_NoDup _ _ _ H')) as [I1 I2]. split; auto.
    intros k. rewrite I2, dget_dset. destruct (String.eqb_spec n k) as [->|Hne]; auto. destruct (dget l k) eqn:E; auto. exfalso. apply H3. apply dget_In in E. apply (in_map fst) in E. exact E. }
  destruct (HG (g xs) init HN HIN) as [G1 G2]. split; auto. intros k. rewrite G2, HI. reflexivity.
Qed.
(** C52: a vectorised problem whose rows are the values [val k x] returns the same as the elementwise problem with these values *)
Theorem C52_vectorized : forall (X : Type) c (g : list X -> list (string * uval)) xs single rv ks sz val, (single = true -> length xs = 1) ->
  NoDup (map fst (g xs)) -> (forall k, dget (g xs) k = if memk k ks then Some (UArr (map (val k) xs)) else None) -> sized c ks sz val xs ->
  exists d, evaluate c (fun n x => Some (vectorized g n x)) xs single rv = Some d /\ returns c (match rv with Some n => n | None => default_names c end) ks val xs single d.
Proof.
  intros X c g xs single rv ks sz val H1 HN HG HS. set (names := match rv with Some n => n | None => default_names c end).
  destruct (vectorized_spec g names xs HN) as [V1 V2]. eapply evaluate_filled with (sz := sz); eauto. fold names. split; auto. intros k. rewrite V2, HG. destruct (memk k ks); auto.
Qed.
Print Assumptions C52_vectorized.

(** C52: a value given as a list of columns means the matrix with these columns *)
Theorem C52_columns : forall c N name s cols, row_size c name = Some s -> length cols = s -> cols <> [] -> Forall (fun col => length col = N) cols ->
  exists rows, fmt_value c N name (UCols cols) = Some rows /\ length rows = N /\ Forall (fun r => length r = s) rows /\
    forall i j, i < N -> j < s -> nth j (nth i rows []) f_nan = nth i (nth j cols []) f_nan.
Proof.
  intros c N name s cols HR HL Hne HF. unfold fmt_value. rewrite HR. unfold transpose. rewrite (same_len_ok cols N HF).
  assert (Hh : length (hd [] cols) = N) by (destruct cols; [congruence|now inversion HF]). rewrite Hh.
  set (rows := map (fun i => map (fun c0 => nth i c0 f_nan) cols) (seq 0 N)). assert (HRow : Forall (fun r => length r = s) rows) by (unfold rows; apply Forall_map, Forall_forall; intros i _; now rewrite map_length).
  assert (HN : length rows = N) by (unfold rows; now rewrite map_length, seq_length). rewrite (concat_len s rows HRow), HN, Nat.eqb_refl. exists rows. split; [f_equal; rewrite <- HN at 1; now apply reshape_concat|]. split; auto. split; auto.
  intros i j Hi Hj. unfold rows. rewrite (nth_indep _ [] ((fun i => map (fun c0 => nth i c0 f_nan) cols) 0)) by (now rewrite map_length, seq_length). rewrite (map_nth (fun i => map (fun c0 => nth i c0 f_nan) cols)), seq_nth by auto. cbn [Nat.add].
  rewrite (nth_indep _ f_nan (nth i [] f_nan)) by (rewrite map_length; lia). apply (map_nth (fun c0 => nth i c0 f_nan)).
Qed.
Print Assumptions C52_columns.

(** C52: the tuple has the requested values in the requested order *)
Theorem C52_tuple : forall names d, (forall n, In n names -> dget d n <> None) -> exists t, as_tuple names d = Some t /\ length t = length names /\ forall i, i < length names -> nth_error t i = dget d (nth i names ""%string).
Proof.
  unfold as_tuple. induction names as [|n names IH]; intros d H; cbn [map all_some]; [exists []; repeat split; auto; intros i Hi; cbn in Hi; lia|].
  destruct (dget d n) as [v|] eqn:E; [|exfalso; apply (H n); cbn; auto]. destruct (IH d ltac:(intros; apply H; cbn; auto)) as (t & -> & Ht & Hn). exists (v :: t). cbn [option_map length]. split; auto. split; [lia|].
  intros [|i] Hi; cbn [nth nth_error]; auto. apply Hn. lia.
Qed.
Print Assumptions C52_tuple.

(** the claim that the shape check catches an element that does not set a value: two points, the first sets two values, the second none *)
Theorem C52_misfit_refuted :
  ~ (forall c (f : nat -> list (string * list flt)) xs d, evaluate c (elementwise (fun g ys => Some (map g ys)) f) xs false None = Some d ->
       forall i x, nth_error xs i = Some x -> exists rows, dget d "F" = Some (RRows rows) /\ (dget (f x) "F" = Some (nth i rows []) \/ (dget (f x) "F" = None /\ nth i rows [] = repeat f_inf (p_obj c)))).
Proof.
  intros H. set (c := {| p_var := 1; p_obj := 1; p_ieq := 0; p_eq := 0; p_nan := None |}). set (f := fun i : nat => match i with 0 => [("F"%string, [fz 1%Z; fz 2%Z])] | _ => [] end).
  destruct (H c f [0; 1] [("F"%string, RRows [[fz 1%Z]; [fz 2%Z]])] ltac:(vm_compute; reflexivity) 1 1 eq_refl) as (rows & E & HH). vm_compute in E. injection E as <-. vm_compute in HH. destruct HH as [HH|[_ HH]]; discriminate.
Qed.
Print Assumptions C52_misfit_refuted.

Example C52_case : let c := {| p_var := 1; p_obj := 2; p_ieq := 1; p_eq := 0; p_nan := Some f_inf |} in
  let f := fun x : nat => [("F"%string, [fz 1%Z; if x =? 0 then f_nan else fz 5%Z])] in
  sized c ["F"%string] (fun _ => 2) (fun k x => value_of k (f x)) [0; 1] /\
  evaluate c (elementwise (runner [1; 0]) f) [0; 1] false None = Some [("F"%string, RRows [[fz 1%Z; f_inf]; [fz 1%Z; fz 5%Z]]); ("G"%string, RRows [[f_inf]; [f_inf]])] /\
  evaluate c (elementwise (runner [0]) f) [1] true None = Some [("F"%string, RRow [fz 1%Z; fz 5%Z]); ("G"%string, RRow [f_inf])].
Proof.
  split; [|split; vm_compute; reflexivity]. intros k [<-|[]]. split; [intros x [<-|[<-|[]]]; reflexivity|]. intros s E. vm_compute in E. now injection E as <-.
Qed.
