From Coq Require Import String List Arith Bool ZArith QArith Lia Lqa Permutation.
From Verif Require Import ListAux M_Params P_Params M_Bounds S_Bounds P_Bounds Thm_Bounds M_Cross P_Perm P_Cross Thm_Cross M_Mixed S_Mixed Thm_Mixed.
Import ListNotations.
Local Open Scope nat_scope.

(** ** the options of a Choice *)
Lemma py_eq_refl o : py_eq o o = true.
Proof. destruct o; cbn; auto using eqb_reflx, Z.eqb_refl, String.eqb_refl. Qed.
Lemma asarray_eq options o : one_kind options -> In o options -> py_eq (asarray options o) o = true.
Proof.
  intros H Ho. unfold asarray. destruct (existsb is_none options) eqn:EN; [apply py_eq_refl|]. destruct H as [H|[H|H]].
  - replace (existsb is_str options) with true by (symmetry; apply existsb_exists; exists o; auto). specialize (H o Ho). destruct o; try discriminate. cbn. apply String.eqb_refl.
  - replace (existsb is_str options) with false by (symmetry; apply not_true_is_false; intros C; apply existsb_exists in C as (x & Hx & C); rewrite (H x Hx) in C; discriminate).
    destruct (existsb is_int options); [|apply py_eq_refl]. destruct o; cbn; auto using Z.eqb_refl, String.eqb_refl.
  - exfalso. assert (C : existsb is_none options = true) by (apply existsb_exists; exists PNone; auto). congruence.
Qed.

(** ** values before rounding *)
Definition pre (c : vclass) (kv : string * mvar) (x : mval) : Prop :=
  match c with KInteger => exists lb ub, snd kv = MInteger lb ub /\ (inject_Z lb <= num x <= inject_Z ub)%Q | _ => in_dom (snd kv) x end.
Lemma in_dom_pre c kv x : class_of (snd kv) = c -> in_dom (snd kv) x -> pre c kv x.
Proof.
  intros HC H. destruct c; auto. destruct (snd kv) as [|lb ub| |] eqn:E; try discriminate. cbn in H. destruct H as (z & -> & H1 & H2). exists lb, ub. cbn [num]. rewrite E. split; auto. rewrite <- !Zle_Qle. auto.
Qed.
Lemma bounded_pre c kv q : class_of (snd kv) = c -> var_ok (snd kv) -> (c = KReal \/ c = KInteger) -> pre c kv (bounded (snd kv) q).
Proof.
  intros HC HV Hc. destruct (snd kv) as [lb ub|lb ub| |] eqn:E; cbn in HC; subst c; [| |destruct Hc; discriminate|destruct Hc; discriminate]; cbn [pre var_ok bounded] in *.
  - rewrite E. cbn [bounded]. exists (to_bounds q lb ub). split; auto. destruct (C26_repairs q lb ub) as (_ & _ & H & _). destruct (H HV) as [[? ?] _]. split; auto.
  - exists lb, ub. split; auto. cbn [num]. destruct (C26_repairs q (inject_Z lb) (inject_Z ub)) as (_ & _ & H & _). rewrite Zle_Qle in HV. destruct (H HV) as [[? ?] _]. split; auto.
Qed.
Lemma post_spec c g row : Forall2 (pre c) g row -> Forall2 (fun kv x => in_dom (snd kv) x) g (post c row).
Proof.
  intros H. destruct c; auto. cbn [post]. induction H as [|kv x g row (lb & ub & E & H1) _ IH]; cbn [map]; constructor; auto. rewrite E. exists (around (num x)). split; auto. apply C28_rounding. split; apply H1.
Qed.
Lemma F2_of_nth {A B} (R : A -> B -> Prop) da db l m : length l = length m -> (forall i, i < length l -> R (nth i l da) (nth i m db)) -> Forall2 R l m.
Proof.
  revert m. induction l as [|a l IH]; intros [|b m] HL H; try discriminate; constructor; [apply (H 0); simpl; lia|]. apply IH; [simpl in HL; lia|]. intros i Hi. apply (H (S i)). simpl. lia.
Qed.
Lemma F2_nth' {A B} (R : A -> B -> Prop) da db l m i : Forall2 R l m -> i < length l -> R (nth i l da) (nth i m db).
Proof. intros H. revert i. induction H; intros i Hi; simpl in Hi; [lia|]. destruct i; cbn [nth]; auto. apply IHForall2. lia. Qed.
Lemma F2_len {A B} (R : A -> B -> Prop) l m : Forall2 R l m -> length l = length m.
Proof. intros H. induction H; simpl; auto. Qed.
Lemma F2_impl_In {A B} (R R' : A -> B -> Prop) l m : (forall a b, In a l -> R a b -> R' a b) -> Forall2 R l m -> Forall2 R' l m.
Proof. intros H HF. induction HF; constructor; [apply H; simpl; auto|]. apply IHHF. intros. apply H; simpl; auto. Qed.

Lemma mask_dom {V} (R : (string * mvar) -> V -> Prop) (d : V) g p0 p1 M : Forall2 R g p0 -> Forall2 R g p1 ->
  Forall2 R g (fst (crossover_mask d p0 p1 M)) /\ Forall2 R g (snd (crossover_mask d p0 p1 M)).
Proof.
  intros H0 H1. pose proof (F2_len _ _ _ H0) as L0. pose proof (F2_len _ _ _ H1) as L1. unfold crossover_mask. cbn [fst snd]. split; apply (F2_of_nth _ dvar d); rewrite ?masked_length; auto; intros i Hi.
  - rewrite masked_nth by lia. destruct (nth i M false); apply F2_nth'; auto.
  - rewrite masked_nth by lia. destruct (nth i M false); apply F2_nth'; auto.
Qed.
Lemma crossover_do_In {A} (d : A) np no X cross Qo choice perms x : In x (crossover_do d np no X cross Qo choice perms) ->
  exists o k, o < no /\ k < length X /\ x = if nth k cross false then Qo o k else nth (nth o (parent_idx np no (choice k) (perms k)) 0) (nth k X []) d.
Proof.
  unfold crossover_do. intros H. apply in_flat_map in H as (o & Ho & H). apply in_map_iff in H as (k & <- & Hk). apply in_seq in Ho. apply in_seq in Hk. exists o, k. split; [lia|]. split; [lia|]. reflexivity.
Qed.
Lemma crossover_do_length {A} (d : A) np no X cross Qo choice perms : length (crossover_do d np no X cross Qo choice perms) = no * length X.
Proof.
  unfold crossover_do. rewrite <- (seq_length no 0) at 2. induction (seq 0 no) as [|o l IH]; cbn [flat_map]; [reflexivity|]. rewrite app_length, map_length, seq_length, IH. reflexivity.
Qed.
(** C84: the default crossovers ... *)
Lemma cross_default_ok : forall rs, cross_ok (cross_default rs).
Proof.
  intros rs c g X Hg HX. unfold cross_default. rewrite map_length, crossover_do_length. split; [lia|]. unfold rows_in. rewrite Forall_forall. intros row Hr. apply in_map_iff in Hr as (x & <- & Hx).
  apply crossover_do_In in Hx as (o & k & Ho & Hk & ->). apply post_spec. rewrite Forall_forall in Hg, HX.
  destruct (HX (nth k X []) (nth_In _ _ Hk)) as [L2 HR]. unfold rows_in in HR. rewrite Forall_forall in HR.
  assert (HP : forall i, i < 2 -> Forall2 (fun kv x => in_dom (snd kv) x) g (nth i (nth k X []) [])) by (intros i Hi; apply HR, nth_In; lia).
  assert (HP' : forall i, i < 2 -> Forall2 (pre c) g (nth i (nth k X []) [])).
  { intros i Hi. eapply F2_impl_In; [|apply HP; auto]. intros kv x Hkv. apply in_dom_pre, Hg; auto. }
  match goal with |- Forall2 _ _ (if ?b then _ else _) => destruct b end.
  - unfold cross_child. assert (HNum : c = KReal \/ c = KInteger -> Forall2 (pre c) g (map (fun i => bounded (snd (nth i g dvar)) (y_ (rs g) o k i)) (seq 0 (length g)))).
    { intros Hc. apply (F2_of_nth _ dvar dval); [now rewrite map_length, seq_length|]. intros i Hi. rewrite (nth_map_seq0 _ (length g)) by auto. destruct (Hg (nth i g dvar) (nth_In _ _ Hi)). apply bounded_pre; auto. }
    destruct c; try (apply HNum; auto; fail).
    + destruct (mask_dom _ dval g _ _ (map (mask (rs g) k) (seq 0 (length g))) (HP' 0 ltac:(lia)) (HP' 1 ltac:(lia))) as [M1 M2]. unfold crossover_mask in *. destruct (o =? 0); auto.
    + destruct (mask_dom _ dval g _ _ (map (mask (rs g) k) (seq 0 (length g))) (HP' 0 ltac:(lia)) (HP' 1 ltac:(lia))) as [M1 M2]. unfold crossover_mask in *. destruct (o =? 0); auto.
  - apply HP'. unfold parent_idx. cbn [Nat.ltb Nat.leb Nat.eqb]. change (seq 0 2) with [0; 1]. destruct o as [|[|o]]; cbn; lia.
Qed.
(** ... and mutations keep every value in the domain of its variable *)
Lemma mut_default_ok : forall rs, picks_ok rs -> mut_ok (mut_default rs).
Proof.
  intros rs HP c g rows Hg HX. unfold mut_default. rewrite map_length, seq_length. split; auto. unfold rows_in in *. rewrite Forall_forall in *. intros row Hr. apply in_map_iff in Hr as (k & <- & Hk). apply in_seq in Hk.
  apply post_spec. assert (HR := HX (nth k rows []) (nth_In rows [] (proj2 Hk))). pose proof (F2_len _ _ _ HR) as HL. destruct (mutated (rs g) k).
  - apply (F2_of_nth _ dvar dval); [rewrite map_length, seq_length; auto|]. intros i Hi. rewrite (nth_map_seq0 _ (length (nth k rows []))) by lia. destruct (Hg (nth i g dvar) (nth_In _ _ Hi)) as [E1 E2]. pose proof (F2_nth' _ dvar dval _ _ i HR Hi) as HD. cbn beta in HD.
    unfold mut_entry. destruct c.
    + apply bounded_pre; auto.
    + apply bounded_pre; auto.
    + destruct (flip (rs g) k i); [|apply in_dom_pre; auto]. cbn [pre]. destruct (snd (nth i g dvar)); try discriminate. destruct HD as (b & ->). eexists; eauto.
    + destruct (pick (rs g) k i) as [j|] eqn:Ej; [|apply in_dom_pre; auto]. destruct (snd (nth i g dvar)) as [| | |options] eqn:Eo; try discriminate. cbn [pre]. rewrite Eo. pose proof (HP g k i j options Ej Eo) as Hj.
      eexists _, (nth j options PNone). split; [reflexivity|]. split; [now apply nth_In|]. apply asarray_eq; [apply E2|now apply nth_In].
  - eapply F2_impl_In; [|exact HR]. intros kv x Hkv. apply in_dom_pre, Hg; auto.
Qed.

(** C84: math.ceil(n / 2) matings are enough, and no mating is superfluous *)
Theorem C84_n_matings : forall n, n <= 2 * n_matings n /\ 2 * n_matings n <= n + 1.
Proof. intros n. unfold n_matings. pose proof (Nat.div_mod (n + 1) 2 ltac:(lia)). pose proof (Nat.mod_upper_bound (n + 1) 2 ltac:(lia)). lia. Qed.
(** C84: the default mating of the mixed-variable algorithm *)
Theorem C84_default : forall rs vs parents n, vars_ok vs -> picks_ok rs -> length parents = n_matings n ->
  (forall mating, In mating parents -> length mating = 2 /\ forall X, In X mating -> covers vs X) ->
  exists off, mixed_mating (cross_default rs) (mut_default rs) vs parents n = Some off /\ length off = n /\ forall X, In X off -> exactly vs X.
Proof.
  intros rs vs parents n HV HP HL HM. apply C84_mating; auto using cross_default_ok, mut_default_ok. rewrite HL. apply C84_n_matings.
Qed.

(** C84: sampling *)
Lemma dget_map_nth (f : nat -> mval) (vs : vars) : forall is_, NoDup (map (fun i => fst (nth i vs dvar)) is_) -> forall i, In i is_ ->
  dget (map (fun i => (fst (nth i vs dvar), f i)) is_) (fst (nth i vs dvar)) = Some (f i).
Proof.
  induction is_ as [|j l IH]; intros HN i Hi; [destruct Hi|]. cbn [map dget]. inversion HN as [|? ? N1 N2]; subst. destruct Hi as [->|Hi].
  - now rewrite String.eqb_refl.
  - destruct (String.eqb_spec (fst (nth j vs dvar)) (fst (nth i vs dvar))) as [C|_]; auto. exfalso. apply N1. rewrite C. apply in_map_iff. exists i. auto.
Qed.
Lemma map_fst_nth (vs : vars) : map (fun i => fst (nth i vs dvar)) (seq 0 (length vs)) = map fst vs.
Proof.
  apply (nth_ext _ _ ""%string ""%string); rewrite !map_length, seq_length; auto. intros i Hi. rewrite (nth_map_seq0 _ (length vs)) by auto. change ""%string with (fst dvar). now rewrite map_nth.
Qed.
Lemma sample_var_in v u j : var_ok v -> (0 <= u < 1)%Q -> match v with MInteger lb ub => (Z.of_nat j < ub + 1 - lb)%Z | MChoice options => j < length options | _ => True end -> in_dom v (sample_var v u j).
Proof.
  intros HV [Hu1 Hu2] Hj. destruct v as [lb ub|lb ub| |options]; cbn [sample_var in_dom var_ok] in *.
  - eexists. split; [reflexivity|]. assert (0 <= u * (ub - lb))%Q by (apply Qmult_le_0_compat; lra). assert (0 <= (1 - u) * (ub - lb))%Q by (apply Qmult_le_0_compat; lra). split; lra.
  - eexists. split; [reflexivity|]. lia.
  - eexists. reflexivity.
  - eexists _, (nth j options PNone). split; [reflexivity|]. split; [now apply nth_In|]. apply asarray_eq; [apply HV|now apply nth_In].
Qed.
Theorem C84_sampling : forall vs n u j, vars_ok vs -> (forall i k, 0 <= u i k < 1)%Q ->
  (forall i k, i < length vs -> match snd (nth i vs dvar) with MInteger lb ub => (Z.of_nat (j i k) < ub + 1 - lb)%Z | MChoice options => j i k < length options | _ => True end) ->
  length (mixed_sampling vs n u j) = n /\ forall X, In X (mixed_sampling vs n u j) -> map fst X = map fst vs /\ exactly vs X.
Proof.
  intros vs n u j [HN HV] Hu Hj. unfold mixed_sampling. split; [now rewrite map_length, seq_length|]. intros X HX. apply in_map_iff in HX as (k & <- & Hk).
  assert (EK : map fst (map (fun i => (fst (nth i vs dvar), sample_var (snd (nth i vs dvar)) (u i k) (j i k))) (seq 0 (length vs))) = map fst vs) by (rewrite map_map; cbn [fst]; apply map_fst_nth).
  split; auto. split; [rewrite EK; auto|]. intros kv Hkv. apply (In_nth _ _ dvar) in Hkv as (i & Hi & <-). exists (sample_var (snd (nth i vs dvar)) (u i k) (j i k)).
  split; [apply (dget_map_nth (fun i => sample_var (snd (nth i vs dvar)) (u i k) (j i k)) vs); [rewrite map_fst_nth; auto|apply in_seq; lia]|]. apply sample_var_in; [rewrite Forall_forall in HV; apply HV, nth_In; auto|apply Hu|apply Hj; auto].
Qed.
(** C84 (refuted without the hypothesis on the kinds): a Choice over strings and numbers produces a value which is none of its options *)
Theorem C84_choice_refuted : exists options u j, options <> [] /\ j < length options /\ ~ one_kind options /\ ~ in_dom (MChoice options) (sample_var (MChoice options) u j).
Proof.
  exists [PS "a"; PI 1], 0%Q, 1. split; [discriminate|]. split; [simpl; lia|]. split.
  - intros [H|[H|H]]; [specialize (H (PI 1)); discriminate H; cbn; auto|specialize (H (PS "a")); discriminate H; cbn; auto|cbn in H; intuition discriminate].
  - cbn. intros (o' & o & [= <-] & [<-|[<-|[]]] & H); vm_compute in H; discriminate.
Qed.

(** C84: the names of an offspring are in the order of the types, not in the order of the problem *)
Theorem C84_order_refuted : exists rs vs parents off, vars_ok vs /\ picks_ok rs /\ length parents = n_matings 1 /\
  (forall mating, In mating parents -> length mating = 2 /\ forall X, In X mating -> covers vs X) /\
  mixed_mating (cross_default rs) (mut_default rs) vs parents 1 = Some off /\ map (map fst) off <> [map fst vs].
Proof.
  set (vs := [("a"%string, MReal 0 1); ("b"%string, MBinary); ("c"%string, MReal 2 3)]).
  set (X := [("a"%string, VNum (1 # 2)); ("b"%string, VBool true); ("c"%string, VNum 2)]).
  exists (fun _ => {| crossed := fun _ => false; mask := fun _ _ => false; y_ := fun _ _ _ => 0%Q; mutated := fun _ => false; z_ := fun _ _ => 0%Q; flip := fun _ _ => false; pick := fun _ _ => None |}), vs, [[X; X]].
  eexists. split; [|split; [|split; [|split; [|split; [vm_compute; reflexivity|vm_compute; discriminate]]]]].
  - split; [cbn; repeat constructor; cbn; intuition discriminate|]. repeat constructor; cbn; lra.
  - intros g k i j options H. discriminate H.
  - reflexivity.
  - intros mt [<-|[]]. split; auto. intros Y HY. assert (Y = X) as -> by (destruct HY as [<-|[<-|[]]]; auto). intros kv [<-|[<-|[<-|[]]]]; cbn; eexists; (split; [reflexivity|]); eexists; split; auto; lra.
Qed.
