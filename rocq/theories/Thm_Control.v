(** * C119: what parameter control records *)
From Coq Require Import String List Arith Bool ZArith QArith Lia.
From Verif Require Import ListAux P_Perm P_Cross M_Params P_Params M_Mixed S_Mixed M_Control.
Import ListNotations.
Local Open Scope nat_scope.

(** ** specification *)
(** the value which the array of a parameter holds for number k *)
Definition value (vals : pvals) (name : string) (k : nat) : mval := match dget vals name with Some l => nth k l dval | None => dval end.
(** an array of n values for every parameter *)
Definition arrays (ps : vars) (n : nat) (vals : pvals) : Prop := map fst vals = map fst ps /\ Forall (fun kv => length (snd kv) = n) vals.

Lemma np_repeat_length {A} (l : list A) o : length (np_repeat l o) = length l * o.
Proof. unfold np_repeat. induction l as [|x l IH]; auto. cbn [flat_map length]. rewrite app_length, repeat_length, IH. lia. Qed.
Lemma nth_np_repeat {A} (l : list A) o d : 0 < o -> forall p, nth p (np_repeat l o) d = nth (p / o) l d.
Proof.
  intros Ho. induction l as [|x l IH]; intros p.
  - unfold np_repeat. cbn [flat_map]. destruct p; destruct (_ / o); reflexivity.
  - unfold np_repeat in *. cbn [flat_map]. destruct (Nat.lt_ge_cases p o) as [H|H].
    + rewrite app_nth1 by (rewrite repeat_length; auto). rewrite Nat.div_small by auto. cbn [nth]. destruct (nth_in_or_default p (repeat x o) d) as [E|E].
      * apply repeat_spec in E. auto.
      * rewrite (nth_indep _ d x) in * by (rewrite repeat_length; auto). apply nth_repeat.
    + rewrite app_nth2 by (rewrite repeat_length; auto). rewrite repeat_length, IH. replace (p / o) with (S ((p - o) / o)); auto.
      replace p with (p - o + 1 * o) at 2 by lia. rewrite Nat.div_add by lia. lia.
Qed.
Lemma children_length {A} o (cross_op : dict -> nat -> nat -> A) vals n : length (children o cross_op vals n) = o * n.
Proof. unfold children. rewrite (flat_map_length_const _ _ n) by (intros; now rewrite map_length, seq_length). now rewrite seq_length. Qed.
Lemma nth_children {A} (a0 : A) o cross_op vals n i k : i < o -> k < n -> nth (i * n + k) (children o cross_op vals n) a0 = cross_op (row vals k) i k.
Proof.
  intros Hi Hk. unfold children. rewrite (flat_map_nth _ o n 0 i k) by (auto; intros; now rewrite map_length, seq_length). cbn [Nat.add]. now rewrite nth_map_seq0 by auto.
Qed.
Lemma dget_map_snd {V W} (f : V -> W) (d : list (string * V)) name : dget (map (fun kv => (fst kv, f (snd kv))) d) name = option_map f (dget d name).
Proof. induction d as [|[k v] d IH]; auto. cbn [map dget fst snd]. destruct (String.eqb k name); auto. Qed.

(** ** [advance] *)
Definition advance_one {A} (vals : pvals) (infills : option (list (A * dict))) (kv : string * mvar) : option (list (A * dict)) :=
  match infills, dget vals (fst kv) with
  | Some infills, Some v => if length v =? length infills then Some (map2 (fun x v => (fst x, dset (snd x) (fst kv) v)) infills v) else None
  | _, _ => None
  end.
Lemma advance_spec {A} (a : A * dict) (vals : pvals) : forall (ps : vars) (infills : list (A * dict)),
  (forall kv, In kv ps -> exists v, dget vals (fst kv) = Some v /\ length v = length infills) ->
  exists out, fold_left (advance_one vals) ps (Some infills) = Some out /\ length out = length infills /\
    forall p, p < length infills -> fst (nth p out a) = fst (nth p infills a) /\
      (forall name, In name (map fst ps) -> dget (snd (nth p out a)) name = Some (value vals name p)) /\
      (forall name, ~ In name (map fst ps) -> dget (snd (nth p out a)) name = dget (snd (nth p infills a)) name).
Proof.
  induction ps as [|kv ps IH]; intros infills H.
  - exists infills. cbn. repeat split; auto. intros name [].
  - cbn [fold_left]. destruct (H kv (or_introl eq_refl)) as (v & Ev & Lv). unfold advance_one at 2. rewrite Ev, Lv, Nat.eqb_refl.
    set (st := map2 (fun x v => (fst x, dset (snd x) (fst kv) v)) infills v).
    assert (Lst : length st = length infills) by (unfold st; rewrite length_map2; lia).
    assert (Nst : forall p, p < length infills -> nth p st a = (fst (nth p infills a), dset (snd (nth p infills a)) (fst kv) (nth p v dval))).
    { intros p Hp. unfold st. now rewrite (nth_map2 _ _ _ _ a a dval) by lia. }
    destruct (IH st) as (out & Eo & Lo & Ho).
    { intros kv' Hin. destruct (H kv' (or_intror Hin)) as (w & Ew & Lw). exists w. split; auto. lia. }
    exists out. split; auto. split; [lia|]. intros p Hp. rewrite Lst in Ho. destruct (Ho p Hp) as (H1 & H2 & H3). rewrite Nst in * by auto. cbn [fst snd] in *.
    split; auto. split.
    + intros name Hn. destruct (in_dec string_dec name (map fst ps)) as [Hi|Hi]; auto. destruct Hn as [<-|Hn]; [|contradiction].
      rewrite H3 by auto. rewrite dget_dset, String.eqb_refl. unfold value. now rewrite Ev.
    + intros name Hn. rewrite H3 by (intros C; apply Hn; right; auto). rewrite dget_dset. destruct (String.eqb_spec (fst kv) name) as [C|_]; auto. exfalso. apply Hn. left. auto.
Qed.
Lemma arrays_get ps n vals name : arrays ps n vals -> In name (map fst ps) -> exists l, dget vals name = Some l /\ length l = n.
Proof.
  intros [EK HL] Hn. destruct (dget vals name) as [l|] eqn:E.
  - exists l. split; auto. apply dget_In in E. rewrite Forall_forall in HL. apply (HL _ E).
  - exfalso. apply dget_None_key in E. rewrite EK in E. contradiction.
Qed.

Section Recorded.
  Context {A : Type}.
  Variables (a0 : A) (o : nat) (cross_op : dict -> nat -> nat -> A) (mut_op : dict -> nat -> A -> A).
  Hypothesis Ho : 0 < o.
  Lemma row_repeat vals p : row (map (fun kv => (fst kv, np_repeat (snd kv) o)) vals) p = row vals (p / o).
  Proof. unfold row. rewrite map_map. apply map_ext. intros kv. cbn [fst snd]. now rewrite nth_np_repeat. Qed.
  Lemma recorded ps vals n : arrays ps n vals ->
    exists off, control_mating a0 o cross_op mut_op ps vals n = Some off /\ length off = o * n /\
      forall i k, i < o -> k < n -> let p := i * n + k in
        fst (nth p off (a0, [])) = mut_op (row vals (p / o)) p (cross_op (row vals k) i k) /\
        forall name, In name (map fst ps) -> dget (snd (nth p off (a0, []))) name = Some (value vals name (p / o)).
  Proof.
    intros HA. unfold control_mating. set (off := map (fun x => (x, [])) _).
    assert (Loff : length off = o * n) by (unfold off; now rewrite !map_length, seq_length, children_length).
    destruct (advance_spec (a0, []) (map (fun kv => (fst kv, np_repeat (snd kv) o)) vals) ps off) as (out & Eo & Lo & H).
    { intros kv Hkv. destruct (arrays_get ps n vals (fst kv) HA (in_map fst _ _ Hkv)) as (l & El & Ll). exists (np_repeat l o).
      rewrite (dget_map_snd (fun l => np_repeat l o)), El. split; auto. rewrite np_repeat_length, Loff. lia. }
    exists out. split; [exact Eo|]. split; [lia|]. intros i k Hi Hk. set (p := i * n + k). assert (Hp : p < o * n) by (unfold p; nia). rewrite Loff in H. destruct (H p Hp) as (H1 & H2 & _). split.
    - rewrite H1. unfold off. rewrite map_map. rewrite nth_map_seq0 by (rewrite children_length; auto). cbn [fst]. rewrite row_repeat. unfold p. now rewrite nth_children by auto.
    - intros name Hn. rewrite (H2 name Hn). unfold value. rewrite (dget_map_snd (fun l => np_repeat l o)). destruct (arrays_get ps n vals name HA Hn) as (l & -> & _). cbn [option_map]. now rewrite nth_np_repeat.
  Qed.
End Recorded.

(** C119: ParameterControlMating: the offspring at position p = i * n + k is child i of mating k; the crossover used value number k of every parameter, the mutation and the record use number p / o *)
Theorem C119_recorded : forall {A} (a0 : A) o cross_op mut_op ps vals n, 0 < o -> arrays ps n vals ->
  exists off, control_mating a0 o cross_op mut_op ps vals n = Some off /\ length off = o * n /\
    forall i k, i < o -> k < n -> let p := i * n + k in
      fst (nth p off (a0, [])) = mut_op (row vals (p / o)) p (cross_op (row vals k) i k) /\
      forall name, In name (map fst ps) -> dget (snd (nth p off (a0, []))) name = Some (value vals name (p / o)).
Proof. intros A a0 o cross_op mut_op ps vals n Ho HA. now apply recorded. Qed.

(** what is recorded for child i of mating k is what its crossover used *)
Definition credited {A} (a0 : A) o cross_op mut_op (ps : vars) n name i k : Prop :=
  forall vals off, arrays ps n vals -> control_mating a0 o cross_op mut_op ps vals n = Some off -> dget (snd (nth (i * n + k) off (a0, []))) name = Some (value vals name k).
Definition numbered (ps : vars) n : pvals := map (fun kv => (fst kv, map (fun k => VInt (Z.of_nat k)) (seq 0 n))) ps.
Lemma numbered_arrays ps n : arrays ps n (numbered ps n).
Proof.
  unfold arrays, numbered. rewrite map_map. split; auto. apply Forall_forall. intros kv H. apply in_map_iff in H as (x & <- & _). cbn. now rewrite map_length, seq_length.
Qed.
Lemma numbered_get ps n name : In name (map fst ps) -> dget (numbered ps n) name = Some (map (fun k => VInt (Z.of_nat k)) (seq 0 n)).
Proof.
  unfold numbered. induction ps as [|kv ps IH]; intros H; [destruct H|]. cbn [map dget fst]. destruct (String.eqb_spec (fst kv) name) as [_|C]; auto. destruct H as [H|H]; [contradiction|auto].
Qed.
Lemma numbered_value ps n name k : In name (map fst ps) -> k < n -> value (numbered ps n) name k = VInt (Z.of_nat k).
Proof. intros Hn Hk. unfold value. rewrite numbered_get by auto. now rewrite nth_map_seq0. Qed.
(** C119: ... so it is what the crossover used, for all values, exactly at the positions with p / o = k ... *)
Theorem C119_credit : forall {A} (a0 : A) o cross_op mut_op ps n name i k, 0 < o -> In name (map fst ps) -> i < o -> k < n ->
  (credited a0 o cross_op mut_op ps n name i k <-> (i * n + k) / o = k).
Proof.
  intros A a0 o cross_op mut_op ps n name i k Ho Hn Hi Hk. split.
  - intros H. pose proof (numbered_arrays ps n) as HA. destruct (recorded a0 o cross_op mut_op Ho ps _ n HA) as (off & E & _ & HR). specialize (H _ off HA E).
    destruct (HR i k Hi Hk) as [_ HR2]. cbn zeta in HR2. rewrite (HR2 name Hn) in H. rewrite !numbered_value in H; auto; [|apply Nat.div_lt_upper_bound; nia]. injection H. lia.
  - intros E vals off HA EM. destruct (recorded a0 o cross_op mut_op Ho ps vals n HA) as (off' & E' & _ & HR). rewrite E' in EM. injection EM as <-. destruct (HR i k Hi Hk) as [_ HR2]. cbn zeta in HR2. rewrite (HR2 name Hn). now rewrite E.
Qed.
(** C119: ... which with two children per mating are the first and the last offspring only ... *)
Theorem C119_credit_two : forall {A} (a0 : A) cross_op mut_op ps n name i k, In name (map fst ps) -> i < 2 -> k < n ->
  (credited a0 2 cross_op mut_op ps n name i k <-> (i = 0 /\ k = 0) \/ (i = 1 /\ k = n - 1)).
Proof.
  intros A a0 cross_op mut_op ps n name i k Hn Hi Hk. rewrite C119_credit by (auto; lia). pose proof (Nat.div_mod (i * n + k) 2 ltac:(lia)) as D. pose proof (Nat.mod_upper_bound (i * n + k) 2 ltac:(lia)) as M.
  set (q := (i * n + k) / 2) in *. clearbody q. assert (Hi' : i = 0 \/ i = 1) by lia. destruct Hi' as [-> | ->]; lia.
Qed.
(** C119: ... and all of them exactly if there is one child per mating (as in DE and EPPSO) or at most one mating *)
Theorem C119_credit_all : forall {A} (a0 : A) o cross_op mut_op ps n name, 0 < o -> In name (map fst ps) ->
  ((forall i k, i < o -> k < n -> credited a0 o cross_op mut_op ps n name i k) <-> o = 1 \/ n <= 1).
Proof.
  intros A a0 o cross_op mut_op ps n name Ho Hn. split.
  - intros H. destruct (Nat.le_gt_cases n 1) as [C|C]; auto. left. specialize (H 0 (n - 1) Ho ltac:(lia)). rewrite C119_credit in H by (auto; lia). cbn [Nat.mul Nat.add] in H.
    destruct (Nat.eq_dec o 1) as [->|Co]; auto. pose proof (Nat.div_lt (n - 1) o ltac:(lia) ltac:(lia)). lia.
  - intros H i k Hi Hk. rewrite C119_credit by auto. destruct H as [->|H].
    + assert (i = 0) as -> by lia. cbn [Nat.mul Nat.add]. apply Nat.div_1_r.
    + assert (k = 0) as -> by lia. apply Nat.div_small. nia.
Qed.
(** C119: the number of offspring suffices, with fewer than o too many *)
Theorem C119_enough : forall n_offsprings o, 0 < o -> n_offsprings <= o * matings n_offsprings o < n_offsprings + o.
Proof.
  intros n o Ho. unfold matings. pose proof (Nat.div_mod (n + (o - 1)) o ltac:(lia)). pose proof (Nat.mod_upper_bound (n + (o - 1)) o ltac:(lia)). nia.
Qed.
(** C119: without control nothing is recorded and the operators see no parameter arrays *)
Theorem C119_none : forall {A} (a0 : A) o cross_op mut_op n_offsprings, 0 < o ->
  exists off, plain_mating a0 o cross_op mut_op n_offsprings = Some off /\ (forall x, In x off -> snd x = []) /\
    forall i k, i < o -> k < matings n_offsprings o -> fst (nth (i * matings n_offsprings o + k) off (a0, [])) = mut_op [] (i * matings n_offsprings o + k) (cross_op [] i k).
Proof.
  intros A a0 o cross_op mut_op n_offsprings Ho. set (n := matings n_offsprings o).
  assert (HA : arrays [] n no_control) by (split; auto; constructor). destruct (recorded a0 o cross_op mut_op Ho [] no_control n HA) as (off & E & _ & HR). exists off. split; auto. split.
  - unfold control_mating, advance in E. cbn [fold_left] in E. injection E as <-. intros x Hx. apply in_map_iff in Hx as (y & <- & _). auto.
  - intros i k Hi Hk. destruct (HR i k Hi Hk) as [H _]. exact H.
Qed.
(** C119 (refuted): the run is not determined by the random state given to the mating: the parameters are drawn from another generator *)
Theorem C119_seed_refuted : exists (cross_op : dict -> nat -> nat -> dict) mut_op ps random_state fresh1 fresh2,
  random_mating [] 1 cross_op mut_op ps 1 random_state fresh1 <> random_mating [] 1 cross_op mut_op ps 1 random_state fresh2.
Proof.
  exists (fun vals _ _ => vals), (fun _ _ x => x), [("prob"%string, MReal 0 1)], {| p_u := fun _ _ => 0%Q; p_j := fun _ _ => 0 |}, {| p_u := fun _ _ => 0%Q; p_j := fun _ _ => 0 |}, {| p_u := fun _ _ => (1 # 2)%Q; p_j := fun _ _ => 0 |}.
  intros C. vm_compute in C. discriminate C.
Qed.
