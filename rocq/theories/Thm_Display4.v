(** * C115: outputs on the heap, the progress bar *)
From Coq Require Import Ascii String List Arith Bool ZArith QArith Qround Qabs Lia Lqa.
From Verif Require Import S_Display M_Display.
Import ListNotations.
Local Open Scope list_scope.

Lemma set_nth_len {A} (l : list A) : forall k v, List.length (set_nth l k v) = List.length l.
Proof. induction l as [|x l IH]; intros [|k] v; cbn; auto. Qed.
Lemma set_nth_eq {A} (l : list A) : forall k v, (k < List.length l)%nat -> nth_error (set_nth l k v) k = Some v.
Proof. induction l as [|x l IH]; intros [|k] v H; cbn in *; try lia; auto. apply IH. lia. Qed.
Lemma set_nth_neq {A} (l : list A) : forall k j v, j <> k -> nth_error (set_nth l k v) j = nth_error l j.
Proof. induction l as [|x l IH]; intros [|k] [|j] v H; cbn in *; try lia; auto. Qed.
Lemma nth_of_error {A} (l : list A) k d : nth k l d = match nth_error l k with Some x => x | None => d end.
Proof. revert k; induction l as [|x l IH]; intros [|k]; cbn; auto. Qed.
Lemma nth_set_eq {A} (l : list A) k v d : (k < List.length l)%nat -> nth k (set_nth l k v) d = v.
Proof. intros H. now rewrite nth_of_error, set_nth_eq. Qed.
Lemma nth_set_neq {A} (l : list A) k j v d : j <> k -> nth j (set_nth l k v) d = nth j l d.
Proof. intros H. now rewrite !nth_of_error, set_nth_neq. Qed.
Lemma nth_app_l {A} (l l' : list A) k d : (k < List.length l)%nat -> nth k (l ++ l') d = nth k l d.
Proof. intros. now apply app_nth1. Qed.

Section World.
  Variable added : pinfo -> list colspec.
  Notation step := (do_op added).
  Notation run := (do_ops added).
  Lemma run_app w a b : run w (a ++ b) = run (run w a) b.
  Proof. apply fold_left_app. Qed.
  Lemma run_cons w o b : run w (o :: b) = run (step w o) b.
  Proof. reflexivity. Qed.

  (** objects used by an operation exist, and setup() is not given the output object [c] *)
  Definition allowed (c : nat) (w : world) (o : op) : Prop :=
    match o with
    | Setup _ _ _ (Some k) => (k < List.length (w_outputs w))%nat /\ k <> c
    | NewAlgorithm (Some k) => (k < List.length (w_outputs w))%nat
    | _ => True
    end.
  Fixpoint all_allowed (c : nat) (w : world) (os : list op) : Prop :=
    match os with [] => True | o :: os => allowed c w o /\ all_allowed c (step w o) os end.
  Definition shows (a : algo) (c : nat) : Prop := exists v, a_display a = Some (Some c, v).

  (** ** what an operation changes *)
  Definition set_up (w : world) (a : algo) (p : pinfo) (v : bool) (g : option nat) : algo :=
    let out := match g with Some k => Some k | None => match a_output a with Some _ => Some (List.length (w_outputs w)) | None => None end end in
    {| a_output := out; a_display := match a_display a with Some d => Some d | None => Some (out, v) end; a_problem := Some p |}.
  Lemma algo_step w o i a : nth_error (w_algos w) i = Some a ->
    nth_error (w_algos (step w o)) i = Some (match o with Setup j p v g => if (j =? i)%nat then set_up w a p v g else a | _ => a end).
  Proof.
    intros E. assert (L : (i < List.length (w_algos w))%nat) by (apply nth_error_Some; congruence). destruct o as [|out|j p v g|j]; cbn [do_op w_algos]; auto.
    - rewrite nth_error_app1; auto.
    - destruct (Nat.eqb_spec j i) as [->|N].
      + rewrite E. unfold set_up. destruct (a_output a) as [k|]; cbn [w_algos]; rewrite set_nth_eq by auto; reflexivity.
      + destruct (nth_error (w_algos w) j) as [b|]; auto. destruct (a_output b); cbn [w_algos]; rewrite set_nth_neq by auto; auto.
    - destruct (nth_error (w_algos w) j) as [[o1 [[[k|] [|]]|] [p|]]|]; auto.
  Qed.
  Lemma algo_back w o i a' : nth_error (w_algos (step w o)) i = Some a' ->
    (exists a, nth_error (w_algos w) i = Some a /\ a' = match o with Setup j p v g => if (j =? i)%nat then set_up w a p v g else a | _ => a end) \/
    (exists out, o = NewAlgorithm out /\ i = List.length (w_algos w) /\ a' = {| a_output := out; a_display := None; a_problem := None |}).
  Proof.
    intros E. destruct (nth_error (w_algos w) i) as [a|] eqn:EA.
    - left. exists a. split; auto. pose proof (algo_step w o i a EA). congruence.
    - right. apply nth_error_None in EA. assert (L : (i < List.length (w_algos (step w o)))%nat) by (apply nth_error_Some; congruence). destruct o as [|out|j p v g|j]; cbn [do_op w_algos] in *.
      + lia.
      + rewrite app_length in L. cbn [List.length] in L. exists out. split; auto. split; [lia|]. rewrite nth_error_app2 in E by auto. replace (i - List.length (w_algos w))%nat with 0%nat in E by lia. cbn in E. congruence.
      + destruct (nth_error (w_algos w) j) as [b|]; [|lia]. destruct (a_output b); cbn [w_algos] in L; rewrite set_nth_len in L; lia.
      + destruct (nth_error (w_algos w) j) as [[o1 [[[k|] [|]]|] [p|]]|]; cbn [w_algos] in L; lia.
  Qed.
  Lemma outputs_len w o : (List.length (w_outputs w) <= List.length (w_outputs (step w o)))%nat.
  Proof.
    destruct o as [|out|j p v g|j]; cbn [do_op w_outputs]; auto.
    - rewrite app_length. cbn. lia.
    - destruct (nth_error (w_algos w) j) as [b|]; auto. destruct (a_output b); cbn [w_outputs]; auto. rewrite app_length. cbn. lia.
    - destruct (nth_error (w_algos w) j) as [[o1 [[[k|] [|]]|] [p|]]|]; cbn [w_outputs]; auto. rewrite set_nth_len. auto.
  Qed.
  Lemma setup_grows w j p v g a : nth_error (w_algos w) j = Some a -> a_output a <> None -> (List.length (w_outputs w) < List.length (w_outputs (step w (Setup j p v g))))%nat.
  Proof. intros E N. cbn [do_op]. rewrite E. destruct (a_output a); [|congruence]. cbn [w_outputs]. rewrite app_length. cbn. lia. Qed.
  (** the output object [c] after one operation: changed only by a generation of an algorithm that shows it *)
  Lemma output_step w o c : (c < List.length (w_outputs w))%nat ->
    (exists j, o = Generation j /\ exists a, nth_error (w_algos w) j = Some a /\ shows a c) \/ nth c (w_outputs (step w o)) fresh_output = nth c (w_outputs w) fresh_output.
  Proof.
    intros L. destruct o as [|out|j p v g|j]; cbn [do_op w_outputs]; auto.
    - right. now rewrite nth_app_l.
    - right. destruct (nth_error (w_algos w) j) as [b|]; auto. destruct (a_output b); cbn [w_outputs]; auto. now rewrite nth_app_l.
    - destruct (nth_error (w_algos w) j) as [[o1 [[[k|] [|]]|] [p|]]|] eqn:E; auto. cbn [w_outputs]. destruct (Nat.eq_dec c k) as [->|N].
      + left. exists j. split; auto. eexists. split; [exact E|]. exists true. reflexivity.
      + right. now rewrite nth_set_neq.
  Qed.
  (** what one operation prints *)
  Lemma printed_step w o : w_printed (step w o) = w_printed w \/ exists j a k p, o = Generation j /\ nth_error (w_algos w) j = Some a /\ a_display a = Some (Some k, true) /\ a_problem a = Some p /\
     let out := nth k (w_outputs w) fresh_output in let cols := (if o_init out then o_cols out else o_cols out ++ added p) in
     w_printed (step w o) = w_printed w ++ [(j, (if o_init out then None else Some cols, cols))] /\ w_outputs (step w o) = set_nth (w_outputs w) k (if o_init out then out else {| o_init := true; o_cols := o_cols out ++ added p |}).
  Proof.
    destruct o as [|out|j p v g|j]; cbn [do_op w_printed]; auto.
    - left. destruct (nth_error (w_algos w) j) as [b|]; auto. destruct (a_output b); auto.
    - destruct (nth_error (w_algos w) j) as [[o1 [[[k|] [|]]|] [p|]]|] eqn:E; auto. right. eexists j, _, k, p. split; [reflexivity|]. split; [exact E|]. split; [reflexivity|]. split; [reflexivity|]. cbv zeta. cbn [w_printed w_outputs].
      destruct (o_init (nth k (w_outputs w) fresh_output)); cbn [o_cols]; auto.
  Qed.

  (** ** displays refer to existing outputs; whoever printed has a display *)
  Record sane (w : world) : Prop := {
    s_show : forall j a c, nth_error (w_algos w) j = Some a -> shows a c -> (c < List.length (w_outputs w))%nat;
    s_out : forall j a k, nth_error (w_algos w) j = Some a -> a_output a = Some k -> (k < List.length (w_outputs w))%nat;
    s_print : forall j e, In (j, e) (w_printed w) -> exists a, nth_error (w_algos w) j = Some a /\ a_display a <> None }.
  Lemma sane0 : sane world0.
  Proof. split; cbn; [intros [|j]; discriminate|intros [|j]; discriminate|contradiction]. Qed.
  Lemma sane_step c w o : sane w -> allowed c w o -> sane (step w o).
  Proof.
    intros [S1 S2 S3] A. pose proof (outputs_len w o) as GL.
    assert (SU : forall j p v g a, o = Setup j p v g -> nth_error (w_algos w) j = Some a -> forall k, a_output (set_up w a p v g) = Some k -> (k < List.length (w_outputs (step w o)))%nat).
    { intros j p v g a -> E k. unfold set_up. cbn [a_output]. destruct g as [g|]; [intros [= <-]; cbn in A; lia|]. destruct (a_output a) as [b|] eqn:EO; [|discriminate]. intros [= <-]. apply (setup_grows w j p v None a); congruence. }
    split.
    - intros j a' c' E SH. destruct (algo_back w o j a' E) as [(a & EA & ->)|(out & -> & -> & ->)]; [|destruct SH as [v SH]; discriminate].
      destruct o as [|out|j' p v g|j']; try (specialize (S1 j a c' EA SH); lia). destruct (Nat.eqb_spec j' j) as [->|N]; [|specialize (S1 j a c' EA SH); lia].
      destruct SH as [v' SH]. cbn [set_up a_display] in SH. destruct (a_display a) as [d|] eqn:ED.
      + specialize (S1 j a c' EA). assert (shows a c') by (exists v'; congruence). specialize (S1 H). lia.
      + apply (SU j p v g a eq_refl EA). unfold set_up. cbn [a_output]. congruence.
    - intros j a' k E EO. destruct (algo_back w o j a' E) as [(a & EA & ->)|(out & -> & -> & ->)].
      + destruct o as [|out|j' p v g|j']; try (specialize (S2 j a k EA EO); lia). destruct (Nat.eqb_spec j' j) as [->|N]; [|specialize (S2 j a k EA EO); lia]. now apply (SU j p v g a eq_refl EA).
      + cbn in EO. subst out. cbn in A. lia.
    - intros j e HI. assert (PR : exists a, nth_error (w_algos w) j = Some a /\ a_display a <> None).
      { destruct (printed_step w o) as [EP|(j' & a & k & p & -> & EA & ED & EP & EQ & _)]; [rewrite EP in HI; eauto|]. rewrite EQ in HI. apply in_app_iff in HI as [HI|[[= <- _]|[]]]; [eauto|]. exists a. split; auto. congruence. }
      destruct PR as (a & EA & ND). eexists. split; [apply algo_step, EA|]. destruct o as [|out|j' p v g|j']; auto. destruct (j' =? j)%nat; auto. cbn [set_up a_display]. destruct (a_display a); congruence.
  Qed.
  Lemma sane_run c os : forall w, sane w -> all_allowed c w os -> sane (run w os).
  Proof. induction os as [|o os IH]; intros w SW A; [exact SW|]. destruct A as [A1 A2]. rewrite run_cons. apply IH; auto. eapply sane_step; eauto. Qed.

  (** ** an output object that no display shows stays as it is *)
  Record untouched (c : nat) (w : world) : Prop := {
    u_len : (c < List.length (w_outputs w))%nat;
    u_val : nth c (w_outputs w) fresh_output = fresh_output;
    u_show : forall j a, nth_error (w_algos w) j = Some a -> ~ shows a c }.
  Lemma untouched_step c w o : sane w -> allowed c w o -> untouched c w -> untouched c (step w o).
  Proof.
    intros SW A [U1 U2 U3]. pose proof (outputs_len w o) as GL. split.
    - lia.
    - destruct (output_step w o c U1) as [(j & -> & a & EA & SH)|E]; [exfalso; eapply U3; eauto|congruence].
    - intros j a' E SH. destruct (algo_back w o j a' E) as [(a & EA & ->)|(out & -> & -> & ->)]; [|destruct SH as [v SH]; discriminate].
      destruct o as [|out|j' p v g|j']; try (eapply U3; eauto; fail). destruct (Nat.eqb_spec j' j) as [->|N]; [|eapply U3; eauto]. destruct SH as [v' SH]. cbn [set_up a_display] in SH.
      destruct (a_display a) as [d|] eqn:ED; [apply (U3 j a EA); exists v'; congruence|]. injection SH as SH SH2. destruct g as [g|]; [cbn in A; destruct A; congruence|].
      destruct (a_output a); [|discriminate]. injection SH as SH. lia.
  Qed.
  Lemma untouched_run c os : forall w, sane w -> all_allowed c w os -> untouched c w -> untouched c (run w os) /\ sane (run w os).
  Proof.
    induction os as [|o os IH]; intros w SW A U; [auto|]. destruct A as [A1 A2]. rewrite run_cons. apply IH; auto; [eapply sane_step; eauto|now apply untouched_step].
  Qed.

  (** ** algorithm [i] is the only one that shows output [c] *)
  Record owns (i c : nat) (p : option pinfo) (st : output) (w : world) : Prop := {
    n_len : (c < List.length (w_outputs w))%nat;
    n_val : nth c (w_outputs w) fresh_output = st;
    n_show : exists a, nth_error (w_algos w) i = Some a /\ a_display a = Some (Some c, true) /\ a_problem a <> None /\ (forall q, p = Some q -> a_problem a = Some q);
    n_others : forall j a, nth_error (w_algos w) j = Some a -> shows a c -> j = i }.
  Definition printed_now (i : nat) (w : world) (o : op) (out : list (option (list colspec) * list colspec)) : Prop := printed_by i (step w o) = printed_by i w ++ out.
  Lemma owns_step i c p st w o : sane w -> allowed c w o -> owns i c p st w -> (p <> None -> forall q v g, o <> Setup i q v g) -> o <> Generation i ->
    owns i c p st (step w o) /\ printed_by i (step w o) = printed_by i w.
  Proof.
    intros SW A [N1 N2 (a & EA & ED & EP & EP2) N4] HS HG. pose proof (outputs_len w o) as GL. split; [split|].
    - lia.
    - destruct (output_step w o c N1) as [(j & -> & b & EB & SH)|E]; [|congruence]. assert (j = i) by eauto. subst j. congruence.
    - eexists. split; [apply algo_step, EA|]. destruct o as [|out|j q v g|j]; auto. destruct (Nat.eqb_spec j i) as [->|N]; auto. cbn [set_up a_display a_problem]. rewrite ED. split; auto. split; [discriminate|].
      intros q' ->. exfalso. eapply HS; [discriminate|reflexivity].
    - intros j a' E SH. destruct (algo_back w o j a' E) as [(b & EB & ->)|(out & -> & -> & ->)]; [|destruct SH as [v SH]; discriminate].
      destruct o as [|out|j' q v g|j']; try (eapply N4; eauto; fail). destruct (Nat.eqb_spec j' j) as [->|N]; [|eapply N4; eauto]. destruct SH as [v' SH]. cbn [set_up a_display] in SH.
      destruct (a_display b) as [d|] eqn:ED'; [apply (N4 j b EB); exists v'; congruence|]. injection SH as SH SH2. destruct g as [g|]; [cbn in A; destruct A; congruence|].
      destruct (a_output b); [|discriminate]. injection SH as SH. lia.
    - unfold printed_by. destruct (printed_step w o) as [EP'|(j' & b & k & q & -> & EB & ED' & EP' & EQ & _)]; [now rewrite EP'|]. rewrite EQ, filter_app. cbn [filter fst]. destruct (Nat.eqb_spec j' i) as [->|N]; [congruence|]. now rewrite app_nil_r.
  Qed.
  (** a generation of the owner *)
  Lemma owns_gen i c p st w : owns i c p st w -> exists q, (forall q', p = Some q' -> q = q') /\
    let cols := if o_init st then o_cols st else o_cols st ++ added q in
    owns i c p {| o_init := true; o_cols := cols |} (step w (Generation i)) /\ printed_by i (step w (Generation i)) = printed_by i w ++ [(if o_init st then None else Some cols, cols)].
  Proof.
    intros [N1 N2 (a & EA & ED & EP & EP2) N4]. destruct a as [o1 d1 p1]. cbn in ED, EP, EP2. subst d1. destruct p1 as [q|]; [|congruence]. exists q. split; [intros q' E; specialize (EP2 q' E); congruence|].
    cbv zeta. cbn [do_op]. rewrite EA. cbv zeta. rewrite N2. cbn [w_outputs w_printed]. split; [split|]; cbn [w_outputs w_algos w_printed].
    - now rewrite set_nth_len.
    - rewrite nth_set_eq by auto. destruct st as [[|] cc]; reflexivity.
    - eexists. split; [exact EA|]. cbn. auto.
    - exact N4.
    - unfold printed_by. cbn [w_printed]. rewrite filter_app, map_app. cbn [filter fst]. rewrite Nat.eqb_refl. cbn [map snd]. destruct st as [[|] cc]; reflexivity.
  Qed.
  (** the generations of algorithm [i] among the operations *)
  Definition gens (i : nat) (os : list op) : nat := List.length (filter (fun o => match o with Generation j => (j =? i)%nat | _ => false end) os).
  Definition no_setup (i : nat) (os : list op) : Prop := forall q v g, ~ In (Setup i q v g) os.
  Lemma gen_dec i (o : op) : {o = Generation i} + {o <> Generation i}.
  Proof. destruct o as [| | |j]; try (right; discriminate). destruct (Nat.eq_dec j i) as [->|N]; [now left|right; congruence]. Qed.
  Lemma gens_other i o os : o <> Generation i -> gens i (o :: os) = gens i os.
  Proof. intros H. unfold gens. cbn [filter]. destruct o as [| | |j]; auto. destruct (Nat.eqb_spec j i) as [->|]; [congruence|auto]. Qed.
  Lemma gens_one i os : gens i (Generation i :: os) = S (gens i os).
  Proof. unfold gens. cbn [filter]. now rewrite Nat.eqb_refl. Qed.
  Lemma owns_later i c p cols os : forall w, sane w -> all_allowed c w os -> owns i c p {| o_init := true; o_cols := cols |} w -> p = None ->
    printed_by i (run w os) = printed_by i w ++ repeat (None, cols) (gens i os).
  Proof.
    induction os as [|o os IH]; intros w SW A OW HP.
    - cbn. now rewrite app_nil_r.
    - destruct A as [A1 A2]. rewrite run_cons. pose proof (sane_step c w o SW A1) as SW'. destruct (gen_dec i o) as [->|N].
      + destruct (owns_gen i c p _ w OW) as (q & _ & OW' & PR). cbn [o_init o_cols] in *. rewrite IH by auto. rewrite PR, gens_one, <- app_assoc. reflexivity.
      + destruct (owns_step i c p _ w o SW A1 OW ltac:(congruence) N) as [OW' PR]. rewrite IH by auto. now rewrite PR, gens_other.
  Qed.
  Lemma owns_weaken i c p st w : owns i c p st w -> owns i c None st w.
  Proof. intros [N1 N2 (a & EA & ED & EP & EP2) N4]. split; auto. exists a. repeat split; auto. discriminate. Qed.
  Lemma owns_first i c q os : forall w, sane w -> all_allowed c w os -> owns i c (Some q) fresh_output w -> no_setup i os ->
    printed_by i (run w os) = printed_by i w ++ match gens i os with O => [] | S n => (Some (base_columns ++ added q), base_columns ++ added q) :: repeat (None, base_columns ++ added q) n end.
  Proof.
    induction os as [|o os IH]; intros w SW A OW NS.
    - cbn. now rewrite app_nil_r.
    - destruct A as [A1 A2]. rewrite run_cons. pose proof (sane_step c w o SW A1) as SW'. assert (NS' : no_setup i os) by (intros q' v g K; apply (NS q' v g); now right). destruct (gen_dec i o) as [->|N].
      + destruct (owns_gen i c _ _ w OW) as (q' & EQ & OW' & PR). rewrite (EQ q eq_refl) in *. cbn [o_init o_cols fresh_output] in *. rewrite (owns_later i c None (base_columns ++ added q)); auto; [|now apply owns_weaken in OW'].
        rewrite PR, gens_one, <- app_assoc. reflexivity.
      + destruct (owns_step i c (Some q) _ w o SW A1 OW ltac:(intros _ q' v g ->; apply (NS q' v g); now left) N) as [OW' PR]. rewrite IH by auto. now rewrite PR, gens_other.
  Qed.

  (** ** programs *)
  (** the objects passed exist *)
  Definition exists_now (w : world) (o : op) : Prop :=
    match o with Setup _ _ _ (Some k) | NewAlgorithm (Some k) => (k < List.length (w_outputs w))%nat | _ => True end.
  Fixpoint valid (w : world) (os : list op) : Prop := match os with [] => True | o :: os => exists_now w o /\ valid (step w o) os end.
  Definition never_given (c : nat) (os : list op) : Prop := forall i p v, ~ In (Setup i p v (Some c)) os.
  Lemma valid_app w a b : valid w (a ++ b) <-> valid w a /\ valid (run w a) b.
  Proof. revert w; induction a as [|o a IH]; intros w; cbn [app valid]; [cbn; tauto|]. rewrite run_cons, IH. tauto. Qed.
  Lemma valid_allowed c os : forall w, valid w os -> never_given c os -> all_allowed c w os.
  Proof.
    induction os as [|o os IH]; intros w V N; cbn; auto. destruct V as [V1 V2]. split; [|apply IH; auto; intros i p v K; apply (N i p v); now right].
    destruct o as [|[k|]|i p v [k|]|j]; cbn in *; auto. split; auto. intros ->. apply (N i p v). now left.
  Qed.
  Lemma valid_sane w os : sane w -> valid w os -> sane (run w os).
  Proof.
    revert w; induction os as [|o os IH]; intros w SW V; [exact SW|]. destruct V as [V1 V2]. rewrite run_cons. apply IH; auto. apply (sane_step (List.length (w_outputs w)) w o SW).
    destruct o as [|[k|]|i p v [k|]|j]; cbn in *; auto. lia.
  Qed.
  Lemma no_display_step w o i a : no_setup i [o] -> nth_error (w_algos w) i = Some a -> nth_error (w_algos (step w o)) i = Some a.
  Proof.
    intros NS E. rewrite (algo_step w o i a E). destruct o as [| |j q v g|]; auto. destruct (Nat.eqb_spec j i) as [->|]; auto. exfalso. apply (NS q v g). now left.
  Qed.
  Lemma no_display_run os i a : forall w, no_setup i os -> nth_error (w_algos w) i = Some a -> nth_error (w_algos (run w os)) i = Some a.
  Proof.
    induction os as [|o os IH]; intros w NS E; auto. rewrite run_cons. apply IH; [intros q v g K; apply (NS q v g); now right|]. apply no_display_step; auto. intros q v g [K|[]]. apply (NS q v g). now left.
  Qed.
  Lemma nothing_printed w i a : sane w -> nth_error (w_algos w) i = Some a -> a_display a = None -> printed_by i w = [].
  Proof.
    intros SW E ED. unfold printed_by. destruct (filter _ _) as [|[j e] l] eqn:EF; auto. exfalso. assert (HI : In (j, e) (filter (fun e => (fst e =? i)%nat) (w_printed w))) by (rewrite EF; now left).
    apply filter_In in HI as [HI HJ]. apply Nat.eqb_eq in HJ. cbn in HJ. subst j. destruct (s_print w SW _ _ HI) as (a' & EA & ND). congruence.
  Qed.
  Lemma gens_app i a b : gens i (a ++ b) = (gens i a + gens i b)%nat.
  Proof. unfold gens. now rewrite filter_app, app_length. Qed.
  (** the set-up of algorithm [i], whose constructor was given the untouched output [k] *)
  Lemma setup_owns w i k p : sane w -> untouched k w -> nth_error (w_algos w) i = Some {| a_output := Some k; a_display := None; a_problem := None |} ->
    let w' := step w (Setup i p true None) in
    sane w' /\ owns i (List.length (w_outputs w)) (Some p) fresh_output w' /\ printed_by i w' = [].
  Proof.
    intros SW [U1 U2 U3] E w'. assert (SW' : sane w') by (apply (sane_step (List.length (w_outputs w)) w _ SW); exact Logic.I). assert (L : (i < List.length (w_algos w))%nat) by (apply nth_error_Some; congruence).
    split; auto. split; [split|].
    - unfold w'. cbn [do_op]. rewrite E. cbn [a_output w_outputs]. rewrite app_length. cbn. lia.
    - unfold w'. cbn [do_op]. rewrite E. cbn [a_output w_outputs]. rewrite app_nth2, Nat.sub_diag by auto. cbn [nth]. auto.
    - unfold w'. cbn [do_op]. rewrite E. cbn [a_output w_algos]. rewrite set_nth_eq by auto. eexists. split; [reflexivity|]. cbn. repeat split; [discriminate|]. intros q [= ->]. reflexivity.
    - intros j a' EJ SH. destruct (algo_back w _ j a' EJ) as [(b & EB & ->)|(out & K & _)]; [|discriminate]. destruct (Nat.eqb_spec i j) as [->|N]; auto. exfalso. pose proof (s_show w SW j b _ EB SH). lia.
    - unfold w'. assert (EP : w_printed (step w (Setup i p true None)) = w_printed w) by (cbn [do_op]; rewrite E; reflexivity). unfold printed_by. rewrite EP. apply (nothing_printed w i _ SW E). reflexivity.
  Qed.
  Section Private.
    Variables (pre mid mid2 : list op) (p : pinfo).
    (** the number of the output object, of the algorithm, and of the copy made by setup() *)
    Definition the_output : nat := List.length (w_outputs (run world0 pre)).
    Definition the_algorithm : nat := List.length (w_algos (run world0 (pre ++ NewOutput :: mid))).
    Definition before : list op := (pre ++ NewOutput :: mid) ++ NewAlgorithm (Some the_output) :: mid2.
    Definition the_copy : nat := List.length (w_outputs (run world0 before)).
    Lemma before_spec : valid world0 before -> never_given the_output before -> no_setup the_algorithm mid2 ->
      sane (run world0 before) /\ untouched the_output (run world0 before) /\ nth_error (w_algos (run world0 before)) the_algorithm = Some {| a_output := Some the_output; a_display := None; a_problem := None |}.
    Proof.
      intros V NG NS. split; [exact (valid_sane _ _ sane0 V)|]. unfold before in *. rewrite <- app_assoc in *. cbn [app] in *. pose proof V as VV. apply valid_app in V as [V1 V2].
      pose proof (valid_sane _ _ sane0 V1) as SP. split.
      - rewrite run_app, run_cons. assert (A : all_allowed the_output (run world0 pre) (NewOutput :: mid ++ NewAlgorithm (Some the_output) :: mid2)).
        { apply valid_allowed; auto. intros i q v K. apply (NG i q v). apply in_or_app. now right. }
        destruct A as [A1 A2]. assert (U : untouched the_output (step (run world0 pre) NewOutput)).
        { split.
          - cbn. rewrite app_length. cbn. unfold the_output. lia.
          - cbn [do_op w_outputs]. unfold the_output. rewrite app_nth2, Nat.sub_diag by auto. reflexivity.
          - intros j a EJ SH. destruct (algo_back _ _ j a EJ) as [(b & EB & ->)|(out & K & _)]; [|discriminate]. pose proof (s_show _ SP j b _ EB SH). unfold the_output in H. lia. }
        eapply untouched_run; eauto. eapply sane_step; eauto.
      - replace (pre ++ NewOutput :: mid ++ NewAlgorithm (Some the_output) :: mid2) with ((pre ++ NewOutput :: mid) ++ NewAlgorithm (Some the_output) :: mid2) by (now rewrite <- app_assoc).
        rewrite run_app, run_cons. apply no_display_run; auto. cbn [do_op w_algos]. rewrite nth_error_app2 by auto. unfold the_algorithm. now rewrite Nat.sub_diag.
    Qed.
  End Private.
End World.

(** C115: an algorithm constructed with an output object (its own or the shared default one) prints the header once, with the columns for its own problem, then one row per generation with
    these columns, whatever else happens to that object and to other algorithms - as long as neither the object nor the algorithm's copy of it is passed to a setup() *)
Theorem C115_output : forall (added : pinfo -> list colspec) pre mid mid2 p rest, let i := the_algorithm added pre mid in let os := before added pre mid mid2 in
  valid added world0 (os ++ Setup i p true None :: rest) -> never_given (the_output added pre) os -> never_given (the_copy added pre mid mid2) rest -> no_setup i mid2 -> no_setup i rest ->
  let cols := base_columns ++ added p in
  printed_by i (do_ops added world0 (os ++ Setup i p true None :: rest)) = match gens i rest with O => [] | S n => (Some cols, cols) :: repeat (None, cols) n end.
Proof.
  intros added pre mid mid2 p rest i os V NG NC NS NR cols. apply valid_app in V as [V1 V2]. destruct V2 as [_ V2]. destruct (before_spec added pre mid mid2 V1 NG NS) as (SW & U & E).
  destruct (setup_owns added _ _ _ p SW U E) as (SW' & OW & PR). rewrite run_app, run_cons. fold os in SW', OW, PR. fold i in SW', OW, PR.
  rewrite (owns_first added i (the_copy added pre mid mid2) p rest); auto; [|apply valid_allowed; auto]. rewrite PR. reflexivity.
Qed.
(** C115, exception: once it has printed, setting the algorithm up again (for another problem, with any verbose flag, even with a new output) changes nothing: no new header, the columns of the first problem *)
Theorem C115_output_again : forall (added : pinfo -> list colspec) pre mid mid2 p rest rest2, let i := the_algorithm added pre mid in let os := before added pre mid mid2 in
  valid added world0 (os ++ Setup i p true None :: rest ++ rest2) -> never_given (the_output added pre) os -> never_given (the_copy added pre mid mid2) (rest ++ rest2) -> no_setup i mid2 -> no_setup i rest ->
  gens i rest <> 0%nat -> let cols := base_columns ++ added p in
  printed_by i (do_ops added world0 (os ++ Setup i p true None :: rest ++ rest2)) = (Some cols, cols) :: repeat (None, cols) (gens i rest + gens i rest2 - 1).
Proof.
  intros added pre mid mid2 p rest rest2 i os V NG NC NS NR G cols. apply valid_app in V as [V1 V2]. destruct V2 as [_ V2]. destruct (before_spec added pre mid mid2 V1 NG NS) as (SW & U & E).
  destruct (setup_owns added _ _ _ p SW U E) as (SW' & OW & PR). rewrite run_app, run_cons. fold os in SW', OW, PR. fold i in SW', OW, PR.
  set (w := do_op added (do_ops added world0 os) (Setup i p true None)) in *. assert (AL : all_allowed added (the_copy added pre mid mid2) w (rest ++ rest2)) by (apply valid_allowed; auto). clear V2.
  assert (ST : exists r1 r2, rest = r1 ++ Generation i :: r2 /\ gens i r1 = 0%nat).
  { clear -G. induction rest as [|o rest IH]; [now cbn in G|]. destruct (gen_dec i o) as [->|N]; [exists [], rest; auto|]. rewrite gens_other in G by auto. destruct (IH G) as (r1 & r2 & -> & Z). exists (o :: r1), r2. split; auto. now rewrite gens_other. }
  destruct ST as (r1 & r2 & -> & Z). assert (AP : forall a b w, all_allowed added (the_copy added pre mid mid2) w (a ++ b) <-> all_allowed added (the_copy added pre mid mid2) w a /\ all_allowed added (the_copy added pre mid mid2) (do_ops added w a) b).
  { clear. induction a as [|o a IH]; intros b w; [cbn; tauto|]. cbn [app all_allowed]. rewrite IH, run_cons. tauto. }
  rewrite <- app_assoc in *. cbn [app] in *. apply AP in AL as [A1 [A2 A3]]. rewrite run_app.
  assert (O1 : forall os w, gens i os = 0%nat -> no_setup i os -> sane w -> all_allowed added (the_copy added pre mid mid2) w os -> owns i (the_copy added pre mid mid2) (Some p) fresh_output w ->
            owns i (the_copy added pre mid mid2) (Some p) fresh_output (do_ops added w os) /\ printed_by i (do_ops added w os) = printed_by i w /\ sane (do_ops added w os)).
  { clear. induction os as [|o os IH]; intros w G NS SW A OW; [auto|]. destruct A as [A1 A2]. rewrite run_cons. destruct (gen_dec i o) as [->|N]; [rewrite gens_one in G; discriminate|]. rewrite gens_other in G by auto.
    assert (NO : Some p <> None -> forall q v g, o <> Setup i q v g) by (intros _ q v g ->; apply (NS q v g); now left).
    destruct (owns_step added i _ _ _ w o SW A1 OW NO N) as [OW' PR]. rewrite <- PR. apply IH; auto; [intros q v g K; apply (NS q v g); now right|]. eapply sane_step; eauto. }
  destruct (O1 r1 w Z) as (OW1 & PR1 & SW1); auto. { intros q v g K. apply (NR q v g). apply in_or_app. now left. }
  rewrite run_cons. destruct (owns_gen added i _ _ _ _ OW1) as (q' & EQ & OW2 & PR2). rewrite (EQ p eq_refl) in *. cbn [o_init o_cols fresh_output] in *.
  rewrite (owns_later added i (the_copy added pre mid mid2) None cols); auto; [|eapply sane_step; eauto|now apply owns_weaken in OW2].
  rewrite PR2, PR1, PR, gens_app. cbn [app]. f_equal. rewrite !gens_app, gens_one, Z. f_equal. lia.
Qed.
