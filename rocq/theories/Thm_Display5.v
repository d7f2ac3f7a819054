(** * C115: outputs given to setup(), verbose=False, the progress bar, the columns *)
From Coq Require Import Ascii String List Arith Bool ZArith QArith Qround Qabs Lia Lqa.
From Verif Require Import S_Display M_Display Thm_Display4.
Import ListNotations.
Local Open Scope list_scope.

Section Given.
  Variable added : pinfo -> list colspec.
  Notation step := (do_op added).
  Notation run := (do_ops added).
  Lemma init_stays w o k cols : nth k (w_outputs w) fresh_output = {| o_init := true; o_cols := cols |} -> nth k (w_outputs (step w o)) fresh_output = {| o_init := true; o_cols := cols |}.
  Proof.
    intros E. assert (L : (k < List.length (w_outputs w))%nat) by (destruct (lt_dec k (List.length (w_outputs w))); auto; rewrite nth_overflow in E by lia; discriminate).
    destruct (printed_step added w o) as [_|(j & a & k' & q & -> & EA & ED & EP & _ & EO)].
    - destruct (output_step added w o k L) as [(j & -> & a & EA & SH)| ->]; auto. cbn [do_op]. rewrite EA. destruct SH as [v SH]. destruct a as [o1 d1 [q|]]; cbn in SH; subst d1; [|destruct v; auto].
      destruct v; auto. cbv zeta. cbn [w_outputs]. rewrite E. cbn [o_init]. rewrite nth_set_eq by auto. reflexivity.
    - rewrite EO. destruct (Nat.eq_dec k k') as [<-|N]; [|now rewrite nth_set_neq]. rewrite nth_set_eq, E by auto. reflexivity.
  Qed.
  Lemma display_stays w o i a d : nth_error (w_algos w) i = Some a -> a_display a = Some d -> a_problem a <> None -> exists a', nth_error (w_algos (step w o)) i = Some a' /\ a_display a' = Some d /\ a_problem a' <> None.
  Proof.
    intros E ED EP. eexists. split; [apply algo_step, E|]. destruct o as [| |j q v g|]; auto. destruct (j =? i)%nat; auto. cbn [set_up a_display a_problem]. rewrite ED. split; auto. discriminate.
  Qed.
  Lemma rows_only i k cols os : forall w a, nth_error (w_algos w) i = Some a -> a_display a = Some (Some k, true) -> a_problem a <> None ->
    nth k (w_outputs w) fresh_output = {| o_init := true; o_cols := cols |} -> printed_by i (run w os) = printed_by i w ++ repeat (None, cols) (gens i os).
  Proof.
    induction os as [|o os IH]; intros w a E ED EP EO; [cbn; now rewrite app_nil_r|]. rewrite run_cons. destruct (display_stays w o i a _ E ED EP) as (a' & E' & ED' & EP'). pose proof (init_stays w o k cols EO) as EO'.
    rewrite (IH _ a') by auto. destruct (gen_dec i o) as [-> |N].
    - rewrite gens_one. cbn [repeat]. change ((None, cols) :: repeat (None, cols) (gens i os)) with ([(@None (list colspec), cols)] ++ repeat (None, cols) (gens i os)). rewrite app_assoc. f_equal.
      cbn [do_op]. rewrite E. destruct a as [o1 d1 [q|]]; cbn in ED, EP; [|congruence]. subst d1. cbv zeta. rewrite EO. cbn [o_init o_cols]. unfold printed_by. cbn [w_printed]. rewrite filter_app, map_app. cbn [filter fst]. rewrite Nat.eqb_refl. reflexivity.
    - rewrite gens_other by auto. f_equal. unfold printed_by. destruct (printed_step added w o) as [-> |(j & b & k' & q & -> & _ & _ & _ & EQ & _)]; auto. rewrite EQ, filter_app. cbn [filter fst]. destruct (Nat.eqb_spec j i) as [-> |]; [congruence|]. now rewrite app_nil_r.
  Qed.
  Lemma silent i out v os : ~ (exists k, out = Some k /\ v = true) -> forall w a, nth_error (w_algos w) i = Some a -> a_display a = Some (out, v) -> a_problem a <> None -> printed_by i (run w os) = printed_by i w.
  Proof.
    intros NV. induction os as [|o os IH]; intros w a E ED EP; auto. rewrite run_cons. destruct (display_stays w o i a _ E ED EP) as (a' & E' & ED' & EP'). rewrite (IH _ a') by auto.
    unfold printed_by. destruct (printed_step added w o) as [-> |(j & b & k' & q & -> & EB & EDB & _ & EQ & _)]; auto. rewrite EQ, filter_app. cbn [filter fst]. destruct (Nat.eqb_spec j i) as [-> |]; [|now rewrite app_nil_r].
    exfalso. apply NV. exists k'. assert (b = a) by congruence. subst b. rewrite ED in EDB. injection EDB as -> ->. auto.
  Qed.
  (** the display of an algorithm set up for the first time *)
  Lemma setup_display w i a p v g : nth_error (w_algos w) i = Some a -> a_display a = None -> let w' := step w (Setup i p v g) in
    exists a' out, nth_error (w_algos w') i = Some a' /\ a_display a' = Some (out, v) /\ a_problem a' <> None /\ w_printed w' = w_printed w /\ (forall k, g = Some k -> out = Some k) /\ (g = None -> a_output a = None -> out = None).
  Proof.
    intros E ED w'. exists (set_up w a p v g), (a_output (set_up w a p v g)). split; [unfold w'; rewrite (algo_step added w _ i a E), Nat.eqb_refl; reflexivity|]. unfold set_up. cbn [a_display a_problem a_output]. rewrite ED. split; auto. split; [discriminate|]. split.
    - unfold w'. cbn [do_op]. rewrite E. destruct (a_output a); reflexivity.
    - split; [intros k ->; reflexivity|intros -> ->; reflexivity].
  Qed.
End Given.

(** C115, exception: an output that has already been used and is given to setup() / minimize(output=..) is not copied; no header is printed and the rows have the columns of the first problem *)
Theorem C115_output_given : forall (added : pinfo -> list colspec) os i k p rest cols a, let w := do_ops added world0 os in
  valid added world0 os -> nth_error (w_algos w) i = Some a -> a_display a = None -> nth_error (w_outputs w) k = Some {| o_init := true; o_cols := cols |} ->
  printed_by i (do_ops added w (Setup i p true (Some k) :: rest)) = repeat (None, cols) (gens i rest).
Proof.
  intros added os i k p rest cols a w V E ED EO. destruct (setup_display added w i a p true (Some k) E ED) as (a' & out & E' & ED' & EP' & PR & HK & _). rewrite (HK k eq_refl) in ED'. rewrite run_cons.
  assert (EN : nth k (w_outputs w) fresh_output = {| o_init := true; o_cols := cols |}) by (now rewrite nth_of_error, EO). rewrite (rows_only added i k cols rest _ a') by (auto; now apply init_stays).
  unfold printed_by at 1. rewrite PR. fold (printed_by i w). rewrite (nothing_printed w i a) by (auto; exact (valid_sane added _ _ sane0 V)). reflexivity.
Qed.
(** C115: an algorithm set up first with verbose=False (or without any output) never prints, even if it is set up again with verbose=True *)
Theorem C115_output_quiet : forall (added : pinfo -> list colspec) os i p v g rest a, let w := do_ops added world0 os in
  valid added world0 os -> nth_error (w_algos w) i = Some a -> a_display a = None -> (v = false \/ g = None /\ a_output a = None) ->
  printed_by i (do_ops added w (Setup i p v g :: rest)) = [].
Proof.
  intros added os i p v g rest a w V E ED H. destruct (setup_display added w i a p v g E ED) as (a' & out & E' & ED' & EP' & PR & _ & HN). rewrite run_cons. rewrite (silent added i out v rest) with (a := a'); auto.
  - unfold printed_by. rewrite PR. apply (nothing_printed w i a); auto. exact (valid_sane added _ _ sane0 V).
  - intros (k & -> & ->). destruct H as [H|[H1 H2]]; [discriminate|]. specialize (HN H1 H2). discriminate.
Qed.

(** ** the progress bar *)
Local Open Scope Q_scope.
Lemma bar_value_spec x : inject_Z (Qfloor (x * 100)) / 100 <= x /\ x - (1 # 100) < inject_Z (Qfloor (x * 100)) / 100.
Proof.
  pose proof (Qfloor_le (x * 100)) as L. pose proof (Qlt_floor (x * 100)) as U. rewrite inject_Z_plus in U. change (inject_Z 1) with 1 in U. unfold Qdiv. change (/ 100) with (1 # 100). split; lra.
Qed.
Lemma bar_value_mono x y : x <= y -> inject_Z (Qfloor (x * 100)) / 100 <= inject_Z (Qfloor (y * 100)) / 100.
Proof.
  intros H. assert (Qfloor (x * 100) <= Qfloor (y * 100))%Z by (apply Qfloor_resp_le; lra). rewrite Zle_Qle in H0. unfold Qdiv. change (/ 100) with (1 # 100). lra.
Qed.
(** C115: a non-decreasing progress bar (the default): the k-th value shown is at most the greatest of 0 and the values so far, by less than 0.01, and not below any value shown before *)
Theorem C115_progress : forall vs k, (k < List.length vs)%nat ->
  let shown := bar_run true 0 vs in let s := nth k shown 0 in
  List.length shown = List.length vs /\
  (exists m, (m == 0 \/ In m (firstn (S k) vs)) /\ 0 <= m /\ (forall v, In v (firstn (S k) vs) -> v <= m) /\ s <= m /\ m - (1 # 100) < s) /\
  (forall j, (j <= k)%nat -> nth j shown 0 <= s) /\ 0 <= s.
Proof.
  assert (LEN : forall nd vs mx, List.length (bar_run nd mx vs) = List.length vs) by (induction vs as [|v vs IH]; intros mx; cbn [bar_run]; auto; destruct nd; cbn [bar_set List.length]; now rewrite IH).
  assert (ST : forall v mx, exists m, bar_set true mx v = (m, inject_Z (Qfloor (m * 100)) / 100) /\ mx <= m /\ v <= m /\ (m = mx \/ m = v)).
  { intros v mx. unfold bar_set. destruct (Qle_bool v mx) eqn:E; cbn [negb]; eexists; (split; [reflexivity|]).
    - apply Qle_bool_iff in E. repeat split; auto; lra.
    - assert (mx < v) by (apply Qnot_le_lt; intros K; apply Qle_bool_iff in K; congruence). repeat split; auto; lra. }
  assert (G : forall vs mx k, (k < List.length vs)%nat -> exists m, nth k (bar_run true mx vs) 0 = inject_Z (Qfloor (m * 100)) / 100 /\ mx <= m /\ (m = mx \/ In m (firstn (S k) vs)) /\ (forall v, In v (firstn (S k) vs) -> v <= m)).
  { induction vs as [|v vs IH]; intros mx k L; [cbn in L; lia|]. cbn [bar_run]. destruct (ST v mx) as (m & -> & M1 & M2 & M3). destruct k as [|k].
    - exists m. cbn [nth firstn]. repeat split; auto.
      + destruct M3 as [-> | ->]; [now left|right; now left].
      + intros v' [<-|[]]. auto.
    - cbn [List.length] in L. destruct (IH m k ltac:(lia)) as (m' & E & N1 & N2 & N3). exists m'. cbn [nth]. split; auto. split; [lra|]. split.
      + destruct N2 as [-> |N2]; [destruct M3 as [-> | ->]; [now left|right; now left]|right; now right].
      + intros v' [<-|HI]; [lra|]. now apply N3. }
  assert (MONO : forall vs mx k j, (k < List.length vs)%nat -> (j <= k)%nat -> nth j (bar_run true mx vs) 0 <= nth k (bar_run true mx vs) 0 ).
  { induction vs as [|v vs IH]; intros mx k j L J; [cbn in L; lia|]. cbn [bar_run]. destruct (ST v mx) as (m & -> & M1 & M2 & M3). cbn [List.length] in L. destruct k as [|k]; [replace j with 0%nat by lia; lra|]. destruct j as [|j].
    - cbn [nth]. destruct (G vs m k ltac:(lia)) as (m' & -> & N1 & _). now apply bar_value_mono.
    - cbn [nth]. apply IH; lia. }
  intros vs k L shown s. split; [apply LEN|]. destruct (G vs 0 k L) as (m & E & N1 & N2 & N3). split.
  - exists m. unfold s, shown. rewrite E. destruct (bar_value_spec m) as [B1 B2]. split; [destruct N2 as [-> |N2]; [left; reflexivity|now right]|]. auto.
  - split; [intros j J; apply MONO; auto|]. unfold s, shown. rewrite E. pose proof (bar_value_mono 0 m N1) as B. assert (Z0 : inject_Z (Qfloor (0 * 100)) / 100 == 0) by reflexivity. lra.
Qed.
Example C115_progress_ex : bar_run true 0 [12 # 100; 555 # 1000; 31 # 100; 1] = [12 # 100; 55 # 100; 55 # 100; 100 # 100]%Q.
Proof. reflexivity. Qed.
