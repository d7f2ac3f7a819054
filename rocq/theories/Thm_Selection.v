(** * C29, C30, C31: parent selection. *)
From Coq Require Import List Arith Bool ZArith Lia Permutation.
From Verif Require Import Flt ListAux M_Selection S_Selection S_Pareto S_Cross P_Perm P_Cross P_Selection P_Selection2.
Import ListNotations.
Local Open Scope nat_scope.

(** ** C29: the tournament functions *)
(** every binary tournament returns one of its two competitors, and the one strictly preferred by its documented criterion *)
Theorem C29_nsga2_rank : implements (binary_tournament false) (cv_first (then_ (less t_rank) (more t_crowding))) any.
Proof. exact nsga2_rank_ok. Qed.
Theorem C29_nsga2_dom : implements (binary_tournament true) (cv_first (then_ dom (more t_crowding))) comparable.
Proof. exact nsga2_dom_ok. Qed.
Theorem C29_nsga3 : implements comp_by_cv_then_random (cv_first never) any.
Proof. exact nsga3_ok. Qed.
Theorem C29_unsga3 : implements comp_by_rank_and_ref_line_dist (cv_first same_niche_better) any.
Proof. exact unsga3_ok. Qed.
Theorem C29_ga : implements comp_by_cv_and_fitness (cv_first (less (fun x => nth 0 (t_F x) f_nan))) any.
Proof. exact ga_ok. Qed.
Theorem C29_clearing : implements comp_by_cv_and_clearing_fitness (cv_first (then_ (less t_iter) (less t_rank))) any.
Proof. exact clearing_ok. Qed.
Theorem C29_sms : implements cv_and_dom_tournament (cv_first dom) comparable.
Proof. exact sms_ok. Qed.
Theorem C29_spea2 : implements spea_binary_tournament (cv_first (less t_fit)) any.
Proof. exact spea2_ok. Qed.
Theorem C29_ctaea : implements comp_by_cv_dom_then_random ctaea_better comparable.
Proof. exact ctaea_ok. Qed.
Theorem C29_age : implements age_binary_tournament (more t_fit) any.
Proof. exact age_ok. Qed.

(** a feasible competitor (CV = 0) always wins against an infeasible one *)
Theorem C29_feasible_wins : forall t R ok, implements t (cv_first R) ok -> forall pop a b c1 c2, ok (pop a) (pop b) ->
  feqb (t_cv (pop a)) f_zero = true -> infeasible (pop b) -> t pop a b c1 c2 = Some a.
Proof.
  intros t R ok HI pop a b c1 c2 Hok Ha Hb. destruct (HI pop a b c1 c2 Hok) as (w & -> & _ & H & _). f_equal. apply H.
  left. split; [right; auto|]. eapply fle_lt_trans; [apply feq_le; eauto|auto].
Qed.
Example C29_case :
  let x := mkT f_zero [fz 1] (fz 0) (fz 2) f_zero f_zero 0 f_zero in
  let y := mkT f_zero [fz 3] (fz 0) (fz 5) f_zero f_zero 0 f_zero in
  let z := mkT (fz 1) [fz 0] (fz 0) f_inf f_zero f_zero 0 f_zero in
  let pop := fun i => nth i [x; y; z] t_default in
  binary_tournament false pop 0 1 false false = Some 1 /\ binary_tournament true pop 0 1 false false = Some 0 /\
  binary_tournament false pop 2 0 false false = Some 0 /\ comparable (pop 0) (pop 1).
Proof. repeat split; try reflexivity; simpl; repeat constructor. Qed.

(** ** C29: the competitors *)
(** n_select * n_parents tournaments of [pressure] competitors; the numbers of participations of two individuals differ by at most one *)
Theorem C29_fair : forall n_pop n_select n_parents pressure perm, 0 < n_pop -> (forall k, Permutation (perm k) (seq 0 n_pop)) ->
  let T := tournaments n_pop n_select n_parents pressure perm in
  length T = n_select * n_parents /\ Forall (fun row => length row = pressure) T /\
  Forall (fun i => i < n_pop) (concat T) /\ balanced n_pop (concat T).
Proof.
  intros n_pop n_select n_parents pressure perm Hn HP. cbv zeta. unfold tournaments. cbv zeta.
  set (N := n_select * n_parents * pressure).
  assert (HL : length (firstn N (random_permutations (ceil_div N n_pop) perm)) = N)
    by (apply prefix_length with n_pop; auto; apply ceil_div_ge; auto).
  destruct (reshape_rows (n_select * n_parents) pressure _ HL) as [H1 H2]. split; [exact H1|]. split; [exact H2|].
  rewrite concat_reshape by exact HL. split.
  - apply Forall_forall. intros x Hx. apply In_firstn' in Hx. unfold random_permutations in Hx. apply in_concat in Hx.
    destruct Hx as (l & Hl & Hx). apply in_map_iff in Hl. destruct Hl as (k & <- & _). apply (perm_seq_In _ _ x (HP k)); auto.
  - apply balanced_prefix. apply Forall_forall. intros l Hl. apply in_map_iff in Hl. destruct Hl as (k & <- & _). auto.
Qed.
(** if the number of participations is a multiple of the population size, everybody takes part equally often *)
Theorem C29_fair_exact : forall n_pop n_select n_parents pressure perm t i, 0 < n_pop -> (forall k, Permutation (perm k) (seq 0 n_pop)) ->
  n_select * n_parents * pressure = t * n_pop -> i < n_pop ->
  count_occ Nat.eq_dec (concat (tournaments n_pop n_select n_parents pressure perm)) i = t.
Proof.
  intros n_pop n_select n_parents pressure perm t i Hn HP HE Hi. unfold tournaments. cbv zeta.
  set (N := n_select * n_parents * pressure) in *.
  assert (HL : length (firstn N (random_permutations (ceil_div N n_pop) perm)) = N)
    by (apply prefix_length with n_pop; auto; apply ceil_div_ge; auto).
  rewrite concat_reshape by exact HL. rewrite HE. apply (count_rounds n_pop); auto.
  pose proof (ceil_div_ge (t * n_pop) n_pop Hn). nia.
Qed.
(** if the pressure divides the population size, nobody competes against itself *)
Theorem C29_no_self_tournament : forall q n_select n_parents pressure perm,
  (forall k, Permutation (perm k) (seq 0 (q * pressure))) ->
  Forall (@NoDup nat) (tournaments (q * pressure) n_select n_parents pressure perm).
Proof.
  intros q n_select n_parents pressure perm HP. unfold tournaments. cbv zeta. rewrite reshape_firstn.
  apply perms_chunks_NoDup with (q := q). auto.
Qed.
(** ... otherwise it can *)
Theorem C29_self_tournament_refuted : ~ (forall n_pop n_select n_parents pressure perm, (forall k, Permutation (perm k) (seq 0 n_pop)) -> pressure <= n_pop ->
  Forall (@NoDup nat) (tournaments n_pop n_select n_parents pressure perm)).
Proof.
  intros H. specialize (H 3 1 2 2 (fun k => if k =? 0 then [0; 1; 2] else [2; 0; 1])).
  assert (HF : Forall (@NoDup nat) [[0; 1]; [2; 2]]).
  { apply H; [|lia]. intros k. destruct (k =? 0); [reflexivity|]. exact (Permutation_cons_append [0; 1] 2). }
  inversion HF as [|? ? _ HF2]; subst. inversion HF2 as [|? ? HN _]; subst. inversion HN as [|? ? Hn _]; subst. apply Hn. left; auto.
Qed.
(** the result has the requested shape and holds winners only *)
Theorem C29_shape : forall n_pop n_select n_parents pressure perm comp, 0 < n_pop -> (forall k, Permutation (perm k) (seq 0 n_pop)) ->
  (forall row, length row = pressure -> In (comp row) row) ->
  let S := tournament_selection n_pop n_select n_parents pressure perm comp in
  length S = n_select /\ Forall (fun r => length r = n_parents) S /\ Forall (Forall (fun i => i < n_pop)) S.
Proof.
  intros n_pop n_select n_parents pressure perm comp Hn HP HC. cbv zeta.
  destruct (C29_fair n_pop n_select n_parents pressure perm Hn HP) as (H1 & H2 & H3 & _). unfold tournament_selection.
  assert (HL : length (map comp (tournaments n_pop n_select n_parents pressure perm)) = n_select * n_parents) by (rewrite map_length; auto).
  destruct (reshape_rows n_select n_parents _ HL) as [R1 R2]. split; auto. split; auto.
  assert (HF : Forall (fun i => i < n_pop) (map comp (tournaments n_pop n_select n_parents pressure perm))).
  { apply Forall_forall. intros x Hx. apply in_map_iff in Hx. destruct Hx as (row & <- & Hr).
    rewrite Forall_forall in H2, H3. apply H3. apply in_concat. exists row. split; auto. }
  rewrite <- (concat_reshape n_select n_parents _ HL) in HF. apply Forall_concat in HF. auto.
Qed.
Example C29_shape_case : tournament_selection 4 2 2 2 (fun k => if k =? 0 then [3; 1; 0; 2] else [2; 3; 1; 0]) (fun r => nth 0 r 0) = [[3; 0]; [2; 1]].
Proof. reflexivity. Qed.

(** random selection: as many rows as requested, balanced participation, different parents when n_parents divides the population size *)
Theorem C29_random_selection : forall n_pop n_select n_parents perm, 0 < n_pop -> (forall k, Permutation (perm k) (seq 0 n_pop)) ->
  let S := random_selection n_pop n_select n_parents perm in
  length S = n_select /\ Forall (fun r => length r = n_parents) S /\ Forall (fun i => i < n_pop) (concat S) /\ balanced n_pop (concat S) /\
  (forall q, n_pop = q * n_parents -> Forall (@NoDup nat) S).
Proof.
  intros n_pop n_select n_parents perm Hn HP. cbv zeta. unfold random_selection. cbv zeta.
  set (N := n_select * n_parents).
  assert (HL : length (firstn N (random_permutations (ceil_div N n_pop) perm)) = N)
    by (apply prefix_length with n_pop; auto; apply ceil_div_ge; auto).
  destruct (reshape_rows n_select n_parents _ HL) as [H1 H2]. split; [exact H1|]. split; [exact H2|].
  rewrite concat_reshape by exact HL. split; [|split].
  - apply Forall_forall. intros x Hx. apply In_firstn' in Hx. unfold random_permutations in Hx. apply in_concat in Hx.
    destruct Hx as (l & Hl & Hx). apply in_map_iff in Hl. destruct Hl as (k & <- & _). apply (perm_seq_In _ _ x (HP k)); auto.
  - apply balanced_prefix. apply Forall_forall. intros l Hl. apply in_map_iff in Hl. destruct Hl as (k & <- & _). auto.
  - intros q Hq. unfold N. rewrite reshape_firstn. apply perms_chunks_NoDup with (q := q). rewrite <- Hq. auto.
Qed.

(** ** C30: differential evolution *)
(** row i is [fixed i] followed by n distinct indices in range, none of them among the fixed ones *)
Definition de_rows (n_pop : nat) (fixed : nat -> list nat) (n_random : nat) (P : list (list nat)) : Prop :=
  length P = n_pop /\ forall i, i < n_pop -> exists ex, nth i P [] = fixed i ++ ex /\ length ex = n_random /\
    NoDup ex /\ Forall (fun v => v < n_pop) ex /\ forall v, In v ex -> ~ In v (fixed i).

Theorem C30_rand : forall fuel n_pop n_parents draws P, 1 <= n_parents -> draws_ok n_pop draws ->
  des_rand fuel n_pop n_parents draws = Some P -> de_rows n_pop (fun i => [i]) (n_parents - 1) P.
Proof.
  intros fuel n_pop n_parents draws P Hp HD H. unfold des_rand in H.
  apply (fill_columns_ok n_pop fuel draws (fun i => [i]) HD _ 0) in H; [|apply (rows_inv_init n_pop (fun i => [i]))].
  now rewrite seq_length in H.
Qed.
(** "best": second entry is individual 0 (the best of a sorted population) *)
Theorem C30_best : forall fuel n_pop n_parents draws P, 2 <= n_parents -> draws_ok n_pop draws ->
  des_best fuel n_pop n_parents draws = Some P -> de_rows n_pop (fun i => [i; 0]) (n_parents - 2) P.
Proof.
  intros fuel n_pop n_parents draws P Hp HD H. unfold des_best in H.
  apply (fill_columns_ok n_pop fuel draws (fun i => [i; 0]) HD _ 0) in H; [|apply (rows_inv_init n_pop (fun i => [i; 0]))].
  now rewrite seq_length in H.
Qed.
Theorem C30_current_to_best : forall fuel n_pop n_parents draws P, 4 <= n_parents -> draws_ok n_pop draws ->
  des_current_to_best fuel n_pop n_parents draws = Some P -> de_rows n_pop (fun i => [i; i; 0; i]) (n_parents - 4) P.
Proof.
  intros fuel n_pop n_parents draws P Hp HD H. unfold des_current_to_best in H.
  apply (fill_columns_ok n_pop fuel draws (fun i => [i; i; 0; i]) HD _ 0) in H; [|apply (rows_inv_init n_pop (fun i => [i; i; 0; i]))].
  now rewrite seq_length in H.
Qed.
Theorem C30_current_to_rand : forall fuel n_pop n_parents draws P, 4 <= n_parents -> draws_ok n_pop draws ->
  des_current_to_rand fuel n_pop n_parents draws = Some P ->
  exists r, (forall i, i < n_pop -> r i < n_pop /\ r i <> i) /\ de_rows n_pop (fun i => [i; i; r i; i]) (n_parents - 4) P.
Proof.
  intros fuel n_pop n_parents draws P Hp HD H. unfold des_current_to_rand in H.
  destruct (draw_column _ _ _ _) as [col|] eqn:E; [|discriminate].
  destruct (HD 2) as [HL HR].
  apply draw_column_ok in E; auto; [|now rewrite map_length, seq_length]. destruct E as (CL & CF & CN).
  exists (fun i => nth i col 0). split.
  - intros i Hi. split; [rewrite Forall_forall in CF; apply CF, nth_In; lia|].
    intros Ec. apply (CN i Hi). rewrite nth_map_seq0 by auto. rewrite Ec. simpl; auto.
  - assert (EQ : map2 (fun i c => [i; i; c; i]) (seq 0 n_pop) col = map (fun i => [i; i; nth i col 0; i]) (seq 0 n_pop)).
    { apply nth_ext with (d := []) (d' := []); [rewrite length_map2, map_length, seq_length; lia|].
      rewrite length_map2, seq_length. intros i Hi. rewrite nth_map2 with (da := 0) (db := 0) by (rewrite ?seq_length; lia).
      rewrite nth_map_seq0, seq_nth by lia. auto. }
    rewrite EQ in H. apply (fill_columns_ok n_pop fuel draws (fun i => [i; i; nth i col 0; i]) HD _ 0) in H;
      [|apply (rows_inv_init n_pop (fun i => [i; i; nth i col 0; i]))].
    now rewrite seq_length in H.
Qed.
(** "ranked" (n_parents = 2 + 2 n_diffs): the random parents are a permutation of a duplicate-free selection; the base vector has the best
    rank, and in every difference pair the first has a rank at least as good as the second *)
Theorem C30_ranked : forall fuel n_pop n_diffs draws ranks P, draws_ok n_pop draws ->
  des_ranked fuel n_pop (2 + 2 * n_diffs) draws ranks = Some P ->
  let R := fun v => nth v (ranks_from_pop ranks) 0 in
  length P = n_pop /\ forall i, i < n_pop -> exists row, nth i P [] = i :: row /\ length row = 2 * n_diffs + 1 /\ NoDup (i :: row) /\
    Forall (fun v => v < n_pop) row /\
    (forall v, In v row -> R (nth 0 row 0) <= R v) /\
    (forall j, j < n_diffs -> R (nth (2 * j + 1) row 0) <= R (nth (2 * j + 2) row 0)).
Proof.
  intros fuel n_pop n_diffs draws ranks P HD H. cbv zeta. unfold des_ranked in H.
  destruct (des_rand fuel n_pop (2 + 2 * n_diffs) draws) as [P0|] eqn:E; [|discriminate]. simpl in H. injection H as <-.
  apply C30_rand in E; auto; [|lia]. destruct E as [HL HE]. split; [now rewrite map_length|].
  intros i Hi. destruct (HE i Hi) as (ex & Hex & Hl & Hnd & Hf & Hb).
  match goal with |- context [map ?f P0] => set (g := f) end.
  replace (nth i (map g P0) []) with (g (nth i P0 [])) by (symmetry; apply (map_nth g P0 [] i)).
  rewrite Hex; unfold g. simpl app.
  destruct (rank_sort_row_spec (ranks_from_pop ranks) ex n_diffs) as (SP & S1 & S2); [lia|].
  exists (rank_sort_row (ranks_from_pop ranks) ex). split; auto. split; [rewrite (Permutation_length SP); lia|].
  split; [|split; [|split]].
  - constructor.
    + intros C. apply (Permutation_in i SP) in C. apply (Hb i C). left; auto.
    + eapply Permutation_NoDup; [symmetry; exact SP|auto].
  - apply Forall_forall. intros v Hv. rewrite Forall_forall in Hf. apply Hf. apply (Permutation_in v SP); auto.
  - intros v Hv. apply S1. apply (Permutation_in v SP); auto.
  - auto.
Qed.
(** the rejection loop can stop exactly when the population is large enough: with fewer individuals than parents it never does *)
Theorem C30_stops : forall n_pop n_parents, 1 <= n_parents -> n_parents <= n_pop ->
  exists draws P, draws_ok n_pop draws /\ des_rand 0 n_pop n_parents draws = Some P.
Proof.
  intros n_pop n_parents H1 H2. exists (shift_draws n_pop). eexists. split.
  - intros j. unfold shift_draws. split; [now rewrite map_length, seq_length|]. intros k. apply Forall_forall. intros v Hv.
    apply in_map_iff in Hv. destruct Hv as (i & <- & _). apply Nat.mod_upper_bound. lia.
  - unfold des_rand. replace (map (fun i => [i]) (seq 0 n_pop)) with (map (fun i => map (fun j => (i + j) mod n_pop) (seq 0 1)) (seq 0 n_pop)).
    + apply fill_columns_shift; lia.
    + apply map_ext_in. intros i Hi. apply in_seq in Hi. simpl. rewrite Nat.add_0_r, Nat.mod_small by lia. auto.
Qed.
Theorem C30_never_stops : forall fuel n_pop n_parents draws, 0 < n_pop -> n_pop < n_parents -> draws_ok n_pop draws ->
  des_rand fuel n_pop n_parents draws = None.
Proof.
  intros fuel n_pop n_parents draws Hn Hlt HD. destruct (des_rand fuel n_pop n_parents draws) as [P|] eqn:E; auto. exfalso.
  apply C30_rand in E; auto; [|lia]. destruct E as [_ HE]. destruct (HE 0 Hn) as (ex & _ & Hl & Hnd & Hf & Hb).
  assert (HL : length (0 :: ex) <= n_pop).
  { apply NoDup_bounded_length.
    - constructor; auto. intros C. apply (Hb 0 C). left; auto.
    - intros v [<-|Hv]; auto. rewrite Forall_forall in Hf; auto. }
  simpl in HL. lia.
Qed.
Example C30_case : des_ranked 3 4 4 (fun j k => if (j =? 1) && (k =? 0) then [0; 0; 3; 1] else if j =? 1 then [2; 1; 0] else if j =? 2 then [3; 3; 0; 2] else [1; 2; 1; 0])
    [Some 5; Some 1; None; Some 0] = Some [[0; 3; 1; 2]; [1; 3; 2; 0]; [2; 3; 1; 0]; [3; 1; 2; 0]] /\
  des_rand 3 4 2 (fun j k => if (j =? 1) && (k =? 0) then [0; 0; 3; 1] else if j =? 1 then [2; 1; 0] else []) = Some [[0; 2]; [1; 0]; [2; 3]; [3; 1]].
Proof. vm_compute. auto. Qed.

(** ** C31 *)
(** the claim: if the loop ends with no remaining row, no entry of the new column equals an entry of its row in [D] *)
Theorem C31_fill_refuted : ~ (forall attempts draw D col col', fill_column attempts draw D col = (col', []) -> 0 < attempts ->
  forall i, i < length col -> ~ In (nth i col' 0) (nth i D [])).
Proof.
  intros H. (* three rows with first column 0, 1, 2; third row collides twice, then row 0 is redrawn instead of row 2 *)
  apply (H 10 (fun k => nth k [[1; 0; 2]; [2]; [1]] []) [[0]; [1]; [2]] [0; 0; 0] [1; 0; 2]) with (i := 2); simpl; auto; lia.
Qed.
(** what holds: if it ends within two attempts the column is duplicate-free *)
Theorem C31_fill_partial : forall attempts draw D col col', attempts <= 2 -> fill_column attempts draw D col = (col', []) -> 0 < attempts ->
  length col' = length col /\ forall i, i < length col -> ~ In (nth i col' 0) (nth i D []).
Proof. intros attempts draw D col col' Ha H H0. eapply fill_two; eauto. Qed.
Example C31_fill_case : fill_column 2 (fun k => nth k [[1; 0; 2]; [0]] []) [[0]; [1]; [2]] [0; 0; 0] = ([1; 0; 0], []).
Proof. reflexivity. Qed.
Print Assumptions C29_nsga2_dom.
Print Assumptions C29_fair.
Print Assumptions C30_ranked.
Print Assumptions C31_fill_partial.
