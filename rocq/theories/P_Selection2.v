(** * Proofs for M_Selection: differential evolution, random filling *)
From Coq Require Import List Arith Bool ZArith Lia Permutation.
From Verif Require Import Flt ListAux M_Selection S_Selection P_Perm P_Cross P_Selection.
Import ListNotations.
Local Open Scope nat_scope.

Lemma memb_In x l : memb x l = true <-> In x l.
Proof.
  unfold memb. rewrite existsb_exists. split.
  - intros (y & Hy & E). apply Nat.eqb_eq in E. now subst.
  - intros H. exists x. rewrite Nat.eqb_refl. auto.
Qed.
Lemma memb_false x l : memb x l = false <-> ~ In x l.
Proof. rewrite <- memb_In. destruct (memb x l); split; congruence. Qed.

Lemma masked_assign_length mask : forall vs col, length mask = length col -> length (masked_assign mask vs col) = length col.
Proof.
  induction mask as [|m mask IH]; intros vs [|c col] H; simpl in *; try discriminate; auto.
  destruct m; [destruct vs|]; simpl; rewrite IH; auto.
Qed.
Lemma masked_assign_Forall (Q : nat -> Prop) mask : forall vs col, Forall Q vs -> Forall Q col -> Forall Q (masked_assign mask vs col).
Proof.
  induction mask as [|m mask IH]; intros vs [|c col] Hv Hc; simpl; auto; [destruct m; auto|].
  inversion Hc; subst. destruct m; [destruct vs as [|v vs]|]; try (inversion Hv; subst); constructor; auto.
Qed.

Lemma reselect_ok n rows draw : (forall k, Forall (fun v => v < n) (draw k)) -> forall fuel k col col',
  length col = length rows -> Forall (fun v => v < n) col -> reselect_loop fuel draw k rows col = Some col' ->
  length col' = length rows /\ Forall (fun v => v < n) col' /\ forall i, i < length rows -> ~ In (nth i col' 0) (nth i rows []).
Proof.
  intros HD. assert (Base : forall col, length col = length rows -> existsb (fun b => b) (map2 memb col rows) = false ->
     forall i, i < length rows -> ~ In (nth i col 0) (nth i rows [])).
  { intros col HL E i Hi. apply memb_false. destruct (memb _ _) eqn:Em; auto. rewrite <- E. symmetry. apply existsb_id.
    exists i. rewrite nth_map2 with (da := 0) (db := []); auto; lia. }
  induction fuel as [|fuel IH]; intros k col col' HL HF H; simpl in H.
  - destruct (existsb _ _) eqn:E; [discriminate|]. injection H as <-. auto.
  - destruct (existsb _ _) eqn:E.
    + apply IH in H; auto.
      * rewrite masked_assign_length; auto. rewrite length_map2. lia.
      * apply masked_assign_Forall; auto.
    + injection H as <-. auto.
Qed.

(** the state of the rows: base of row i followed by distinct values *)
Definition rows_inv (n : nat) (base : nat -> list nat) (c : nat) (rows : list (list nat)) : Prop :=
  length rows = n /\ forall i, i < n -> exists ex, nth i rows [] = base i ++ ex /\ length ex = c /\ NoDup ex /\
     Forall (fun v => v < n) ex /\ forall v, In v ex -> ~ In v (base i).

Definition draws_ok (n : nat) (draws : nat -> nat -> list nat) : Prop :=
  forall j, n <= length (draws j 0) /\ forall k, Forall (fun v => v < n) (draws j k).

Lemma Forall_firstn' {A} (Q : A -> Prop) n l : Forall Q l -> Forall Q (firstn n l).
Proof. intros H. rewrite Forall_forall in *. intros x Hx. apply H. eapply In_firstn'; eauto. Qed.

Lemma draw_column_ok n fuel draw rows col : n <= length (draw 0) -> (forall k, Forall (fun v => v < n) (draw k)) -> length rows = n ->
  draw_column fuel n draw rows = Some col ->
  length col = n /\ Forall (fun v => v < n) col /\ forall i, i < n -> ~ In (nth i col 0) (nth i rows []).
Proof.
  intros HL HD HR H. unfold draw_column in H. apply (reselect_ok n rows draw HD) in H.
  - rewrite HR in H. auto.
  - rewrite firstn_length. lia.
  - apply Forall_firstn'; auto.
Qed.

Lemma fill_columns_ok n fuel draws base : draws_ok n draws -> forall js c rows rows',
  rows_inv n base c rows -> fill_columns fuel n draws js rows = Some rows' -> rows_inv n base (c + length js) rows'.
Proof.
  intros HD. induction js as [|j js IH]; intros c rows rows' HI H; simpl in H.
  - injection H as <-. now rewrite Nat.add_0_r.
  - destruct (draw_column _ _ _ _) as [col|] eqn:E; [|discriminate].
    destruct (HD j) as [HL HR]. destruct HI as [HIl HI].
    destruct (draw_column_ok n fuel (draws j) rows col HL HR HIl E) as (CL & CF & CN).
    replace (c + length (j :: js)) with (S c + length js) by (simpl; lia).
    apply IH with (add_column rows col); auto. unfold add_column. split; [rewrite length_map2; lia|].
    intros i Hi. destruct (HI i Hi) as (ex & Hex & Hl & Hnd & Hf & Hb).
    exists (ex ++ [nth i col 0]). rewrite nth_map2 with (da := []) (db := 0) by lia. rewrite Hex, <- app_assoc.
    pose proof (CN i Hi) as Hnew. rewrite Hex in Hnew. rewrite in_app_iff in Hnew.
    split; [auto|split; [rewrite app_length; simpl; lia|split; [|split]]].
    + apply NoDup_app_iff. split; auto. split; [repeat constructor; auto|]. intros x Hx [<-|[]]. tauto.
    + apply Forall_app. split; auto. constructor; auto. rewrite Forall_forall in CF. apply CF. apply nth_In. lia.
    + intros v Hv. apply in_app_iff in Hv. destruct Hv as [Hv|[<-|[]]]; auto.
Qed.
Lemma rows_inv_init n base : rows_inv n base 0 (map base (seq 0 n)).
Proof.
  split; [now rewrite map_length, seq_length|]. intros i Hi. exists []. rewrite nth_map_seq0, app_nil_r by auto.
  repeat split; auto; try constructor; intros v [].
Qed.

(** ** the loop can stop: shifted draws *)
Definition shift_draws (n : nat) (j k : nat) : list nat := map (fun i => (i + j) mod n) (seq 0 n).
Lemma shift_inj n i j1 j2 : j1 < n -> j2 < n -> (i + j1) mod n = (i + j2) mod n -> j1 = j2.
Proof.
  intros H1 H2 E. assert (0 < n) by lia.
  pose proof (Nat.div_mod (i + j1) n ltac:(lia)). pose proof (Nat.div_mod (i + j2) n ltac:(lia)). rewrite E in H0.
  assert ((i + j1) / n = (i + j2) / n \/ (i + j1) / n < (i + j2) / n \/ (i + j2) / n < (i + j1) / n) as [Hq|[Hq|Hq]] by lia; nia.
Qed.
Lemma fill_columns_shift n m : forall k, k + m <= n -> 0 < k ->
  fill_columns 0 n (shift_draws n) (seq k m) (map (fun i => map (fun j => (i + j) mod n) (seq 0 k)) (seq 0 n)) =
  Some (map (fun i => map (fun j => (i + j) mod n) (seq 0 (k + m))) (seq 0 n)).
Proof.
  induction m; intros k Hk H0; simpl; [now rewrite Nat.add_0_r|].
  assert (EC : draw_column 0 n (shift_draws n k) (map (fun i => map (fun j => (i + j) mod n) (seq 0 k)) (seq 0 n)) = Some (map (fun i => (i + k) mod n) (seq 0 n))).
  { unfold draw_column, shift_draws. rewrite firstn_all2 by (rewrite map_length, seq_length; auto). simpl.
    destruct (existsb _ _) eqn:E; auto. exfalso. apply existsb_id in E. destruct E as [i Hi].
    assert (i < n). { destruct (Nat.lt_ge_cases i n); auto. rewrite nth_overflow in Hi; [discriminate|]. rewrite length_map2, !map_length, seq_length. lia. }
    rewrite nth_map2 with (da := 0) (db := []) in Hi by (rewrite map_length, seq_length; auto). rewrite !nth_map_seq0 in Hi by auto.
    apply memb_In, in_map_iff in Hi. destruct Hi as (j & Hj & Hin). apply in_seq in Hin. apply shift_inj in Hj; lia. }
  rewrite EC. replace (k + S m) with (S k + m) by lia. rewrite <- IHm by lia. f_equal.
  unfold add_column. apply nth_ext with (d := []) (d' := []).
  - rewrite length_map2, !map_length, !seq_length. lia.
  - rewrite length_map2, !map_length, !seq_length. intros i Hi.
    rewrite nth_map2 with (da := []) (db := 0) by (rewrite map_length, seq_length; lia).
    rewrite !nth_map_seq0 by lia. rewrite seq_S, map_app. auto.
Qed.

(** ** ranked parents *)
Definition sigma (L k : nat) : nat := if Nat.eqb k 0 then 0 else if Nat.even k then L - k / 2 else (k + 1) / 2.
Lemma half_even k : Nat.even k = true -> exists j, k = 2 * j.
Proof. intros H. apply Nat.even_spec in H. destruct H as [j ->]. eauto. Qed.
Lemma half_odd k : Nat.even k = false -> exists j, k = 2 * j + 1.
Proof. intros H. rewrite <- Nat.negb_odd in H. apply negb_false_iff, Nat.odd_spec in H. destruct H as [j ->]. eauto. Qed.
Lemma sigma_even L j : 0 < j -> sigma L (2 * j) = L - j.
Proof.
  intros. unfold sigma. destruct (Nat.eqb_spec (2 * j) 0); [lia|].
  assert (E : Nat.even (2 * j) = true) by (apply Nat.even_spec; exists j; lia). rewrite E. f_equal. rewrite Nat.mul_comm. apply Nat.div_mul. lia.
Qed.
Lemma sigma_odd L j : sigma L (2 * j + 1) = j + 1.
Proof.
  unfold sigma. destruct (Nat.eqb_spec (2 * j + 1) 0); [lia|].
  assert (E : Nat.even (2 * j + 1) = false). { rewrite <- Nat.negb_odd. apply negb_false_iff, Nat.odd_spec. exists j; lia. }
  rewrite E. replace (2 * j + 1 + 1) with ((j + 1) * 2) by lia. apply Nat.div_mul. lia.
Qed.
Lemma sigma_cases k : k = 0 \/ (exists j, 0 < j /\ k = 2 * j) \/ (exists j, k = 2 * j + 1).
Proof.
  destruct (Nat.even k) eqn:E.
  - destruct (half_even k E) as [j ->]. destruct j; [left; auto|right; left; exists (S j); split; [lia|auto]].
  - destruct (half_odd k E) as [j ->]. right; right; eauto.
Qed.
Lemma sigma_perm n : Permutation (map (sigma (2 * n + 1)) (seq 0 (2 * n + 1))) (seq 0 (2 * n + 1)).
Proof.
  set (L := 2 * n + 1).
  assert (ND : NoDup (map (sigma L) (seq 0 L))).
  { apply NoDup_map_inj; [|apply seq_NoDup]. intros x y Hx Hy E. apply in_seq in Hx, Hy.
    destruct (sigma_cases x) as [->|[(j & Hj & ->)|(j & ->)]], (sigma_cases y) as [->|[(j' & Hj' & ->)|(j' & ->)]];
      rewrite ?sigma_even, ?sigma_odd in E by auto; try (change (sigma L 0) with 0 in E); unfold L in *; lia. }
  assert (HB : forall i, In i (map (sigma L) (seq 0 L)) -> i < L).
  { intros i Hi. apply in_map_iff in Hi. destruct Hi as (x & <- & Hx). apply in_seq in Hx.
    destruct (sigma_cases x) as [->|[(j & Hj & ->)|(j & ->)]]; rewrite ?sigma_even, ?sigma_odd by auto; try (change (sigma L 0) with 0); unfold L in *; lia. }
  apply perm_seq_of_NoDup; auto. intros i. split; auto. apply NoDup_full; auto. rewrite map_length, seq_length. auto.
Qed.

Lemma rank_fold_nth S : forall js r, (forall j, In j js -> 1 <= j) -> NoDup js -> forall k,
  nth k (fold_left (fun r j => upd (upd r (2 * j - 1) (nth j S 0)) (2 * j) (nth (length S - j) S 0)) js r) 0 =
  if (k <? length r) && existsb (fun j => (k =? 2 * j - 1) || (k =? 2 * j)) js
  then (if Nat.even k then nth (length S - k / 2) S 0 else nth ((k + 1) / 2) S 0) else nth k r 0.
Proof.
  induction js as [|j js IH]; intros r Hpos ND k; cbn [fold_left existsb]; [now rewrite andb_false_r|].
  inversion ND; subst. specialize (IH (upd (upd r (2 * j - 1) (nth j S 0)) (2 * j) (nth (length S - j) S 0))).
  rewrite IH; auto; [|intros; apply Hpos; simpl; auto]. rewrite !length_upd.
  assert (Hj : 1 <= j) by (apply Hpos; simpl; auto).
  destruct (Nat.ltb_spec k (length r)); cbn [andb].
  - destruct (existsb _ js) eqn:E; [now rewrite orb_true_r|rewrite orb_false_r].
    destruct (Nat.eqb_spec k (2 * j - 1)) as [Ek|Ek].
    + cbn [orb]. assert (Eo : k = 2 * (j - 1) + 1) by lia.
      assert (Ev : Nat.even k = false). { rewrite <- Nat.negb_odd. apply negb_false_iff, Nat.odd_spec. exists (j - 1); lia. }
      rewrite Ev. rewrite nth_upd_neq by lia. rewrite Ek at 1. rewrite Ek in H. rewrite nth_upd_eq by lia. f_equal.
      replace (k + 1) with (j * 2) by lia. rewrite Nat.div_mul; lia.
    + destruct (Nat.eqb_spec k (2 * j)) as [Ek2|Ek2]; cbn [orb].
      * assert (Ev : Nat.even k = true) by (apply Nat.even_spec; exists j; lia). rewrite Ev, <- Ek2.
        rewrite nth_upd_eq by (rewrite length_upd; auto). f_equal. f_equal. rewrite Ek2, Nat.mul_comm, Nat.div_mul; lia.
      * rewrite !nth_upd_neq by lia. auto.
  - rewrite !nth_overflow; auto. rewrite !length_upd; auto.
Qed.

Lemma rank_sort_row_eq ranks row n : length row = 2 * n + 1 ->
  let S := gather 0 row (argsort Nat.ltb 0 (map (fun i => nth i ranks 0) row)) in
  rank_sort_row ranks row = map (fun k => nth (sigma (2 * n + 1) k) S 0) (seq 0 (2 * n + 1)) /\ length S = 2 * n + 1.
Proof.
  intros HL. cbv zeta. set (I := argsort Nat.ltb 0 (map (fun i => nth i ranks 0) row)). set (S := gather 0 row I).
  assert (HI : length I = 2 * n + 1). { unfold I. rewrite (Permutation_length (argsort_perm _ _ _)), seq_length, map_length. auto. }
  assert (HS : length S = 2 * n + 1) by (unfold S; rewrite length_gather; auto).
  split; auto. unfold rank_sort_row. fold I. fold S. cbv zeta.
  assert (Hd : length row / 2 = n). { rewrite HL. replace (2 * n + 1) with (1 + n * 2) by lia. rewrite Nat.div_add by lia. reflexivity. }
  rewrite Hd.
  set (fl := fold_left _ _ _).
  assert (HF : length fl = 2 * n + 1).
  { unfold fl. assert (G : forall js r, length (fold_left (fun r j => upd (upd r (2 * j - 1) (nth j S 0)) (2 * j) (nth (length S - j) S 0)) js r) = length r).
    { induction js; intros r; simpl; auto. rewrite IHjs, !length_upd. auto. }
    rewrite G, length_upd. auto. }
  apply nth_ext with (d := 0) (d' := 0); [now rewrite map_length, seq_length|].
  intros k Hk. rewrite HF in Hk. rewrite nth_map_seq0 by auto. unfold fl.
  rewrite rank_fold_nth; [|intros j Hj; apply in_seq in Hj; lia|apply seq_NoDup].
  rewrite length_upd, HL, HS. rewrite (proj2 (Nat.ltb_lt k _) Hk). cbn [andb].
  destruct (sigma_cases k) as [->|[(j & Hj & ->)|(j & ->)]].
  - assert (E : existsb (fun j => (0 =? 2 * j - 1) || (0 =? 2 * j)) (seq 1 n) = false).
    { destruct (existsb _ _) eqn:E; auto. apply existsb_exists in E. destruct E as (x & Hx & E). apply in_seq in Hx.
      apply orb_true_iff in E. destruct E as [E|E]; apply Nat.eqb_eq in E; lia. }
    rewrite E. change (sigma (2 * n + 1) 0) with 0. rewrite nth_upd_eq by lia. auto.
  - assert (E : existsb (fun j0 => (2 * j =? 2 * j0 - 1) || (2 * j =? 2 * j0)) (seq 1 n) = true).
    { apply existsb_exists. exists j. split; [apply in_seq; lia|]. rewrite Nat.eqb_refl. apply orb_true_r. }
    rewrite E. rewrite sigma_even by auto. assert (Ev : Nat.even (2 * j) = true) by (apply Nat.even_spec; exists j; lia). rewrite Ev.
    f_equal. f_equal. rewrite Nat.mul_comm. apply Nat.div_mul. lia.
  - assert (E : existsb (fun j0 => (2 * j + 1 =? 2 * j0 - 1) || (2 * j + 1 =? 2 * j0)) (seq 1 n) = true).
    { apply existsb_exists. exists (j + 1). split; [apply in_seq; lia|]. replace (2 * (j + 1) - 1) with (2 * j + 1) by lia. rewrite Nat.eqb_refl. auto. }
    rewrite E. rewrite sigma_odd. assert (Ev : Nat.even (2 * j + 1) = false). { rewrite <- Nat.negb_odd. apply negb_false_iff, Nat.odd_spec. exists j; lia. }
    rewrite Ev. f_equal. replace (2 * j + 1 + 1) with ((j + 1) * 2) by lia. apply Nat.div_mul. lia.
Qed.

Lemma gather_perm {A} (d : A) l I : Permutation I (seq 0 (length l)) -> Permutation (gather d l I) l.
Proof. intros H. rewrite <- (gather_seq d l) at 2. unfold gather. now apply Permutation_map. Qed.

Lemma rank_sort_row_spec ranks row n : length row = 2 * n + 1 ->
  let res := rank_sort_row ranks row in
  Permutation res row /\
  (forall v, In v row -> nth (nth 0 res 0) ranks 0 <= nth v ranks 0) /\
  (forall j, j < n -> nth (nth (2 * j + 1) res 0) ranks 0 <= nth (nth (2 * j + 2) res 0) ranks 0).
Proof.
  intros HL. cbv zeta. destruct (rank_sort_row_eq ranks row n HL) as [E HS]. rewrite E. clear E.
  set (keys := map (fun i => nth i ranks 0) row) in *. set (I := argsort Nat.ltb 0 keys) in *. set (S := gather 0 row I) in *.
  assert (HA : is_argsort Nat.ltb 0 keys I).
  { apply argsort_is_argsort.
    - intros x y H. apply Nat.ltb_lt in H. apply Nat.ltb_ge. lia.
    - intros x y z _ _ _ H1 H2. apply Nat.ltb_ge in H1, H2. apply Nat.ltb_ge. lia. }
  destruct HA as [HP HO]. unfold keys in HP at 1. rewrite map_length in HP.
  assert (HIL : length I = 2 * n + 1) by (rewrite (Permutation_length HP), seq_length; auto).
  assert (SP : Permutation S row) by (apply gather_perm; auto).
  assert (Sorted : forall p q, p < q -> q < 2 * n + 1 -> nth (nth p S 0) ranks 0 <= nth (nth q S 0) ranks 0).
  { intros p q Hpq Hq. specialize (HO p q Hpq ltac:(lia)). apply Nat.ltb_ge in HO.
    assert (HK : forall k, k < 2 * n + 1 -> nth (nth k I 0) keys 0 = nth (nth k S 0) ranks 0).
    { intros k Hk. unfold S. rewrite nth_gather by lia. unfold keys.
      assert (nth k I 0 < length row). { assert (In (nth k I 0) (seq 0 (length row))) by (apply (Permutation_in _ HP), nth_In; lia). apply in_seq in H. lia. }
      rewrite nth_indep with (d' := nth 0 ranks 0) by (now rewrite map_length).
      exact (map_nth (fun i => nth i ranks 0) row 0 (nth k I 0)). }
    rewrite !HK in HO by lia. auto. }
  split; [|split].
  - transitivity S; auto. transitivity (gather 0 S (map (sigma (2 * n + 1)) (seq 0 (2 * n + 1)))).
    + unfold gather. rewrite map_map. auto.
    + apply gather_perm. rewrite HS. apply sigma_perm.
  - intros v Hv. rewrite nth_map_seq0 by lia. change (sigma (2 * n + 1) 0) with 0.
    assert (Hin : In v S) by (apply (Permutation_in v (Permutation_sym SP)); auto).
    apply In_nth with (d := 0) in Hin. destruct Hin as (q & Hq & <-). rewrite HS in Hq.
    destruct q; [lia|]. apply Sorted; lia.
  - intros j Hj. rewrite !nth_map_seq0 by lia. rewrite sigma_odd. replace (2 * j + 2) with (2 * (j + 1)) by lia. rewrite sigma_even by lia.
    apply Sorted; lia.
Qed.

(** ** fast_fill_random *)
Lemma fill_assign_nth vs rem : forall ps col k, NoDup rem -> (forall p, In p ps -> p < length rem) -> NoDup ps ->
  (forall p, In p ps -> nth p rem 0 < length col) ->
  (forall p, p < length rem -> In p ps -> nth (nth p rem 0) (fold_left (fun c p => upd c (nth p rem 0) (nth p vs 0)) ps col) 0 = nth p vs 0) /\
  ((forall p, In p ps -> nth p rem 0 <> k) -> nth k (fold_left (fun c p => upd c (nth p rem 0) (nth p vs 0)) ps col) 0 = nth k col 0) /\
  length (fold_left (fun c p => upd c (nth p rem 0) (nth p vs 0)) ps col) = length col.
Proof.
  induction ps as [|q ps IH]; intros col k ND HP NP HB; simpl; [split; [intros ? ? []|split; auto]|].
  inversion NP; subst. 
  assert (HL : length (upd col (nth q rem 0) (nth q vs 0)) = length col) by apply length_upd.
  assert (HP' : forall p, In p ps -> p < length rem) by (intros; apply HP; simpl; auto).
  assert (HB' : forall p, In p ps -> nth p rem 0 < length (upd col (nth q rem 0) (nth q vs 0))) by (intros; rewrite HL; apply HB; simpl; auto).
  destruct (IH (upd col (nth q rem 0) (nth q vs 0)) k ND HP' ltac:(auto) HB') as (A & B & C).
  split; [|split].
  - intros p Hp [->|Hin]; [|apply A; auto].
    destruct (IH (upd col (nth p rem 0) (nth p vs 0)) (nth p rem 0) ND HP' ltac:(auto) HB') as (A' & B' & C').
    rewrite B'. { apply nth_upd_eq. apply HB; simpl; auto. }
    intros p' Hp' E. assert (p' = p) by (apply (proj1 (NoDup_nth rem 0) ND p' p (HP' _ Hp') Hp E)). subst. auto.
  - intros Hk. rewrite B by (intros; apply Hk; auto). apply nth_upd_neq. intros E. apply (Hk q); auto.
  - rewrite C. auto.
Qed.
Lemma fill_two D draw col col' :
  forall a, a <= 2 -> fill_column a draw D col = (col', []) -> 0 < a ->
  length col' = length col /\ forall i, i < length col -> ~ In (nth i col' 0) (nth i D []).
Proof.
  intros a Ha H H0. destruct a as [|a]; [lia|]. unfold fill_column in H. simpl in H.
  set (n := length col) in *. rewrite seq_length in H.
  set (col1 := fold_left _ (seq 0 n) col) in H.
  destruct (fill_assign_nth (draw 0) (seq 0 n) (seq 0 n) col 0 (seq_NoDup _ _)) as (A1 & B1 & C1).
  { intros p Hp. rewrite seq_length. apply in_seq in Hp. lia. } { apply seq_NoDup. }
  { intros p Hp. apply in_seq in Hp. rewrite seq_nth by lia. fold n; lia. }
  fold col1 in C1. fold n in C1.
  set (rem1 := where_ _ n) in H.
  assert (HR1 : forall i, i < n -> (In i rem1 <-> In (nth i col1 0) (nth i D []))).
  { intros i Hi. unfold rem1. rewrite In_where. rewrite seq_nth by auto. rewrite memb_In. simpl. tauto. }
  destruct rem1 as [|r0 rest] eqn:ER.
  - injection H as <-. split; auto. intros i Hi Hin. apply HR1 in Hin; auto.
  - rewrite <- ER in *. assert (a = 1). { destruct a as [|[|a]]; [|auto|lia]. simpl in H. injection H as _ H. rewrite ER in H. discriminate. } subst a. simpl in H.
    set (col2 := fold_left _ (seq 0 (length rem1)) col1) in H.
    assert (HND : NoDup rem1) by (unfold rem1; apply NoDup_where).
    assert (HB1 : forall i, In i rem1 -> i < n) by (intros i Hi; unfold rem1 in Hi; apply In_where in Hi; tauto).
    assert (FA : forall k, (forall p, p < length rem1 -> In p (seq 0 (length rem1)) -> nth (nth p rem1 0) col2 0 = nth p (draw 1) 0) /\
       ((forall p, In p (seq 0 (length rem1)) -> nth p rem1 0 <> k) -> nth k col2 0 = nth k col1 0) /\ length col2 = length col1).
    { intros k. apply fill_assign_nth; auto.
      - intros p Hp. apply in_seq in Hp. lia. - apply seq_NoDup.
      - intros p Hp. apply in_seq in Hp. rewrite C1. apply HB1. apply nth_In. lia. }
    set (rem2 := where_ _ (length rem1)) in H.
    assert (H2 : col2 = col' /\ rem2 = []). { destruct rem2; [split; congruence|discriminate]. }
    destruct H2 as [<- H2]. destruct (FA 0) as (_ & _ & CL). split; [lia|].
    intros i Hi Hin. destruct (in_dec Nat.eq_dec i rem1) as [Hir|Hir].
    + apply In_nth with (d := 0) in Hir. destruct Hir as (p & Hp & Ep).
      assert (In p rem2). { unfold rem2. apply In_where. split; auto. rewrite Ep. apply memb_In. auto. }
      rewrite H2 in H1. destruct H1.
    + destruct (FA i) as (_ & B & _). rewrite B in Hin.
      * apply Hir. apply HR1; auto.
      * intros p Hp E. apply Hir. rewrite <- E. apply nth_In. apply in_seq in Hp. lia.
Qed.
