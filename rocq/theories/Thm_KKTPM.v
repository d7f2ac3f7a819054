(** * C121: the Karush-Kuhn-Tucker proximity measure *)
From Coq Require Import List Arith Bool Reals Lra Lia.
From Verif Require Import ListAux M_KKTPM.
Import ListNotations.
Local Open Scope R_scope.

(** ** specification *)
(** exact arithmetic: the solution of a nonsingular system, and an exception if and only if the matrix is singular *)
Definition exact_solver (solve : solver) : Prop := forall n A b,
  match solve n A b with
  | Some u => (forall p, (p < n)%nat -> vsum n (fun q => A p q * u q) = b p) /\
              (forall v, (forall p, (p < n)%nat -> vsum n (fun q => A p q * v q) = 0) -> forall q, (q < n)%nat -> v q = 0)
  | None => exists v, (forall p, (p < n)%nat -> vsum n (fun q => A p q * v q) = 0) /\ exists q, (q < n)%nat /\ v q <> 0
  end.
Definition feasible (pt : point) : Prop := forall j, (j < n_ieq pt)%nat -> G pt j <= 0.
(** u are multipliers of a Karush-Kuhn-Tucker point of the scalarized problem: gradients arow of the objectives (weights adding up to 1) and constraints balance, complementary slackness *)
Definition kkt (rho : R) (z : nat -> R) (pt : point) (u : nat -> R) : Prop :=
  (forall q, (q < size pt)%nat -> 0 <= u q) /\ vsum (n_obj pt) u = 1 /\
  (forall k, (k < n_var pt)%nat -> vsum (size pt) (fun q => arow rho z pt q k * u q) = 0) /\
  (forall j, (j < n_ieq pt)%nat -> G pt j * u (n_obj pt + j)%nat = 0).

Lemma vsum_ext n f g : (forall i, (i < n)%nat -> f i = g i) -> vsum n f = vsum n g.
Proof. induction n; cbn; intros H; [reflexivity|]. rewrite IHn, H; auto. Qed.
Lemma vsum_zero n : vsum n (fun _ => 0) = 0.
Proof. induction n; cbn; lra. Qed.
Lemma vsum_0 n f : (forall i, (i < n)%nat -> f i = 0) -> vsum n f = 0.
Proof. intros H. rewrite (vsum_ext n f (fun _ => 0)) by auto. apply vsum_zero. Qed.
Lemma vsum_plus n f g : vsum n (fun i => f i + g i) = vsum n f + vsum n g.
Proof. induction n; cbn; lra. Qed.
Lemma vsum_scal n c f : vsum n (fun i => c * f i) = c * vsum n f.
Proof. induction n; cbn; [lra|]. rewrite IHn. ring. Qed.
Lemma vsum_scal_r n c f : vsum n (fun i => f i * c) = vsum n f * c.
Proof. induction n; cbn; [lra|]. rewrite IHn. ring. Qed.
Lemma vsum_swap n m f : vsum n (fun i => vsum m (fun j => f i j)) = vsum m (fun j => vsum n (fun i => f i j)).
Proof. induction n; cbn; [now rewrite vsum_zero|]. rewrite IHn, <- vsum_plus. reflexivity. Qed.
Lemma vsum_nonneg n f : (forall i, (i < n)%nat -> 0 <= f i) -> 0 <= vsum n f.
Proof. induction n; cbn; intros H; [lra|]. assert (0 <= vsum n f) by auto. specialize (H n ltac:(lia)). lra. Qed.
Lemma vsum_nonneg_0 n f : (forall i, (i < n)%nat -> 0 <= f i) -> vsum n f = 0 -> forall i, (i < n)%nat -> f i = 0.
Proof.
  induction n; cbn; intros H E i Hi; [lia|]. assert (0 <= vsum n f) by (apply vsum_nonneg; auto). pose proof (H n ltac:(lia)). destruct (Nat.eq_dec i n) as [->|]; [lra|]. apply IHn; auto; [lra|lia].
Qed.
Lemma vsum_app n m f : vsum (n + m) f = vsum n f + vsum m (fun j => f (n + j)%nat).
Proof. induction m; cbn; [rewrite Nat.add_0_r; lra|]. rewrite Nat.add_succ_r. cbn. rewrite IHm. lra. Qed.
Lemma vsum_single n p f : (p < n)%nat -> (forall i, (i < n)%nat -> i <> p -> f i = 0) -> vsum n f = f p.
Proof.
  induction n; cbn; intros Hp H; [lia|]. destruct (Nat.eq_dec p n) as [->|C].
  - rewrite vsum_0; [lra|]. intros i Hi. apply H; lia.
  - rewrite IHn by (auto; lia). rewrite (H n) by lia. lra.
Qed.
Lemma vsum_const n c : vsum n (fun _ => c) = INR n * c.
Proof. induction n; [cbn; lra|]. cbn [vsum]. rewrite IHn, S_INR. ring. Qed.

Section Form.
  Variables (rho : R) (z : nat -> R) (pt : point).
  Let n := size pt.
  Let o := n_obj pt.
  Let A := A0 rho z pt.
  Let V (u : nat -> R) k := vsum n (fun q => arow rho z pt q k * u q).
  Let D (x u : nat -> R) := vsum (n_ieq pt) (fun j => G pt j * G pt j * x (o + j)%nat * u (o + j)%nat).
  Lemma row_form u p : (p < n)%nat -> vsum n (fun q => A p q * u q) =
    (if (p <? o)%nat then vsum o u else 0) + vsum (n_var pt) (fun k => arow rho z pt p k * V u k) + (if (p <? o)%nat then 0 else G pt (p - o) * G pt (p - o) * u p).
  Proof.
    intros Hp. unfold A, A0. fold o.
    rewrite (vsum_ext n _ (fun q => ((if (p <? o)%nat && (q <? o)%nat then 1 else 0) * u q + vsum (n_var pt) (fun k => arow rho z pt p k * arow rho z pt q k) * u q) + (if (p =? q)%nat && negb (p <? o)%nat then G pt (p - o) * G pt (p - o) else 0) * u q)) by (intros; ring).
    rewrite !vsum_plus. f_equal; [f_equal|].
    - unfold n, size. fold o. rewrite vsum_app. rewrite (vsum_0 (n_ieq pt)).
      + rewrite Rplus_0_r. destruct (p <? o)%nat; [|apply vsum_0; intros; cbn; ring]. apply vsum_ext. intros i Hi. destruct (Nat.ltb_spec i o); [cbn; ring|lia].
      + intros j Hj. destruct (Nat.ltb_spec (o + j) o); [lia|]. rewrite andb_false_r. ring.
    - rewrite (vsum_ext n _ (fun q => vsum (n_var pt) (fun k => arow rho z pt p k * (arow rho z pt q k * u q)))).
      + rewrite vsum_swap. apply vsum_ext. intros k _. rewrite vsum_scal. reflexivity.
      + intros q _. rewrite <- vsum_scal_r. apply vsum_ext. intros; ring.
    - destruct (p <? o)%nat eqn:E; cbn [negb].
      + apply vsum_0. intros q _. rewrite andb_false_r. ring.
      + rewrite (vsum_single n p); auto; [rewrite Nat.eqb_refl; cbn; ring|]. intros q Hq C. destruct (Nat.eqb_spec p q); [congruence|]. cbn. ring.
  Qed.
  (** the bilinear form of the matrix *)
  Lemma bilinear x u : vsum n (fun p => x p * vsum n (fun q => A p q * u q)) = vsum o x * vsum o u + vsum (n_var pt) (fun k => V x k * V u k) + D x u.
  Proof.
    rewrite (vsum_ext n _ (fun p => (x p * (if (p <? o)%nat then vsum o u else 0) + x p * vsum (n_var pt) (fun k => arow rho z pt p k * V u k)) + x p * (if (p <? o)%nat then 0 else G pt (p - o) * G pt (p - o) * u p))) by (intros p Hp; rewrite row_form by auto; ring).
    rewrite !vsum_plus. f_equal; [f_equal|].
    - unfold n, size. fold o. rewrite vsum_app. rewrite (vsum_0 (n_ieq pt)).
      + rewrite Rplus_0_r, <- vsum_scal_r. apply vsum_ext. intros i Hi. destruct (Nat.ltb_spec i o); [ring|lia].
      + intros j Hj. destruct (Nat.ltb_spec (o + j) o); [lia|]. ring.
    - rewrite (vsum_ext n _ (fun p => vsum (n_var pt) (fun k => arow rho z pt p k * x p * V u k))) by (intros p _; rewrite <- vsum_scal; apply vsum_ext; intros; ring).
      rewrite vsum_swap. apply vsum_ext. intros k _. rewrite vsum_scal_r. reflexivity.
    - unfold n, size. fold o. rewrite vsum_app, vsum_0, Rplus_0_l; [unfold D; apply vsum_ext|].
      + intros j Hj. destruct (Nat.ltb_spec (o + j) o); [lia|]. replace (o + j - o)%nat with j by lia. ring.
      + intros i Hi. destruct (Nat.ltb_spec i o); [ring|lia].
  Qed.
  (** the loop keeps a system in which the multipliers of a set T of indices are fixed to 0 *)
  Definition fixedA (T : nat -> bool) p q : R := if T p || T q then (if (p =? q)%nat then 1 else 0) else A p q.
  Definition fixedb (T : nat -> bool) p : R := if T p then 0 else b0 pt p.
  Definition inv (T : nat -> bool) (st : state) : Prop :=
    let '(A', b', u) := st in (forall p q, (p < n)%nat -> (q < n)%nat -> A' p q = fixedA T p q) /\ (forall p, (p < n)%nat -> b' p = fixedb T p) /\ (forall p, (p < n)%nat -> vsum n (fun q => A' p q * u q) = b' p).
  Lemma fixed_row T u p : (p < n)%nat -> T p = true -> vsum n (fun q => fixedA T p q * u q) = u p.
  Proof.
    intros Hp HT. rewrite (vsum_single n p); auto; unfold fixedA; rewrite HT; cbn [orb]; [rewrite Nat.eqb_refl; ring|]. intros i Hi C. destruct (Nat.eqb_spec p i); [congruence|]. ring.
  Qed.
  Lemma free_row T u p : (p < n)%nat -> T p = false -> (forall q, (q < n)%nat -> T q = true -> u q = 0) -> vsum n (fun q => fixedA T p q * u q) = vsum n (fun q => A p q * u q).
  Proof.
    intros Hp HT Hu. apply vsum_ext. intros q Hq. unfold fixedA. rewrite HT. cbn [orb]. destruct (T q) eqn:E; [rewrite (Hu q) by auto; ring|reflexivity].
  Qed.
  Lemma inv_zero T A' b' u : inv T (A', b', u) -> forall p, (p < n)%nat -> T p = true -> u p = 0.
  Proof.
    intros (HA & Hb & Hs) p Hp HT. specialize (Hs p Hp). rewrite Hb in Hs by auto. rewrite (vsum_ext n _ (fun q => fixedA T p q * u q)) in Hs by (intros q Hq; now rewrite HA). rewrite fixed_row in Hs by auto. unfold fixedb in Hs. now rewrite HT in Hs.
  Qed.
  Lemma inv_normal T A' b' u : inv T (A', b', u) -> forall p, (p < n)%nat -> T p = false -> vsum n (fun q => A p q * u q) = b0 pt p.
  Proof.
    intros I0 p Hp HT. pose proof (inv_zero _ _ _ _ I0) as Z. destruct I0 as (HA & Hb & Hs). specialize (Hs p Hp). rewrite Hb in Hs by auto. rewrite (vsum_ext n _ (fun q => fixedA T p q * u q)) in Hs by (intros q Hq; now rewrite HA). rewrite free_row in Hs by auto. unfold fixedb in Hs. now rewrite HT in Hs.
  Qed.
  (** what the normal equations say about the measure *)
  Lemma normal_energy T st : inv T st -> vsum o (snd st) * vsum o (snd st) + vsum (n_var pt) (fun k => V (snd st) k * V (snd st) k) + D (snd st) (snd st) = vsum o (snd st).
  Proof.
    destruct st as [[A' b'] u]. intros I0. cbn [snd]. rewrite <- bilinear. rewrite (vsum_ext n _ (fun p => u p * b0 pt p)).
    - unfold n, size. fold o. rewrite vsum_app. rewrite (vsum_0 (n_ieq pt)); [rewrite Rplus_0_r; apply vsum_ext|].
      + intros i Hi. unfold b0. fold o. destruct (Nat.ltb_spec i o); [ring|lia].
      + intros j Hj. unfold b0. fold o. destruct (Nat.ltb_spec (o + j) o); [lia|ring].
    - intros p Hp. destruct (T p) eqn:E; [rewrite (inv_zero _ _ _ _ I0 p Hp E); ring|now rewrite (inv_normal _ _ _ _ I0 p Hp E)].
  Qed.
  Variable solve : solver.
  Hypothesis Hsolve : exact_solver solve.
  Definition add_index (T : nat -> bool) (j p : nat) : bool := (p =? j)%nat || T p.
  Lemma fix_inv T A' b' u j u' : (j < n)%nat -> inv T (A', b', u) -> solve n (fix_matrix A' j) (fix_rhs b' j) = Some u' -> inv (add_index T j) (fix_matrix A' j, fix_rhs b' j, u').
  Proof.
    intros Hj (HA & Hb & Hs) E. pose proof (Hsolve n (fix_matrix A' j) (fix_rhs b' j)) as S0. rewrite E in S0. destruct S0 as [S0 _]. split; [|split; [|exact S0]].
    - intros p q Hp Hq. unfold fix_matrix, fixedA, add_index. destruct (Nat.eqb_spec p j) as [->|Cp], (Nat.eqb_spec q j) as [->|Cq]; cbn [orb andb].
      + now rewrite Nat.eqb_refl.
      + destruct (Nat.eqb_spec j q); [congruence|reflexivity].
      + rewrite orb_true_r. destruct (Nat.eqb_spec p j); [congruence|reflexivity].
      + rewrite HA by auto. reflexivity.
    - intros p Hp. unfold fix_rhs, fixedb, add_index. destruct (Nat.eqb_spec p j); cbn [orb]; [reflexivity|]. now rewrite Hb.
  Qed.
  Definition count (T : nat -> bool) : nat := length (filter T (seq 0 n)).
  Lemma count_le T : (count T <= n)%nat.
  Proof. unfold count. rewrite <- (seq_length n 0) at 2. generalize (seq 0 n). intros l. induction l as [|a l IH]; cbn [filter length]; [lia|]. destruct (T a); cbn [length]; lia. Qed.
  Lemma count_add T j : (j < n)%nat -> T j = false -> count (add_index T j) = S (count T).
  Proof.
    intros Hj HT. unfold count. replace n with (j + S (n - S j))%nat by lia. rewrite seq_app, !filter_app, !app_length. cbn [Nat.add seq filter]. rewrite HT. unfold add_index at 2. rewrite Nat.eqb_refl. cbn [orb length].
    assert (E : forall l, ~ In j l -> filter (add_index T j) l = filter T l). { intros l Hl. apply filter_ext_in. intros a Ha. unfold add_index. destruct (Nat.eqb_spec a j) as [->|]; [contradiction|reflexivity]. }
    rewrite !E; [lia| |]; intros C; apply in_seq in C; lia.
  Qed.
  Lemma pass js : forall T st st', (forall j, In j js -> (j < n)%nat) -> inv T st -> fold_left (fix_step solve pt) js (Some st) = Some st' ->
    exists T', inv T' st' /\ (count T <= count T')%nat /\ ((exists j, In j js /\ snd st j < 0) -> (count T < count T')%nat).
  Proof.
    induction js as [|j js IH]; cbn [fold_left]; intros T [[A' b'] u] st' Hjs I0 E.
    - injection E as <-. exists T. split; auto. split; [lia|]. intros (j & [] & _).
    - cbn [fix_step] in E. destruct (Rlt_dec (u j) 0) as [C|C].
      + destruct (solve (size pt) (fix_matrix A' j) (fix_rhs b' j)) as [u'|] eqn:Es; cbn [option_map] in E.
        * assert (HT : T j = false). { destruct (T j) eqn:HT; auto. pose proof (inv_zero _ _ _ _ I0 j (Hjs j (or_introl eq_refl)) HT). lra. }
          destruct (IH (add_index T j) _ st' (fun i Hi => Hjs i (or_intror Hi)) (fix_inv T A' b' u j u' (Hjs j (or_introl eq_refl)) I0 Es) E) as (T' & I1 & L & _).
          rewrite count_add in L by (auto; apply Hjs; now left). exists T'. split; auto. split; [lia|]. intros _. lia.
        * exfalso. revert E. clear. induction js as [|i js IH]; cbn [fold_left fix_step]; [discriminate|exact IH].
      + destruct (IH T _ st' (fun i Hi => Hjs i (or_intror Hi)) I0 E) as (T' & I1 & L & M). exists T'. split; auto. split; auto. cbn [snd] in *. intros (i & [->|Hi] & Hn); [lra|]. apply M. eauto.
  Qed.
  Lemma loop fuel : forall T st, inv T st -> (n <= fuel + count T)%nat ->
    match fix_loop solve pt fuel (Some st) with Done u => exists T' A' b', inv T' (A', b', u) /\ forall q, (q < n)%nat -> 0 <= u q | Singular => True | Loops => False end.
  Proof.
    induction fuel as [|fuel IH]; intros T [[A' b'] u] I0 Hf; cbn [fix_loop].
    - destruct (any_negative pt u) eqn:E.
      + unfold any_negative in E. apply existsb_exists in E. destruct E as (j & Hj & En). apply in_seq in Hj. destruct (Rlt_dec (u j) 0) as [C|]; [|discriminate].
        assert (HT : T j = false). { destruct (T j) eqn:HT; auto. pose proof (inv_zero _ _ _ _ I0 j (proj2 Hj) HT). lra. }
        pose proof (count_add T j (proj2 Hj) HT). pose proof (count_le (add_index T j)). lia.
      + exists T, A', b'. split; auto. intros q Hq. apply Rnot_lt_le. intros C. assert (any_negative pt u = true); [|congruence]. apply existsb_exists. exists q. split; [apply in_seq; fold n; lia|]. now destruct (Rlt_dec (u q) 0).
    - destruct (any_negative pt u) eqn:E.
      + unfold any_negative in E. apply existsb_exists in E. destruct E as (j & Hj & En). destruct (Rlt_dec (u j) 0) as [C|]; [|discriminate].
        destruct (fold_left (fix_step solve pt) (seq 0 (size pt)) (@Some state (A', b', u))) as [st'|] eqn:Ef; [|now destruct fuel].
        destruct (pass (seq 0 n) T (A', b', u) st') as (T' & I1 & L & M); auto; [intros i Hi; apply in_seq in Hi; lia|]. apply (IH T'); auto. assert (count T < count T')%nat by (apply M; exists j; auto). lia.
      + exists T, A', b'. split; auto. intros q Hq. apply Rnot_lt_le. intros C. assert (any_negative pt u = true); [|congruence]. apply existsb_exists. exists q. split; [apply in_seq; fold n; lia|]. now destruct (Rlt_dec (u q) 0).
  Qed.
  Lemma found fuel : (n <= fuel)%nat -> match find_multipliers solve rho z pt fuel with Done u => exists T A' b', inv T (A', b', u) /\ forall q, (q < n)%nat -> 0 <= u q | Singular => True | Loops => False end.
  Proof.
    intros Hf. unfold find_multipliers. fold n. fold A. pose proof (Hsolve n A (b0 pt)) as S0. destruct (solve n A (b0 pt)) as [u|]; cbn [option_map]; [|now destruct fuel]. apply (loop fuel (fun _ => false)); [|lia].
    split; [|split; [|apply S0]]; reflexivity.
  Qed.
  (** singular systems *)
  Definition degenerate : Prop := exists v, vsum o v = 0 /\ (forall k, (k < n_var pt)%nat -> V v k = 0) /\ (forall j, (j < n_ieq pt)%nat -> G pt j * v (o + j)%nat = 0) /\ exists q, (q < n)%nat /\ v q <> 0.
  Lemma form_zero v : vsum o v * vsum o v + vsum (n_var pt) (fun k => V v k * V v k) + D v v = 0 -> vsum o v = 0 /\ (forall k, (k < n_var pt)%nat -> V v k = 0) /\ (forall j, (j < n_ieq pt)%nat -> G pt j * v (o + j)%nat = 0).
  Proof.
    intros H. assert (H1 : 0 <= vsum (n_var pt) (fun k => V v k * V v k)) by (apply vsum_nonneg; intros; nra). assert (H2 : 0 <= D v v) by (apply vsum_nonneg; intros j _; set (t := v (o + j)%nat); set (g := G pt j); nra).
    pose proof (Rle_0_sqr (vsum o v)) as H3. unfold Rsqr in H3. split; [|split].
    - apply Rsqr_0_uniq. unfold Rsqr. lra.
    - intros k Hk. apply Rsqr_0_uniq. unfold Rsqr. apply (vsum_nonneg_0 (n_var pt) (fun k => V v k * V v k)); auto; [intros; nra|lra].
    - intros j Hj. apply Rsqr_0_uniq. unfold Rsqr. replace (G pt j * v (o + j)%nat * (G pt j * v (o + j)%nat)) with (G pt j * G pt j * v (o + j)%nat * v (o + j)%nat) by ring.
      apply (vsum_nonneg_0 (n_ieq pt) (fun j => G pt j * G pt j * v (o + j)%nat * v (o + j)%nat)); auto; [intros i _; set (t := v (o + i)%nat); set (g := G pt i); nra|unfold D in *; lra].
  Qed.
  Lemma singular_degenerate : degenerate <-> exists v, (forall p, (p < n)%nat -> vsum n (fun q => A p q * v q) = 0) /\ exists q, (q < n)%nat /\ v q <> 0.
  Proof.
    split.
    - intros (v & H1 & H2 & H3 & H4). exists v. split; auto. intros p Hp. rewrite row_form by auto. rewrite H1, (vsum_0 (n_var pt)) by (intros k Hk; rewrite H2 by auto; ring). destruct (Nat.ltb_spec p o) as [|C]; [ring|].
      specialize (H3 (p - o)%nat). replace (o + (p - o))%nat with p in H3 by lia. rewrite Rmult_assoc, H3; [ring|]. unfold n, size in Hp. fold o in Hp. lia.
    - intros (v & H1 & H2). exists v. destruct (form_zero v) as (E1 & E2 & E3); [|now repeat split].
      rewrite <- bilinear. apply vsum_0. intros p Hp. rewrite H1 by auto. ring.
  Qed.
  Lemma fix_none T A' b' u j : (j < n)%nat -> inv T (A', b', u) -> solve n (fix_matrix A' j) (fix_rhs b' j) = None -> degenerate.
  Proof.
    intros Hj (HA & Hb & Hs) E. pose proof (Hsolve n (fix_matrix A' j) (fix_rhs b' j)) as S0. rewrite E in S0. destruct S0 as (v & Hv & Hq). exists v.
    assert (HA' : forall p q, (p < n)%nat -> (q < n)%nat -> fix_matrix A' j p q = fixedA (add_index T j) p q).
    { intros p q Hp Hq'. unfold fix_matrix, fixedA, add_index. destruct (Nat.eqb_spec p j) as [->|Cp], (Nat.eqb_spec q j) as [->|Cq]; cbn [orb andb].
      + now rewrite Nat.eqb_refl.
      + destruct (Nat.eqb_spec j q); [congruence|reflexivity].
      + rewrite orb_true_r. destruct (Nat.eqb_spec p j); [congruence|reflexivity].
      + rewrite HA by auto. reflexivity. }
    assert (Hv' : forall p, (p < n)%nat -> vsum n (fun q => fixedA (add_index T j) p q * v q) = 0) by (intros p Hp; rewrite <- (Hv p Hp); apply vsum_ext; intros q Hq'; now rewrite HA').
    assert (Z : forall p, (p < n)%nat -> add_index T j p = true -> v p = 0) by (intros p Hp HT; rewrite <- (fixed_row (add_index T j) v p Hp HT); auto).
    destruct (form_zero v) as (E1 & E2 & E3); [|now repeat split]. rewrite <- bilinear. apply vsum_0. intros p Hp. destruct (add_index T j p) eqn:HT; [rewrite Z by auto; ring|]. rewrite <- (free_row (add_index T j) v p Hp HT Z), Hv' by auto. ring.
  Qed.
  Lemma pass_none js : forall T st, (forall j, In j js -> (j < n)%nat) -> inv T st -> fold_left (fix_step solve pt) js (Some st) = None -> degenerate.
  Proof.
    induction js as [|j js IH]; cbn [fold_left]; intros T [[A' b'] u] Hjs I0 E; [discriminate|]. cbn [fix_step] in E. destruct (Rlt_dec (u j) 0) as [C|C].
    - destruct (solve (size pt) (fix_matrix A' j) (fix_rhs b' j)) as [u'|] eqn:Es; cbn [option_map] in E.
      + eapply IH; [intros i Hi; apply Hjs; now right| |exact E]. eapply fix_inv; eauto. apply Hjs. now left.
      + eapply fix_none; eauto. apply Hjs. now left.
    - eapply IH; eauto. intros i Hi. apply Hjs. now right.
  Qed.
  Lemma loop_singular fuel : forall T st, inv T st -> fix_loop solve pt fuel (Some st) = Singular -> degenerate.
  Proof.
    induction fuel as [|fuel IH]; intros T [[A' b'] u] I0; cbn [fix_loop]; destruct (any_negative pt u); try discriminate.
    destruct (fold_left (fix_step solve pt) (seq 0 (size pt)) (@Some state (A', b', u))) as [st'|] eqn:Ef; intros H.
    - destruct (pass (seq 0 n) T (A', b', u) st') as (T' & I1 & _); auto; [intros i Hi; apply in_seq in Hi; lia|]. eapply IH; eauto.
    - eapply pass_none; [|exact I0|exact Ef]. intros j Hj. apply in_seq in Hj. fold n in Hj. lia.
  Qed.
  Lemma singular_iff fuel : find_multipliers solve rho z pt fuel = Singular <-> degenerate.
  Proof.
    unfold find_multipliers. fold n. fold A. pose proof (Hsolve n A (b0 pt)) as S0. destruct (solve n A (b0 pt)) as [u|]; cbn [option_map].
    - split.
      + apply (loop_singular fuel (fun _ => false)). split; [|split; [|apply S0]]; reflexivity.
      + intros Hd. exfalso. apply singular_degenerate in Hd. destruct Hd as (v & Hv & q & Hq & Hn). apply Hn. now apply (proj2 S0 v).
    - split; [intros _; now apply singular_degenerate|intros _; now destruct fuel].
  Qed.
End Form.
