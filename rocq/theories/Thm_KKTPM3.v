(** * C121 (continued): an exact solver, and a feasible solution measured above 1 *)
From Coq Require Import List Arith Bool Reals Lra Lia.
From Verif Require Import ListAux M_KKTPM Thm_KKTPM Thm_KKTPM2.
Import ListNotations.
Local Open Scope R_scope.

(** Gaussian elimination *)
Definition kernel (n : nat) (A : nat -> nat -> R) (v : nat -> R) : Prop := (forall p, (p < n)%nat -> vsum n (fun q => A p q * v q) = 0) /\ exists q, (q < n)%nat /\ v q <> 0.
Definition regular (n : nat) (A : nat -> nat -> R) (s : (nat -> R) -> nat -> R) : Prop :=
  (forall b p, (p < n)%nat -> vsum n (fun q => A p q * s b q) = b p) /\ (forall v, (forall p, (p < n)%nat -> vsum n (fun q => A p q * v q) = 0) -> forall q, (q < n)%nat -> v q = 0).
Definition pivot (n : nat) (f : nat -> R) : {p | (p < n)%nat /\ f p <> 0} + {forall p, (p < n)%nat -> f p = 0}.
Proof.
  induction n as [|n [[p Hp]|H]].
  - right. intros p Hp. lia.
  - left. exists p. split; [lia|apply Hp].
  - destruct (Req_EM_T (f n) 0) as [E|E]; [right|left; exists n; auto]. intros p Hp. destruct (Nat.eq_dec p n) as [->|]; auto. apply H. lia.
Defined.
Definition swap (a b p : nat) : nat := if (p =? a)%nat then b else if (p =? b)%nat then a else p.
Lemma swap_swap a b p : swap a b (swap a b p) = p.
Proof. unfold swap. destruct (Nat.eqb_spec p a), (Nat.eqb_spec p b); subst; repeat (match goal with |- context [(?x =? ?y)%nat] => destruct (Nat.eqb_spec x y) end); congruence. Qed.
Lemma swap_lt n a b p : (a < n)%nat -> (b < n)%nat -> (p < n)%nat -> (swap a b p < n)%nat.
Proof. unfold swap. destruct (p =? a)%nat, (p =? b)%nat; auto. Qed.
Lemma gauss : forall n A, {v | kernel n A v} + {s | regular n A s}.
Proof.
  induction n as [|n IH]; intros A.
  - right. exists (fun _ _ => 0). split; intros; lia.
  - destruct (pivot (S n) (fun p => A p n)) as [(r & Hr & Hn)|Z].
    + set (A1 := fun p => A (swap r n p)). assert (Hp1 : A1 n n <> 0). { unfold A1, swap. rewrite Nat.eqb_refl. destruct (Nat.eqb_spec n r) as [->|]; auto. }
      set (B := fun p q => A1 p q - A1 p n / A1 n n * A1 n q).
      set (last := fun (v : nat -> R) (c : R) => (c - vsum n (fun q => A1 n q * v q)) / A1 n n).
      set (ext := fun (v : nat -> R) (c : R) (q : nat) => if (q =? n)%nat then last v c else v q).
      assert (Eext : forall v c f, vsum n (fun q => f q * ext v c q) = vsum n (fun q => f q * v q)). { intros v c f. apply vsum_ext. intros q Hq. unfold ext. destruct (Nat.eqb_spec q n); [lia|reflexivity]. }
      assert (Elast : forall v c, ext v c n = last v c) by (intros; unfold ext; now rewrite Nat.eqb_refl).
      assert (EB : forall p v, vsum n (fun q => B p q * v q) = vsum n (fun q => A1 p q * v q) - A1 p n / A1 n n * vsum n (fun q => A1 n q * v q)).
      { intros p v. unfold B. rewrite (vsum_ext _ _ (fun q => A1 p q * v q + - (A1 p n / A1 n n) * (A1 n q * v q))) by (intros; ring). rewrite vsum_plus, vsum_scal. ring. }
      assert (Ext_row : forall v c p, vsum (S n) (fun q => A1 p q * ext v c q) = vsum n (fun q => B p q * v q) + A1 p n / A1 n n * c).
      { intros v c p. cbn [vsum]. rewrite Eext, Elast, EB. unfold last. field. auto. }
      assert (Unswap : forall f : nat -> R, (forall p, (p < S n)%nat -> f (swap r n p) = 0) -> forall p, (p < S n)%nat -> f p = 0).
      { intros f Hf p Hp. rewrite <- (swap_swap r n p). apply Hf. apply swap_lt; auto; lia. }
      destruct (IH B) as [(v & Hv & Hq)|(s & Hs & Hi)].
      * left. exists (ext v 0). split.
        { apply (Unswap (fun p => vsum (S n) (fun q => A p q * ext v 0 q))). intros p Hp. change (vsum (S n) (fun q => A1 p q * ext v 0 q) = 0). rewrite Ext_row. destruct (Nat.eq_dec p n) as [->|C].
          - rewrite EB. field. auto.
          - rewrite Hv by lia. ring. }
        destruct Hq as (q & Hq & Hnz). exists q. split; [lia|]. unfold ext. destruct (Nat.eqb_spec q n); [lia|auto].
      * right. exists (fun b => let b1 := fun p => b (swap r n p) in ext (s (fun p => b1 p - A1 p n / A1 n n * b1 n)) (b1 n)). split.
        { intros b p0 Hp0. cbv zeta. set (b1 := fun p => b (swap r n p)). set (u := s _).
          assert (E : forall p, (p < S n)%nat -> vsum (S n) (fun q => A1 p q * ext u (b1 n) q) = b1 p).
          { intros p Hp. rewrite Ext_row. destruct (Nat.eq_dec p n) as [->|C].
            - rewrite EB. field. auto.
            - unfold u. rewrite Hs by lia. ring. }
          specialize (E (swap r n p0) (swap_lt (S n) r n p0 Hr (Nat.lt_succ_diag_r n) Hp0)). unfold A1, b1 in E. rewrite swap_swap in E. exact E. }
        { intros v Hv. assert (Hv1 : forall p, (p < S n)%nat -> vsum n (fun q => A1 p q * v q) + A1 p n * v n = 0) by (intros p Hp; apply (Hv (swap r n p)); apply swap_lt; auto; lia).
          assert (Z : forall q, (q < n)%nat -> v q = 0).
          { apply Hi. intros p Hp. rewrite EB. pose proof (Hv1 p ltac:(lia)) as E1. pose proof (Hv1 n ltac:(lia)) as E2. replace (vsum n (fun q => A1 n q * v q)) with (- (A1 n n * v n)) by lra. rewrite <- E1. field. auto. }
          intros q Hq. destruct (Nat.eq_dec q n) as [->|C]; [|apply Z; lia]. pose proof (Hv1 n ltac:(lia)) as E. rewrite vsum_0 in E by (intros i Hi'; rewrite Z by auto; ring). rewrite Rplus_0_l in E. apply Rmult_integral in E. tauto. }
    + left. exists (fun q => if (q =? n)%nat then 1 else 0). split.
      * intros p Hp. cbn [vsum]. rewrite Nat.eqb_refl, (Z p Hp). rewrite vsum_0; [ring|]. intros q Hq. destruct (Nat.eqb_spec q n); [lia|ring].
      * exists n. split; [lia|]. rewrite Nat.eqb_refl. lra.
Qed.
(** there is an exact solver *)
Theorem C121_solver : exists solve, exact_solver solve.
Proof.
  exists (fun n A b => match gauss n A with inl _ => None | inr s => Some (proj1_sig s b) end). intros n A b. destruct (gauss n A) as [(v & Hv)|(s & Hs & Hi)]; [exists v; exact Hv|]. cbn [proj1_sig]. split; auto.
Qed.

(** one variable, one objective with gradient 400 / (1 + rho), eight constraints with value -1/100 and gradient -1 *)
Definition example (rho : R) : point := {| n_var := 1; n_obj := 1; n_ieq := 8; F := fun _ => 1; G := fun _ => - (1 / 100); dF := fun _ _ => 400 / (1 + rho); dG := fun _ _ => -1 |}.
Definition example_u (q : nat) : R := if (q =? 0)%nat then 1 - 4 / 100 * (400 / (24 + 1 / 10000)) else 400 / (24 + 1 / 10000).
Section Example.
  Variable rho : R.
  Hypothesis Hrho : 0 < rho.
  Let pt := example rho.
  Let z := fun _ : nat => 0.
  Lemma ex_w m : w z pt m = 1.
  Proof. unfold w, pt, z, example. cbn. replace (0 + (1 - 0) * ((1 - 0) * 1)) with 1 by ring. rewrite sqrt_1. field. Qed.
  Lemma ex_arow q k : arow rho z pt q k = if (q <? 1)%nat then 400 else -1.
  Proof. unfold arow. cbn [n_obj pt example dF dG vsum]. destruct (q <? 1)%nat; [|reflexivity]. rewrite !ex_w. field. lra. Qed.
  Lemma ex_solves p : (p < 9)%nat -> vsum 9 (fun q => A0 rho z pt p q * example_u q) = b0 pt p.
  Proof.
    intros Hp. assert (E : forall p q, A0 rho z pt p q = (if (p <? 1)%nat && (q <? 1)%nat then 1 else 0) + (if (p <? 1)%nat then 400 else -1) * (if (q <? 1)%nat then 400 else -1) + (if (p =? q)%nat && negb (p <? 1)%nat then (1 / 100) * (1 / 100) else 0)).
    { intros p' q'. unfold A0. cbn [n_obj n_var pt example vsum G]. rewrite !ex_arow. destruct ((p' =? q')%nat && negb (p' <? 1)%nat); ring. }
    rewrite (vsum_ext _ _ (fun q => ((if (p <? 1)%nat && (q <? 1)%nat then 1 else 0) + (if (p <? 1)%nat then 400 else -1) * (if (q <? 1)%nat then 400 else -1) + (if (p =? q)%nat && negb (p <? 1)%nat then (1 / 100) * (1 / 100) else 0)) * example_u q)) by (intros; now rewrite E).
    unfold b0. cbn [n_obj pt example]. do 9 (destruct p as [|p]; [cbn; unfold example_u; cbn; field|]). lia.
  Qed.
  Lemma ex_not_degenerate : ~ degenerate rho z pt.
  Proof.
    intros (v & H1 & _ & H3 & q & Hq & Hn). apply Hn. cbn in H1. destruct q as [|q]; [lra|]. specialize (H3 q). cbn [n_ieq n_obj pt example G] in H3. unfold size in Hq. cbn in Hq. specialize (H3 ltac:(lia)). cbn [Nat.add] in H3. lra.
  Qed.
  Lemma ex_value solve fuel : exact_solver solve -> exists r, kktpm solve rho z pt fuel = Value r /\ 103 / 100 < r.
  Proof.
    intros Hs. unfold kktpm. destruct (Rlt_dec 0 (cv pt)) as [C|_]. { exfalso. apply cv_pos in C. apply C. intros j _. cbn. lra. }
    unfold find_multipliers. change (size pt) with 9%nat. pose proof (Hs 9%nat (A0 rho z pt) (b0 pt)) as S0. destruct (solve 9%nat (A0 rho z pt) (b0 pt)) as [u|]; cbn [option_map].
    2:{ exfalso. apply ex_not_degenerate. apply singular_degenerate. exact S0. }
    destruct S0 as [S1 S2]. assert (Eu : forall q, (q < 9)%nat -> u q = example_u q).
    { intros q Hq. assert (u q + -1 * example_u q = 0); [|lra]. apply (S2 (fun q => u q + -1 * example_u q)); auto. intros p Hp.
      rewrite (vsum_ext _ _ (fun q => A0 rho z pt p q * u q + -1 * (A0 rho z pt p q * example_u q))) by (intros; ring). rewrite vsum_plus, vsum_scal, S1, ex_solves by auto. ring. }
    assert (Hu : forall q, (q < 9)%nat -> 0 <= u q). { intros q Hq. rewrite Eu by auto. unfold example_u. destruct (q =? 0)%nat; lra. }
    assert (N : any_negative pt u = false).
    { destruct (any_negative pt u) eqn:E; auto. unfold any_negative in E. apply existsb_exists in E. destruct E as (j & Hj' & En). apply in_seq in Hj'. change (size pt) with 9%nat in Hj'. destruct (Rlt_dec (u j) 0) as [C|]; [|discriminate]. specialize (Hu j ltac:(lia)). lra. }
    assert (EL : forall f, fix_loop solve pt f (Some (A0 rho z pt, b0 pt, u)) = Done u) by (intros f; destruct f; cbn [fix_loop]; now rewrite N). rewrite EL. cbn [n_ieq pt example Nat.eqb].
    eexists. split; [reflexivity|]. unfold measure. cbn [n_obj n_ieq pt example G]. cbv zeta.
    rewrite (vsum_ext 1 u example_u) by (intros; apply Eu; lia). rewrite (vsum_ext 8 (fun j => - (1 / 100) * u (1 + j)%nat) (fun j => - (1 / 100) * (400 / (24 + 1 / 10000)))) by (intros j Hj; rewrite Eu by lia; reflexivity). rewrite !vsum_const. cbn [vsum]. unfold example_u at 1. cbn [Nat.eqb].
    assert (ED : direct rho z pt u = (1 - (0 + example_u 0)) ^ 2 + (400 * example_u 0 - 8 * (400 / (24 + 1 / 10000))) ^ 2).
    { unfold direct. cbn [n_obj n_var pt example]. rewrite (vsum_ext 1 u example_u) by (intros; apply Eu; lia). cbn [vsum]. change (size pt) with 9%nat. rewrite (vsum_ext 9 _ (fun q => (if (q <? 1)%nat then 400 else -1) * example_u q)) by (intros q Hq; rewrite ex_arow, Eu by auto; reflexivity). cbn. unfold example_u. cbn. ring. }
    rewrite ED. unfold example_u. cbn [Nat.eqb]. replace (INR 8) with 8 by (cbn; ring).
    match goal with |- context [Rlt_dec 1 ?e] => destruct (Rlt_dec 1 e) as [C|C] end; [|exfalso; lra].
    set (t := 400 / (24 + 1 / 10000)). assert (Ht : 16.6665 < t < 16.6667) by (unfold t; lra). clearbody t.
    match goal with |- 103 / 100 < (?d + ?q + ?p) / 3 => assert (Hd : 0.44 < d) end.
    { pose proof (pow2_ge_0 (400 * (1 - 4 / 100 * t) - 8 * t)). assert (0.66 < 1 - (0 + (1 - 4 / 100 * t))) by lra. nra. }
    set (d := (1 - (0 + (1 - 4 / 100 * t))) ^ 2 + _) in *. clearbody d.
    set (gg := 8 * (- (1 / 100) * - (1 / 100))). assert (Hg : gg = 8 / 10000) by (unfold gg; field). rewrite Hg.
    set (q := 8 * (- (1 / 100) * t)). assert (Hq : - q > 1.3333) by (unfold q; lra). clearbody q.
    assert ((d * (8 / 10000) - q) / (1 + 8 / 10000) > 1.332); [|lra]. apply Rlt_gt. apply (Rmult_lt_reg_r (1 + 8 / 10000)); [lra|]. unfold Rdiv at 2. rewrite Rmult_assoc, Rinv_l by lra. lra.
  Qed.
End Example.
(** C121 (refuted): the measure of a feasible solution can exceed 1, so that it looks worse than a slightly infeasible one *)
Theorem C121_feasible_refuted : exists pt z, (n_ieq pt = 8)%nat /\ feasible pt /\ (forall m, z m < F pt m) /\ forall solve fuel, exact_solver solve -> exists r, kktpm solve (1 / 1000) z pt fuel = Value r /\ 103 / 100 < r.
Proof.
  exists (example (1 / 1000)), (fun _ => 0). split; [reflexivity|]. split; [intros j _; cbn; lra|]. split; [intros m; cbn; lra|]. intros solve fuel Hs. apply ex_value; auto. lra.
Qed.
(** a critical solution: two objectives with opposite gradients, one inactive constraint *)
Definition critical_pt : point := {| n_var := 1; n_obj := 2; n_ieq := 1; F := fun _ => 1; G := fun _ => -1; dF := fun m _ => if (m =? 0)%nat then 1 else -1; dG := fun _ _ => 1 |}.
Example C121_example : feasible critical_pt /\ (exists u, kkt (1 / 1000) (fun _ => 0) critical_pt u) /\ ~ degenerate (1 / 1000) (fun _ => 0) critical_pt.
Proof.
  assert (W0 : w (fun _ => 0) critical_pt 0 = w (fun _ => 0) critical_pt 1) by reflexivity. assert (Hw : 0 < w (fun _ => 0) critical_pt 1). { unfold w. cbn. apply Rmult_lt_0_compat; [apply sqrt_lt_R0; lra|apply Rinv_0_lt_compat; lra]. }
  split; [intros j _; cbn; lra|]. split.
  - exists (fun q => if (q =? 2)%nat then 0 else 1 / 2). split; [intros q _; destruct (q =? 2)%nat; lra|]. split; [cbn; lra|]. split.
    + intros k Hk. cbn [n_var critical_pt size n_obj n_ieq Nat.add vsum] in *. unfold arow. cbn [n_obj critical_pt Nat.ltb Nat.leb dF Nat.eqb vsum]. rewrite W0. field.
    + intros j Hj. cbn in Hj. replace j with 0%nat by lia. cbn. ring.
  - intros (v & H1 & H2 & H3 & q & Hq & Hn). apply Hn. specialize (H3 0%nat). cbn in H3, H1. specialize (H3 ltac:(lia)). specialize (H2 0%nat). cbn [n_var critical_pt size n_obj n_ieq Nat.add vsum] in *. specialize (H2 ltac:(lia)).
    unfold arow in H2. cbn [n_obj critical_pt Nat.ltb Nat.leb dF Nat.eqb vsum Nat.sub dG] in H2. rewrite W0 in H2. set (x := w _ _ _) in *. assert (E2 : v 2%nat = 0) by lra. rewrite E2 in H2. assert (E1 : v 1%nat = - v 0%nat) by lra. rewrite E1 in H2.
    assert (E0 : x * v 0%nat = 0) by lra. apply Rmult_integral in E0. unfold size in Hq. cbn in Hq. destruct q as [|[|[|q]]]; lra || lia.
Qed.
