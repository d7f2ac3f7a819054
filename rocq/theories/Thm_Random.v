(** * C123: random search reports the best of everything it has evaluated *)
From Coq Require Import List Arith Bool Lia.
From Verif Require Import Flt ListAux M_NDS M_Duplicate M_Survival M_Optimum S_Pareto S_NDS S_Survival S_Optimum P_Dominator P_Duplicate P_Optimum Thm_NDS Thm_Optimum Thm_Archive M_Random.
From Verif Require S_Duplicate.
Import ListNotations.
Local Open Scope nat_scope.

Section R.
  Context {A : Type} (d : A) (obj : A -> list flt) (cv : A -> flt) (feas : A -> bool) (pr : fltmat -> list nat) (m : nat).
  Notation better := (better_than obj cv feas).
  Notation ok := (ind_ok obj cv m).
  Notation best := (best obj cv feas).
  Hypothesis Hm : 1 <= m.
  Hypothesis HP : pr_ok m pr.

  Definition covers (l : list A) (res : list A) : Prop := forall y x, In y l -> ok x -> better y x -> exists o, In o res /\ better o x.
  Definition reports (l : list A) (opt : option (list A)) : Prop := exists res, opt = Some res /\ res <> [] /\ Forall (best l) res /\ covers l res /\
    (1 < m -> forall x, best l x -> feas x = true -> In x res) /\ (m = 1 \/ (forall x, In x l -> feas x = false) -> length res = 1).

  Lemma ok_vec a : ok a -> m = 1 -> exists z, obj a = [z] /\ isnan z = false.
  Proof. intros [[HL HV] _] E. rewrite E in HL. destruct (obj a) as [|z [|? ?]]; try discriminate. inversion HV; eauto. Qed.
  Lemma filter_reports pop : pop <> [] -> List.Forall ok pop -> reports pop (filter_optimum d obj cv feas pr m (Some pop) true).
  Proof.
    intros Hne HO. assert (HO' := HO). rewrite Forall_forall in HO'. destruct (existsb feas pop) eqn:Ef.
    - apply existsb_exists in Ef. destruct (Nat.eq_dec m 1) as [E|E].
      + rewrite E in *. destruct (C40_single A d obj cv feas pr pop true HO Ef) as (x & Hx & HI & Hf & Hmin). exists [x]. rewrite E. split; auto. split; [discriminate|]. split; [|split; [|split; [intros; lia|auto]]].
        * constructor; auto. split; auto. intros y Hy [[_ H]|[(Hfy & _ & H)|(_ & H & _)]]; try congruence.
          destruct (HO' x HI) as [[L1 V1] _], (HO' y Hy) as [[L2 V2] _]. rewrite dominates_single in H by auto. specialize (Hmin y Hy Hfy). apply fle_not_lt in Hmin. congruence.
        * intros y z Hy Hz Hb. exists x. split; [left; auto|]. destruct Hb as [[H1 H2]|[(H1 & H2 & H3)|(H1 & H2 & H3)]].
          -- left; auto.
          -- right; left. split; auto. split; auto. rewrite E in Hz. destruct (HO' x HI) as [[L1 V1] _], (HO' y Hy) as [[L2 V2] _], Hz as [[L3 V3] _]. rewrite dominates_single in * by auto.
             specialize (Hmin y Hy H1). eapply fle_lt_trans; eauto.
          -- left. auto.
      + destruct (C40_multi A d obj cv feas pr m pop true ltac:(lia) HP HO Ef) as (res & -> & HS). exists res. split; auto.
        assert (HI : forall x, In x res <-> In x pop /\ feas x = true /\ forall y, In y pop -> feas y = true -> ~ dominates (obj y) (obj x)).
        { intros x. rewrite (selects_In_val d pop res (fun a => feas a = true /\ forall y, In y pop -> feas y = true -> ~ dominates (obj y) (obj a)) x HS). tauto. }
        assert (HB : forall x, In x res <-> best pop x).
        { intros x. rewrite HI. split.
          - intros (H1 & H2 & H3). split; auto. intros y Hy [[_ H]|[(Hfy & _ & H)|(_ & H & _)]]; try congruence. apply (H3 y); auto.
          - intros (H1 & H2). assert (Hfx : feas x = true). { destruct (feas x) eqn:Ex; auto. exfalso. destruct Ef as (a & Ha & Hfa). apply (H2 a Ha). left; auto. }
            split; auto. split; auto. intros y Hy Hfy HD. apply (H2 y Hy). right; left. auto. }
        assert (HC : covers pop res).
        { intros y x Hy Hx Hb. destruct (best_covers d obj cv feas m pop HO y Hy) as (z & Hz & HE). exists z. split; [now apply HB|]. destruct HE as [->|HE]; auto. apply (better_trans obj cv feas z y x); auto. }
        split; [|split; [|split; [exact HC|split]]].
        * intros ->. destruct Ef as (a & Ha & Hfa). destruct (best_covers d obj cv feas m pop HO a Ha) as (z & Hz & _). apply HB in Hz. destruct Hz.
        * apply Forall_forall. intros x Hx. now apply HB.
        * intros _ x Hx _. now apply HB.
        * intros [H|H]; [lia|]. destruct Ef as (a & Ha & Hfa). rewrite H in Hfa by auto. discriminate.
    - assert (Hno := proj1 (not_existsb feas pop) Ef). destruct (C40_infeasible A d obj cv feas pr m pop Hne) as [(x & -> & HI & Hmin) _]; auto.
      { intros a Ha. apply (HO' a Ha). }
      exists [x]. split; auto. split; [discriminate|]. split; [|split; [|split; [|auto]]].
      + constructor; auto. split; auto. intros y Hy [[H _]|[(H & _ & _)|(_ & _ & H)]]; try (rewrite Hno in H by auto; discriminate). specialize (Hmin y Hy). apply fle_not_lt in Hmin. congruence.
      + intros y z Hy Hz [[H _]|[(H & _ & _)|(_ & H1 & H)]]; try (rewrite Hno in H by auto; discriminate). exists x. split; [left; auto|]. right; right. split; [now apply Hno|]. split; auto. eapply fle_lt_trans; eauto.
      + intros _ y [Hy _] Hfy. rewrite Hno in Hfy by auto. discriminate.
  Qed.
  Lemma advance_reports H opt infills : List.Forall ok H -> List.Forall ok infills -> (H = [] /\ opt = None) \/ reports H opt ->
    (H ++ infills = [] /\ rs_advance d obj cv feas pr m opt infills = None) \/ reports (H ++ infills) (rs_advance d obj cv feas pr m opt infills).
  Proof.
    intros HH HI [[-> ->]|(o & -> & Hne & HB & HC & HA & HL)].
    - cbn [app]. destruct infills as [|i infills]; [left; auto|]. right. apply filter_reports; auto. discriminate.
    - right. rewrite Forall_forall in HB. assert (HH' := HH). rewrite Forall_forall in HH'.
      assert (Hsub : forall x, In x (infills ++ o) -> In x (H ++ infills)). { intros x. rewrite !in_app_iff. intros [Hx|Hx]; auto. left. apply (HB x Hx). }
      assert (HO : List.Forall ok (infills ++ o)). { apply Forall_app. split; auto. apply Forall_forall. intros x Hx. apply HH'. apply (HB x Hx). }
      destruct (filter_reports (infills ++ o)) as (res & HR & Hne' & HB' & HC' & HA' & HL'); auto. { intros E. apply app_eq_nil in E as [_ E]. auto. }
      rewrite Forall_forall in HB'. assert (Hok : forall x, In x (infills ++ o) -> ok x) by (rewrite Forall_forall in HO; auto).
      assert (Hcov : covers (H ++ infills) res).
      { intros y x Hy Hx Hb. apply in_app_iff in Hy as [Hy|Hy]; [|apply (HC' y x); auto; apply in_app_iff; auto]. destruct (HC y x Hy Hx Hb) as (p & Hp & Hbp). apply (HC' p x); auto. apply in_app_iff; auto. }
      assert (Hbest : forall x, In x res -> best (H ++ infills) x).
      { intros x Hx. destruct (HB' x Hx) as [H1 H2]. split; auto. intros y Hy Hb. apply in_app_iff in Hy as [Hy|Hy]; [|apply (H2 y); auto; apply in_app_iff; auto].
        destruct (HC y x Hy (Hok x H1) Hb) as (p & Hp & Hbp). apply (H2 p); auto. apply in_app_iff; auto. }
      exists res. split; [exact HR|]. split; auto. split; [now apply Forall_forall|]. split; auto. split.
      + intros Hm2 x [H1 H2] Hf. apply HA'; auto. split; [|intros y Hy; apply H2; auto]. apply in_app_iff in H1 as [H1|H1]; apply in_app_iff; auto. right. apply HA; auto. split; auto. intros y Hy. apply H2. apply in_app_iff; auto.
      + intros [E|E]; apply HL'; [left; exact E|right; intros x Hx; apply E; auto].
  Qed.
  Lemma run_reports iters : forall H opt, List.Forall ok H -> List.Forall (List.Forall ok) iters -> (H = [] /\ opt = None) \/ reports H opt ->
    let r := fold_left (rs_advance d obj cv feas pr m) iters opt in (H ++ concat iters = [] /\ r = None) \/ reports (H ++ concat iters) r.
  Proof.
    induction iters as [|i iters IH]; cbn [fold_left concat]; intros H opt HH HI HR; [rewrite app_nil_r; exact HR|]. inversion HI; subst. rewrite app_assoc. apply IH; auto. { apply Forall_app; auto. }
    apply advance_reports; auto.
  Qed.
End R.

(** C123: after any number of iterations, what RandomSearch reports as optimum are solutions it has evaluated, in any iteration, that no other evaluated one beats
    (feasible before infeasible, dominance among feasible, violation among infeasible); a solution beaten by any evaluated one is beaten by a reported one;
    with two or more objectives all feasible evaluated solutions which nobody beats are reported; otherwise, or as long as nothing feasible was found, exactly one solution *)
Theorem C123_best : forall (A : Type) (d : A) obj cv feas pr m (iters : list (list A)),
  1 <= m -> pr_ok m pr -> List.Forall (List.Forall (ind_ok obj cv m)) iters -> concat iters <> [] ->
  exists res, rs_run d obj cv feas pr m iters = Some res /\ res <> [] /\
    (forall x, In x res -> best obj cv feas (concat iters) x) /\
    (forall y x, In y (concat iters) -> ind_ok obj cv m x -> better_than obj cv feas y x -> exists o, In o res /\ better_than obj cv feas o x) /\
    (1 < m -> forall x, best obj cv feas (concat iters) x -> feas x = true -> In x res) /\
    (m = 1 \/ (forall x, In x (concat iters) -> feas x = false) -> length res = 1).
Proof.
  intros A d obj cv feas pr m iters Hm HP HI Hne. destruct (run_reports d obj cv feas pr m Hm HP iters [] None) as [[E _]|HR]; auto; [cbn [app] in E; contradiction|].
  cbn [app] in HR. destruct HR as (res & HR & H1 & H2 & H3 & H4 & H5). exists res. rewrite Forall_forall in H2. auto 8.
Qed.
(** C123: the reported optimum never gets worse: what an earlier one beats, a later one beats *)
Theorem C123_monotone : forall (A : Type) (d : A) obj cv feas pr m (iters more : list (list A)) res res',
  1 <= m -> pr_ok m pr -> List.Forall (List.Forall (ind_ok obj cv m)) (iters ++ more) ->
  rs_run d obj cv feas pr m iters = Some res -> rs_run d obj cv feas pr m (iters ++ more) = Some res' ->
  (forall o x, In o res -> ind_ok obj cv m x -> better_than obj cv feas o x -> exists o', In o' res' /\ better_than obj cv feas o' x) /\
  (forall o o', In o res -> In o' res' -> ~ better_than obj cv feas o o').
Proof.
  intros A d obj cv feas pr m iters more res res' Hm HP HI E E'. assert (HI' := HI). apply Forall_app in HI' as [HI1 _].
  assert (Hsub : forall o, In o res -> In o (concat iters)).
  { destruct (concat iters) as [|c cs] eqn:Ec.
    - exfalso. destruct (run_reports d obj cv feas pr m Hm HP iters [] None) as [[_ H]|H]; auto.
      + unfold rs_run in E. rewrite E in H. discriminate.
      + destruct H as (r & _ & Hn & Hb & _). cbn [app] in Hb. rewrite Ec in Hb. destruct r as [|r0 r]; [congruence|]. inversion Hb as [|? ? [[] _] _].
    - rewrite <- Ec. destruct (C123_best A d obj cv feas pr m iters Hm HP HI1) as (r & Hr & _ & Hb & _); [rewrite Ec; discriminate|]. rewrite E in Hr. injection Hr as <-. intros o Ho. apply (Hb o Ho). }
  destruct res as [|r0 rs] eqn:Er; [split; intros ? ? []|]. rewrite <- Er in *.
  destruct (C123_best A d obj cv feas pr m (iters ++ more) Hm HP HI) as (r & Hr & _ & Hb & Hc & _).
  { intros Ec. assert (In r0 (concat iters)) by (apply Hsub; rewrite Er; left; auto). rewrite concat_app in Ec. apply app_eq_nil in Ec as [Ec _]. rewrite Ec in H. destruct H. }
  rewrite E' in Hr. injection Hr as <-. split.
  - intros o x Ho Hx HB. apply (Hc o x); auto. rewrite concat_app. apply in_app_iff. left. auto.
  - intros o o' Ho Ho' HB. destruct (Hb o' Ho') as [_ Hn]. apply (Hn o); auto. rewrite concat_app. apply in_app_iff. left. auto.
Qed.
(** the hypotheses are met: three iterations, the first with an infeasible and a poor solution *)
Example C123_case : pr_ok 2 pr_fast /\ (forall s, In s demo_hist -> Forall (ind_ok d_obj d_cv 2) s) /\
  rs_run dd d_obj d_cv d_feas pr_fast 2 demo_hist = Some [(5, [1; 6], 0); (3, [3; 4], 0); (3, [3; 4], 0); (4, [4; 3], 0)] /\
  rs_run dd d_obj d_cv d_feas pr_fast 2 [[(1, [5; 5], 2); (7, [1; 1], 1)]; []] = Some [(7, [1; 1], 1)].
Proof. split; [apply pr_fast_ok|]. split; [apply C41_case|]. split; vm_compute; reflexivity. Qed.
