(** * C93: particle swarms for several objectives (MOPSO-CD) *)
From Coq Require Import List Arith Bool Lia Permutation Relations.
From Verif Require Import Flt ListAux NpSort M_NDS M_Duplicate M_Survival M_Optimum M_CTAEA M_MOPSO S_Pareto S_NDS S_Survival S_Optimum P_Dominator P_Duplicate P_Optimum Thm_NDS Thm_Duplicate Thm_Optimum Thm_Archive Thm_CTAEA Thm_BRKGA2.
From Verif Require Thm_SMS P_Survival.
Import ListNotations.
Local Open Scope nat_scope.

(** ** tournaments *)
(** contract of [choice(rem, size=min(size, len(rem)), replace=False)]: that many different members of [rem] *)
Definition draw_ok (size : nat) (draw : nat -> list nat -> list nat) : Prop :=
  forall k rem, NoDup rem -> rem <> [] -> NoDup (draw k rem) /\ incl (draw k rem) rem /\ length (draw k rem) = Nat.min size (length rem).

Lemma fargmax_from_lt l : forall best bi i, bi < i -> fargmax_from best bi i l < i + length l.
Proof.
  induction l as [|x l IH]; intros best bi i H; cbn [fargmax_from length]; [lia|]. destruct (fltb best x); [specialize (IH x i (S i))|specialize (IH best bi (S i))]; lia.
Qed.
Lemma fargmax_lt l : l <> [] -> fargmax l < length l.
Proof. destruct l as [|x l]; [congruence|]. intros _. cbn [fargmax length]. pose proof (fargmax_from_lt l x 0 1). lia. Qed.
Lemma remove_first_perm x l : In x l -> Permutation.Permutation l (x :: remove_first x l).
Proof.
  induction l as [|y l IH]; intros H; [destruct H|]. cbn [remove_first]. destruct (Nat.eqb_spec x y) as [->|N]; [reflexivity|].
  destruct H as [->|H]; [congruence|]. rewrite perm_swap. now constructor; apply IH.
Qed.

Section Tour.
  Variables (draw : nat -> list nat -> list nat) (crowd : list flt) (size : nat).
  Hypotheses (HD : draw_ok size draw) (Hs : 1 <= size).
  Notation c := (fun i => nth i crowd f_nan).
  Notation win k rem := (nth (fargmax (map c (draw k rem))) (draw k rem) 0).
  Lemma draw_ne k rem : NoDup rem -> rem <> [] -> draw k rem <> [].
  Proof. intros H1 H2. destruct (HD k rem H1 H2) as (_ & _ & L). intros E. rewrite E in L. destruct rem; [congruence|]. cbn [length] in L. lia. Qed.
  Lemma win_In k rem : NoDup rem -> rem <> [] -> In (win k rem) (draw k rem).
  Proof.
    intros H1 H2. apply nth_In. rewrite <- (map_length c). apply fargmax_lt. intros E. apply map_eq_nil in E. now apply (draw_ne k rem).
  Qed.
  Lemma tourn_spec : forall n rem, NoDup rem ->
    NoDup (tournaments draw crowd n rem) /\ incl (tournaments draw crowd n rem) rem /\ length (tournaments draw crowd n rem) = Nat.min n (length rem).
  Proof.
    induction n as [|n IH]; intros rem HN; cbn [tournaments].
    - split; [constructor|]. split; [apply incl_nil_l|reflexivity].
    - destruct (length rem =? 0) eqn:E; [apply Nat.eqb_eq in E; rewrite E; split; [constructor|]; split; [apply incl_nil_l|reflexivity]|].
      apply Nat.eqb_neq in E. assert (Hne : rem <> []) by (intros ->; cbn in E; lia). cbv zeta. set (w := win (S n) rem).
      assert (Hw : In w rem) by (apply (HD (S n) rem HN Hne), win_In; auto). pose proof (remove_first_perm w rem Hw) as HP.
      pose proof (Permutation_NoDup HP HN) as HN'. inversion HN' as [|? ? Hni HN2]; subst. destruct (IH _ HN2) as (K1 & K2 & K3). split; [|split].
      + apply NoDup_cons; auto.
      + intros x [<-|Hx]; auto. apply (Permutation_in _ (Permutation_sym HP)). right. auto.
      + cbn [length]. rewrite K3. apply Permutation_length in HP. cbn [length] in HP. rewrite HP. reflexivity.
  Qed.
  Lemma tourn_least (L : list nat) : length L < size -> forall n rem, NoDup rem -> n + length L <= length rem ->
    (forall i, In i rem -> isnan (c i) = false) -> (forall l i, In l L -> In i rem -> ~ In i L -> fltb (c l) (c i) = true) ->
    forall l, In l L -> ~ In l (tournaments draw crowd n rem).
  Proof.
    intros HL. induction n as [|n IH]; intros rem HN Hlen Hnan Hlt l Hl; cbn [tournaments]; [auto|].
    destruct (length rem =? 0) eqn:E; [auto|]. apply Nat.eqb_neq in E. assert (Hne : rem <> []) by (intros ->; cbn in E; lia). cbv zeta.
    destruct (HD (S n) rem HN Hne) as (D1 & D2 & D3). pose proof (win_In (S n) rem HN Hne) as W1. set (w := win (S n) rem) in *.
    destruct (fargmax_map c (draw (S n) rem) 0 (draw_ne _ _ HN Hne) (fun x Hx => Hnan x (D2 x Hx))) as [_ W2]. fold w in W2.
    assert (Hx : exists x, In x (draw (S n) rem) /\ ~ In x L).
    { destruct (existsb (fun x => if in_dec Nat.eq_dec x L then false else true) (draw (S n) rem)) eqn:Eb.
      - apply existsb_exists in Eb as (x & Hx & Ex). exists x. split; auto. destruct (in_dec Nat.eq_dec x L); congruence.
      - exfalso. assert (HI : incl (draw (S n) rem) L). { intros x Hx. rewrite not_existsb in Eb. specialize (Eb x Hx). cbn in Eb. destruct (in_dec Nat.eq_dec x L); congruence. }
        pose proof (NoDup_incl_length D1 HI). lia. }
    destruct Hx as (x & Hx & HxL).
    assert (HwL : ~ In w L). { intros C. pose proof (Hlt w x C (D2 x Hx) HxL) as K. specialize (W2 x Hx). apply fle_not_lt in W2. cbv beta in *. congruence. }
    pose proof (remove_first_perm w rem (D2 w W1)) as HP. pose proof (Permutation_NoDup HP HN) as HN'. inversion HN' as [|? ? Hni HN2]; subst.
    intros [Ew|Hin]; [now subst l|]. revert Hin. apply IH; auto.
    - apply Permutation_length in HP. cbn [length] in HP. lia.
    - intros i Hi. apply Hnan. apply (Permutation_in _ (Permutation_sym HP)). now right.
    - intros l' i Hl' Hi. apply Hlt; auto. apply (Permutation_in _ (Permutation_sym HP)). now right.
  Qed.
End Tour.

(** C93: reducing [N] solutions to [n] by crowding tournaments keeps [n] different ones; and if at least [length L] are
    dropped, a group [L] of fewer than [size] solutions with smaller crowding distances than all others is dropped completely *)
Theorem C93_tournament : forall draw crowd size N n, draw_ok size draw -> 1 <= size -> n <= N ->
  let kept := tournaments draw crowd n (seq 0 N) in
  S_Survival.selects N n kept /\
  forall L, (forall i, i < N -> isnan (nth i crowd f_nan) = false) ->
    (forall l i, In l L -> i < N -> ~ In i L -> fltb (nth l crowd f_nan) (nth i crowd f_nan) = true) ->
    length L < size -> n + length L <= N -> forall l, In l L -> ~ In l kept.
Proof.
  intros draw crowd size N n HD Hs Hn kept. destruct (tourn_spec draw crowd size HD Hs n (seq 0 N) (seq_NoDup N 0)) as (K1 & K2 & K3). rewrite seq_length in K3. split.
  - split; [exact K1|]. split; [intros i Hi; apply K2, in_seq in Hi; lia|]. unfold kept. rewrite K3. lia.
  - intros L HN HL1 HL2 HL3 l Hl. apply (tourn_least draw crowd size HD Hs L HL2); auto.
    + apply seq_NoDup.
    + now rewrite seq_length.
    + intros i Hi. apply HN. apply in_seq in Hi. lia.
    + intros l' i Hl' Hi. apply HL1; auto. apply in_seq in Hi. lia.
Qed.
Print Assumptions C93_tournament.

(** ** the archive *)
Section Mo.
  Context {A : Type} (d : A) (obj : A -> list flt) (cv : A -> flt) (feas : A -> bool) (m : nat).
  Variables (pr : fltmat -> list nat) (close : A -> A -> bool) (crowd : fltmat -> list flt) (trunc : nat -> list A -> nat -> list A) (draw : nat -> nat -> list nat -> list nat).
  Variable size : nat.
  Notation ok := (ind_ok obj cv m).
  Hypotheses (HP : pr_ok m pr) (HT : forall it, trunc_ok (trunc it)) (HD : forall it, draw_ok 3 (draw it)) (Hsz : 1 <= size).
  Notation upd := (mo_update d obj pr crowd draw).
  Notation addn := (mo_archive_add d obj cv feas pr close trunc).
  Notation adv := (mo_advance d obj cv feas pr close crowd trunc draw).
  Notation run := (mo_run d obj cv feas pr close crowd trunc draw).
  Notation nd_in l x := (In x l /\ forall y, In y l -> ~ dominates (obj y) (obj x)).

  Lemma front_In l x : l <> [] -> Forall ok l -> (In x (gather d l (M_Optimum.first_front pr (map obj l))) <-> nd_in l x).
  Proof.
    intros Hne HO. rewrite (selects_In_val d _ _ (fun a => forall y, In y l -> ~ dominates (obj y) (obj a)) x (P_Optimum.first_front_selects d obj cv pr m HP l Hne HO)). tauto.
  Qed.
  Lemma front_ne l : l <> [] -> Forall ok l -> gather d l (M_Optimum.first_front pr (map obj l)) <> [].
  Proof.
    intros Hne HO. destruct l as [|x0 l0] eqn:El; [congruence|]. rewrite <- El in *. destruct (nondominated_above obj l x0) as (u & Hu & _ & Hn).
    intros E. assert (K : In u (gather d l (M_Optimum.first_front pr (map obj l)))). { apply front_In; auto. split; auto. destruct Hu as [<-|Hu]; auto. rewrite El; now left. }
    rewrite E in K. destruct K.
  Qed.
  Lemma upd_spec it arch pop : Forall ok arch -> Forall ok pop -> pop <> [] ->
    upd it size arch pop <> [] /\ length (upd it size arch pop) <= size /\ (forall x, In x (upd it size arch pop) -> nd_in (arch ++ pop) x) /\
    (length (upd it size arch pop) < size -> forall x, In x (upd it size arch pop) <-> nd_in (arch ++ pop) x).
  Proof.
    intros HA HPo Hne. unfold mo_update. destruct (length pop =? 0) eqn:E; [apply Nat.eqb_eq in E; destruct pop; [congruence|discriminate]|]. clear E. cbv zeta.
    set (l := arch ++ pop). assert (Hl : l <> []) by (unfold l; destruct arch; [auto|discriminate]). assert (HO : Forall ok l) by (apply Forall_app; auto).
    pose proof (front_ne l Hl HO) as Fne. pose proof (fun x => front_In l x Hl HO) as FIn. set (nd := gather d l (M_Optimum.first_front pr (map obj l))) in *. clearbody nd.
    destruct (size <? length nd) eqn:E.
    - apply Nat.ltb_lt in E. set (T := tournaments _ _ _ _). destruct (tourn_spec (draw it) (crowd (map obj nd)) 3 (HD it) ltac:(lia) size (seq 0 (length nd)) (seq_NoDup _ _)) as (K1 & K2 & K3).
      fold T in K1, K2, K3. rewrite seq_length, Nat.min_l in K3 by lia. rewrite length_gather, K3.
      split; [intros C; apply (f_equal (@length A)) in C; rewrite length_gather, K3 in C; cbn in C; lia|]. split; [lia|]. split; [|lia].
      intros x Hx. apply FIn. unfold gather in Hx. apply in_map_iff in Hx as (i & <- & Hi). apply nth_In. apply K2, in_seq in Hi. lia.
    - apply Nat.ltb_ge in E. split; auto. split; auto. split; [intros x; apply FIn|intros _; exact FIn].
  Qed.
  Lemma addn_spec it arch infills : Forall ok arch -> Forall ok infills -> infills <> [] -> exists arch', addn it size arch infills = Some arch' /\ arch' <> [] /\ incl arch' (arch ++ infills).
  Proof.
    intros HA HI Hne. unfold mo_archive_add.
    destruct (archive_add _ _ _ _ _ _ _ _ _ _ _ _) as [arch'|] eqn:E.
    - exists arch'. split; auto. destruct (add1_members d obj cv feas pr m true close true (Some size) (Some 100) (trunc it) HP ltac:(discriminate) (HT it)) with (arch := arch) (sols := infills) (arch' := arch') as (K1 & K2 & _); auto.
      { intros k Hk. unfold eff_truncate in Hk. cbn [option_map] in Hk. injection Hk as <-. destruct size; [lia|]. apply Nat.min_glb_lt; lia. }
      split; auto. intros x Hx. destruct (K2 x Hx) as [K _]. apply merged_In in K. now apply in_or_app.
    - exfalso. unfold archive_add in E. set (l := if 0 <? length arch then arch ++ infills else infills) in E.
      assert (Hl : l <> [] /\ Forall ok l). { unfold l. destruct (0 <? length arch); split; auto; [destruct arch; [auto|discriminate]|apply Forall_app; auto]. }
      destruct (P_Optimum.find_opt_selects d obj cv feas pr m HP true l) as (res & E1 & _); try tauto; [discriminate|]. rewrite E1 in E. discriminate.
  Qed.
  Lemma ok_incl l l' : incl l l' -> Forall ok l' -> Forall ok l.
  Proof. intros HI HF. apply Forall_forall. intros x Hx. rewrite Forall_forall in HF. auto. Qed.

  Definition st_in (st : mo_state) (seen : list A) : Prop := incl (mo_arch st) seen /\ incl (mo_pop st) seen.
  Lemma adv_spec it st seen g : st_in st seen -> Forall ok seen -> Forall ok g -> g <> [] ->
    exists st', adv it size st g = Some st' /\ mo_pop st' = g /\ st_in st' (seen ++ g) /\ mo_opt st' <> [] /\ length (mo_opt st') <= size /\
      (forall x, In x (mo_opt st') -> nd_in (mo_arch st ++ mo_pop st ++ g) x) /\
      (length (mo_opt st') < size -> forall x, In x (mo_opt st') <-> nd_in (mo_arch st ++ mo_pop st ++ g) x) /\
      addn it size (mo_opt st') g = Some (mo_arch st').
  Proof.
    intros [I1 I2] Hs Hg Hne. assert (HA : Forall ok (mo_arch st)) by (eapply ok_incl; eauto). assert (HPo : Forall ok (mo_pop st ++ g)) by (apply Forall_app; split; auto; eapply ok_incl; eauto).
    assert (Hne' : mo_pop st ++ g <> []) by (destruct (mo_pop st); [auto|discriminate]).
    destruct (upd_spec it (mo_arch st) (mo_pop st ++ g) HA HPo Hne') as (U1 & U2 & U3 & U4). set (o := upd it size (mo_arch st) (mo_pop st ++ g)) in *.
    assert (Ho : incl o (seen ++ g)). { intros x Hx. destruct (U3 x Hx) as [K _]. rewrite !in_app_iff in *. destruct K as [K|[K|K]]; auto. }
    assert (Hso : Forall ok (seen ++ g)) by (apply Forall_app; auto).
    destruct (addn_spec it o g (ok_incl _ _ Ho Hso) Hg Hne) as (a' & E & N & J).
    exists {| mo_arch := a'; mo_pop := g; mo_opt := o |}. unfold mo_advance. fold o. rewrite E. cbn [option_map mo_pop mo_opt mo_arch]. split; [reflexivity|]. split; [reflexivity|].
    split; [split; cbn [mo_arch mo_pop]; [intros x Hx; apply J, in_app_or in Hx as [Hx|Hx]; auto; apply in_or_app; auto|apply incl_appr, incl_refl]|]. auto.
  Qed.
  Lemma run_app it st gens g : run it size st (gens ++ [g]) = match run it size st gens with None => None | Some st' => adv (it + length gens) size st' g end.
  Proof.
    clear Hsz HD HT HP. revert it st; induction gens as [|h gens IH]; intros it st; cbn [app mo_run length].
    - rewrite Nat.add_0_r. destruct (adv it size st g); reflexivity.
    - destruct (adv it size st h) as [st'|]; [|reflexivity]. rewrite IH. replace (S it + length gens) with (it + S (length gens)) by lia. reflexivity.
  Qed.
  Lemma run_in gens : Forall ok (concat gens) -> Forall (fun g => g <> []) gens -> exists st, run 0 size mo_start gens = Some st /\ st_in st (concat gens) /\ incl (mo_opt st) (concat gens).
  Proof.
    induction gens as [|g gens IH] using rev_ind; intros HO HN.
    - exists mo_start. split; [reflexivity|]. split; [split; apply incl_nil_l|apply incl_nil_l].
    - rewrite concat_app in *. cbn [concat] in *. rewrite app_nil_r in *. apply Forall_app in HO as [HO1 HO2]. apply Forall_app in HN as [HN1 HN2]. inversion HN2 as [|? ? Hg _]; subst.
      destruct (IH HO1 HN1) as (st & E & I1 & _). destruct (adv_spec (0 + length gens) st (concat gens) g I1 HO1 HO2 Hg) as (st' & E' & _ & J & _ & _ & K & _).
      exists st'. rewrite run_app, E. split; auto. split; auto. intros x Hx. destruct (K x Hx) as [Kx _]. destruct I1 as [I1 I2]. rewrite !in_app_iff in *. destruct Kx as [Kx|[Kx|Kx]]; auto.
  Qed.

  (** *** without cuts *)
  Definition cov (L seen : list A) : Prop := forall x, In x seen -> exists y, In y L /\ (obj y = obj x \/ dominates (obj y) (obj x)).
  Lemma cov_trans L M N : cov L M -> cov M N -> cov L N.
  Proof.
    intros H1 H2 x Hx. destruct (H2 x Hx) as (y & Hy & Ey). destruct (H1 y Hy) as (z & Hz & Ez). exists z. split; auto.
    destruct Ey as [Ey|Ey], Ez as [Ez|Ez]; [left; congruence|right; now rewrite <- Ey|right; now rewrite Ez|right; eapply dominates_trans; eauto].
  Qed.
  Lemma cov_nd L l : (forall x, In x L <-> nd_in l x) -> cov L l.
  Proof.
    intros H x Hx. destruct (nondominated_above obj l x) as (u & Hu & Hux & Hn). exists u. split; [apply H; split; auto; destruct Hu as [<-|Hu]; auto|]. destruct Hux as [->|Hux]; auto.
  Qed.
  Lemma cov_undominated L seen : cov L seen -> (forall x y, In x L -> In y L -> ~ dominates (obj x) (obj y)) -> forall x y, In x L -> In y seen -> ~ dominates (obj y) (obj x).
  Proof.
    intros HC HL x y Hx Hy HDm. destruct (HC y Hy) as (z & Hz & [E|E]); apply (HL z x); auto; [now rewrite E|]. eapply dominates_trans; eauto.
  Qed.
  Hypotheses (Hrefl : forall a, close a a = true) (Hsym : forall a b, close a b = close b a).
  Lemma addn_cov it arch g arch' : (forall x, In x (arch ++ g) -> feas x = true) -> (forall a b, In a (arch ++ g) -> In b (arch ++ g) -> close a b = true -> obj a = obj b) ->
    Forall ok arch -> Forall ok g -> g <> [] -> (forall x, nd_in (arch ++ g) x -> In x arch) -> length arch <= size -> addn it size arch g = Some arch' -> cov arch' (arch ++ g).
  Proof.
    intros Hf Hc HA Hg Hne Hnd Hlen E. unfold mo_archive_add in E.
    destruct (add1_spec d obj cv feas pr m true close true (Some 100) (trunc it) HP ltac:(discriminate) (Some size) arch g arch' HA Hg E) as (_ & res & R1 & _ & _ & R4 & _).
    assert (Hm : forall x, In x (merged arch g) <-> In x (arch ++ g)) by (intros x; rewrite merged_In, in_app_iff; tauto).
    assert (R1' : forall x, In x res <-> nd_in (arch ++ g) x).
    { intros x. rewrite R1. unfold best. rewrite Hm. split; intros [K1 K2]; split; auto.
      - intros y Hy C. apply (K2 y); [now apply Hm|]. right; left. auto.
      - intros y Hy [[_ C]|[(_ & _ & C)|(C & _)]]; [rewrite Hf in C; auto; discriminate|apply (K2 y); auto; now apply Hm|rewrite Hf in C; [discriminate|now apply Hm]]. }
    set (e := the_elim d close true res) in *.
    assert (HE : forall x, In x e -> In x res) by apply (elim_incl d close true).
    assert (HN : NoDup e).
    { apply (NoDup_nth e d). intros p q Hp Hq Epq. destruct (Nat.eq_dec p q) as [|Hpq]; auto. exfalso.
      destruct (C20_pairwise_apart A d close (fun _ => BinInt.Z0) res []) as [HPA _]. unfold e, the_elim, elim in *.
      destruct (Nat.lt_trichotomy p q) as [L|[L|L]]; [|lia|]; [specialize (HPA p q ltac:(lia))|specialize (HPA q p ltac:(lia))]; rewrite Epq in HPA; rewrite Hrefl in HPA; discriminate. }
    assert (HLe : length e <= size). { pose proof (NoDup_incl_length HN (fun x Hx => Hnd x (proj1 (R1' x) (HE x Hx)))). lia. }
    destruct size as [|s] eqn:Es; [lia|]. rewrite (R4 s eq_refl HLe). apply cov_trans with res; [|apply cov_nd, R1'].
    intros x Hx. destruct (elim_repr d close true res x Hx) as (y & Hy & Hch). exists y. split; auto. left.
    assert (Hch' : forall a b, clos_refl_trans A (fun a b => close a b = true /\ In a res /\ In b res) a b -> obj b = obj a).
    { intros a b Hab. induction Hab as [a b (C & Ca & Cb)| |a b z _ IH1 _ IH2]; auto; [|congruence]. symmetry. apply Hc; auto; now apply R1'. }
    now apply Hch'.
  Qed.
End Mo.

(** C93: MOPSO-CD.  After every iteration the reported optimum is a non-empty set of at most archive_size evaluated solutions, none of which dominates another one or is dominated by one of the particles of
    this or the previous iteration *)
Theorem C93_optimum : forall (A : Type) (d : A) obj cv feas m pr close crowd trunc draw size (gens : list (list A)) g,
  pr_ok m pr -> (forall it, trunc_ok (trunc it)) -> (forall it, draw_ok 3 (draw it)) -> 1 <= size ->
  Forall (ind_ok obj cv m) (concat (gens ++ [g])) -> Forall (fun g => g <> []) (gens ++ [g]) ->
  exists st, mo_run d obj cv feas pr close crowd trunc draw 0 size mo_start (gens ++ [g]) = Some st /\
    mo_pop st = g /\ mo_opt st <> [] /\ length (mo_opt st) <= size /\ incl (mo_opt st) (concat (gens ++ [g])) /\
    (forall x y, In x (mo_opt st) -> In y (mo_opt st) -> ~ dominates (obj x) (obj y)) /\
    (forall x y, In x (mo_opt st) -> In y (last gens [] ++ g) -> ~ dominates (obj y) (obj x)).
Proof.
  intros A d obj cv feas m pr close crowd trunc draw size gens g HP HT HD Hsz HO HN.
  destruct (run_in d obj cv feas m pr close crowd trunc draw size HP HT HD Hsz (gens ++ [g]) HO HN) as (st & E & I1 & I2).
  exists st. split; auto. rewrite run_app in E. rewrite concat_app in HO. cbn [concat] in HO. rewrite app_nil_r in HO. apply Forall_app in HO as [HO1 HO2]. apply Forall_app in HN as [HN1 HN2]. inversion HN2 as [|? ? Hg _]; subst.
  destruct (run_in d obj cv feas m pr close crowd trunc draw size HP HT HD Hsz gens HO1 HN1) as (st0 & E0 & J1 & _). rewrite E0 in E.
  destruct (adv_spec d obj cv feas m pr close crowd trunc draw size HP HT HD Hsz (0 + length gens) st0 (concat gens) g J1 HO1 HO2 Hg) as (st' & E' & P & _ & N & L & K & _). rewrite E' in E. injection E as <-.
  split; auto. split; auto. split; auto. split; auto. split.
  - intros x y Hx Hy. apply (proj2 (K y Hy) x). apply (proj1 (K x Hx)).
  - intros x y Hx Hy. apply (proj2 (K x Hx)). apply in_or_app. right. apply in_app_or in Hy as [Hy|Hy]; apply in_or_app; auto. left.
    destruct gens as [|h gens _] using rev_ind; [destruct Hy|]. rewrite last_last in Hy. rewrite run_app in E0. destruct (mo_run d obj cv feas pr close crowd trunc draw 0 size mo_start gens) as [st1|]; [|discriminate].
    unfold mo_advance in E0. destruct (mo_archive_add _ _ _ _ _ _ _ _ _ _ _) as [a1|]; [|discriminate]. cbn [option_map] in E0. injection E0 as <-. exact Hy.
Qed.
Print Assumptions C93_optimum.

(** C93: as long as the optimum has always been smaller than archive_size, and every evaluated solution is feasible and solutions with the same variables have the same objectives, nothing is forgotten: the
    optimum is undominated by everything evaluated so far, and every solution evaluated so far is dominated by, or has the same objective values as, a member *)
Theorem C93_complete : forall (A : Type) (d : A) obj cv feas m pr close crowd trunc draw size (gens : list (list A)) st,
  pr_ok m pr -> (forall it, trunc_ok (trunc it)) -> (forall it, draw_ok 3 (draw it)) -> 1 <= size ->
  Forall (ind_ok obj cv m) (concat gens) -> Forall (fun g => g <> []) gens ->
  (forall a, close a a = true) -> (forall a b, close a b = close b a) ->
  (forall a b, In a (concat gens) -> In b (concat gens) -> close a b = true -> obj a = obj b) -> (forall x, In x (concat gens) -> feas x = true) ->
  mo_run d obj cv feas pr close crowd trunc draw 0 size mo_start gens = Some st ->
  (forall k stk, mo_run d obj cv feas pr close crowd trunc draw 0 size mo_start (firstn k gens) = Some stk -> length (mo_opt stk) < size) ->
  (forall x y, In x (mo_opt st) -> In y (concat gens) -> ~ dominates (obj y) (obj x)) /\
  (forall y, In y (concat gens) -> exists x, In x (mo_opt st) /\ (obj x = obj y \/ dominates (obj x) (obj y))).
Proof.
  intros A d obj cv feas m pr close crowd trunc draw size gens st HP HT HD Hsz HO HN Hr Hsy Hc Hf E Hcut.
  assert (Main : cov obj (mo_arch st) (concat gens) /\ cov obj (mo_opt st) (concat gens) /\ forall x y, In x (mo_opt st) -> In y (mo_opt st) -> ~ dominates (obj x) (obj y)).
  { revert st E. induction gens as [|g gens IH] using rev_ind; intros st E.
    - cbn in E. injection E as <-. split; [intros x []|]. split; [intros x []|intros x y []].
    - assert (Hlast : length (mo_opt st) < size) by (apply (Hcut (length (gens ++ [g]))); now rewrite firstn_all).
      rewrite concat_app in *. cbn [concat] in *. rewrite app_nil_r in *. apply Forall_app in HO as [HO1 HO2]. apply Forall_app in HN as [HN1 HN2]. inversion HN2 as [|? ? Hg _]; subst.
      rewrite run_app in E. destruct (run_in d obj cv feas m pr close crowd trunc draw size HP HT HD Hsz gens HO1 HN1) as (st0 & E0 & J1 & _). rewrite E0 in E.
      destruct (IH HO1 HN1) with (st := st0) as (C1 & C2 & _); auto.
      { intros a b Ha Hb. apply Hc; apply in_or_app; auto. } { intros x Hx. apply Hf, in_or_app; auto. }
      { intros k stk Ek. destruct (le_lt_dec k (length gens)) as [L|L].
        - apply (Hcut k). rewrite firstn_app. replace (k - length gens) with 0 by lia. cbn [firstn]. now rewrite app_nil_r.
        - apply (Hcut (length gens)). rewrite firstn_app, Nat.sub_diag, firstn_all. cbn [firstn]. rewrite app_nil_r. rewrite firstn_all2 in Ek by lia. exact Ek. }
      destruct (adv_spec d obj cv feas m pr close crowd trunc draw size HP HT HD Hsz (0 + length gens) st0 (concat gens) g J1 HO1 HO2 Hg) as (st' & E' & P & _ & N & L & K & K' & Ea). rewrite E' in E. injection E as <-.
      specialize (K' Hlast). pose proof (cov_nd obj _ _ K') as Cn. destruct J1 as [J1 J2].
      assert (Hinc : incl (mo_opt st') (concat gens ++ g)). { intros x Hx. apply K' in Hx as [Hx _]. rewrite !in_app_iff in *. destruct Hx as [Hx|[Hx|Hx]]; auto. }
      assert (Call : cov obj (mo_opt st') (concat gens ++ g)).
      { apply cov_trans with (mo_arch st0 ++ mo_pop st0 ++ g); auto. intros x Hx. apply in_app_or in Hx as [Hx|Hx].
        - destruct (C1 x Hx) as (y & Hy & HH). exists y. split; auto. apply in_or_app; auto.
        - exists x. split; auto. rewrite !in_app_iff. auto. }
      assert (Hmut : forall x y, In x (mo_opt st') -> In y (mo_opt st') -> ~ dominates (obj x) (obj y)) by (intros x y Hx Hy; apply (proj2 (K y Hy) x), (proj1 (K x Hx))).
      split; [|split; auto]. assert (HI2 : forall x, In x (mo_opt st' ++ g) -> In x (concat gens ++ g)) by (intros x Hx; apply in_app_or in Hx as [Hx|Hx]; auto; apply in_or_app; auto).
      apply cov_trans with (mo_opt st' ++ g); [|intros x Hx; destruct (Call x Hx) as (y & Hy & HH); exists y; split; auto; apply in_or_app; auto].
      assert (HAll : Forall (ind_ok obj cv m) (concat gens ++ g)) by (apply Forall_app; auto).
      apply (addn_cov d obj cv feas m pr close trunc size HP Hsz Hr) with (it := 0 + length gens); auto.
      + eapply ok_incl; eauto.
      + intros x [Hx Hu]. apply K'. split.
        * apply in_app_or in Hx as [Hx|Hx]; [apply K in Hx; tauto|rewrite !in_app_iff; auto].
        * intros y Hy HDm. assert (HDy : In y (concat gens ++ g)) by (rewrite !in_app_iff in *; destruct Hy as [Hy|[Hy|Hy]]; auto).
          destruct (Call y HDy) as (z & Hz & [Ez|Ez]); apply (Hu z); try (apply in_or_app; auto; fail); [now rewrite Ez|eapply dominates_trans; eauto]. }
  destruct Main as (_ & C & Hm). split; [|exact C]. intros x y Hx Hy. now apply (cov_undominated obj (mo_opt st) (concat gens)).
Qed.
Print Assumptions C93_complete.
