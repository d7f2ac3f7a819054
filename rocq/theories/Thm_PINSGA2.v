(** * C108: the decision maker of PINSGA2: pairwise ranking, absolute ranking, refitting, the interaction step *)
From Coq Require Import List ZArith Bool Lia Arith Permutation.
From Verif Require Import ListAux M_PINSGA.
Import ListNotations.
Local Open Scope nat_scope.

(** ** Specification *)
(** the ranks of n points are 1..k without gaps *)
Definition dense (n : nat) (r : list Z) : Prop :=
  length r = n /\ exists k, (forall i, i < n -> (1 <= nth i r 0 <= k)%Z) /\ (forall z, (1 <= z <= k)%Z -> exists i, i < n /\ nth i r 0%Z = z).

Section Pairwise.
  Variables (row : Type) (d : row).

  (** ** where the new index goes *)
  Lemma ask_time dm fuel : forall t a b t' p, ask row dm fuel t a b = Some (t', p) -> exists t0, dm t0 a b = Some p /\ t <= t0 /\ t' = S t0.
  Proof.
    induction fuel as [|fuel IH]; intros t a b t' p H; cbn in H; [discriminate|].
    destruct (dm t a b) as [q|] eqn:E.
    - injection H as <- <-. exists t. auto.
    - destruct (IH _ _ _ _ _ H) as (t0 & H1 & H2 & H3). exists t0. split; auto. split; [lia|auto].
  Qed.

  Lemma place_perm dm fuel F i : forall gs t t' gs', Forall (fun g => g <> []) gs ->
    place row dm fuel t F d i gs = Some (t', gs') ->
    Permutation (concat gs') (i :: concat gs) /\ Forall (fun g => g <> []) gs'.
  Proof.
    induction gs as [|g gs IH]; intros t t' gs' Hne H; cbn in H.
    - injection H as <- <-. cbn. split; [auto|]. repeat constructor. discriminate.
    - inversion Hne as [|? ? Hg Hgs]; subst. destruct (ask row dm fuel t (nth i F d) (nth (hd 0 g) F d)) as [[t1 [| |]]|]; try discriminate.
      + injection H as <- <-. cbn. split; [auto|]. constructor; [discriminate|auto].
      + destruct (place row dm fuel t1 F d i gs) as [[t2 gs2]|] eqn:E; [|discriminate]. injection H as <- <-.
        destruct (IH _ _ _ Hgs E) as [P1 P2]. split; [|constructor; auto]. cbn.
        etransitivity; [apply Permutation_app_head; exact P1|]. symmetry. apply Permutation_middle.
      + injection H as <- <-. cbn. split.
        * rewrite <- app_assoc. cbn. symmetry. apply Permutation_middle.
        * constructor; auto. destruct g; discriminate.
  Qed.

  Lemma groups_perm dm fuel F : forall k t gs,
    fold_left (fun st i => match st with Some (t, gs) => place row dm fuel t F d i gs | None => None end) (seq 0 k) (Some (0, [])) = Some (t, gs) ->
    Permutation (concat gs) (seq 0 k) /\ Forall (fun g => g <> []) gs.
  Proof.
    induction k as [|k IH]; intros t gs H.
    - cbn in H. injection H as <- <-. cbn. auto.
    - rewrite seq_S, fold_left_app in H. cbn [fold_left] in H.
      destruct (fold_left _ (seq 0 k) (Some (0, []))) as [[t0 gs0]|]; [|discriminate].
      destruct (IH t0 gs0 eq_refl) as [P1 P2].
      destruct (place_perm dm fuel F _ _ _ _ _ P2 H) as [Q1 Q2]. split; auto.
      rewrite Q1, P1, seq_S. cbn. apply Permutation_cons_append.
  Qed.

  (** ** the ranks written from the groups *)
  Lemma write_group z : forall g (r : list Z) i, nth i (fold_left (fun r i => upd r i z) g r) 0%Z =
    if existsb (Nat.eqb i) g && (i <? length r) then z else nth i r 0%Z.
  Proof.
    induction g as [|a g IH]; intros r i; cbn [fold_left existsb]; auto.
    rewrite IH, length_upd, nth_upd. destruct (Nat.eqb_spec i a) as [->|Hia]; cbn [andb orb]; auto.
    destruct (existsb (Nat.eqb a) g); cbn [andb]; destruct (a <? length r); auto.
  Qed.
  Lemma write_group_len z : forall g (r : list Z), length (fold_left (fun r i => upd r i z) g r) = length r.
  Proof. induction g; intros r; cbn; auto. now rewrite IHg, length_upd. Qed.

  Lemma write_groups : forall gs s (r : list Z) k i, NoDup (concat gs) -> i < length r -> In i (nth k gs []) ->
    nth i (fold_left (fun r kg => fold_left (fun r i => upd r i (Z.of_nat (fst kg))) (snd kg) r) (combine (seq s (length gs)) gs) r) 0%Z = Z.of_nat (s + k).
  Proof.
    assert (Hout : forall gs s (r : list Z) i, ~ In i (concat gs) ->
      nth i (fold_left (fun r kg => fold_left (fun r i => upd r i (Z.of_nat (fst kg))) (snd kg) r) (combine (seq s (length gs)) gs) r) 0%Z = nth i r 0%Z).
    { induction gs as [|g gs IH]; intros s r i Hi; cbn; auto. cbn in Hi. rewrite in_app_iff in Hi. rewrite IH by tauto.
      rewrite write_group. destruct (existsb (Nat.eqb i) g) eqn:E; auto. exfalso.
      apply existsb_exists in E as (x & Hx & Ex). apply Nat.eqb_eq in Ex. subst. tauto. }
    induction gs as [|g gs IH]; intros s r k i Hnd Hi Hin; [destruct k; destruct Hin|].
    cbn [length seq combine fold_left fst snd]. cbn in Hnd. apply NoDup_app_iff in Hnd as (Hg & Hgs & Hdis). destruct k as [|k]; cbn in Hin.
    - rewrite Hout by (intros Hc; eapply Hdis; eauto). rewrite write_group.
      assert (E : existsb (Nat.eqb i) g = true) by (apply existsb_exists; exists i; split; auto; apply Nat.eqb_refl).
      rewrite E, (proj2 (Nat.ltb_lt _ _) Hi). cbn. f_equal. lia.
    - rewrite (IH (S s) _ k i); auto; [f_equal; lia|]. now rewrite write_group_len.
  Qed.

  Lemma ranks_of_groups_spec gs n i k : Permutation (concat gs) (seq 0 n) -> In i (nth k gs []) ->
    nth i (ranks_of_groups n gs) 0%Z = (Z.of_nat k + 1)%Z.
  Proof.
    intros HP Hin. assert (Hk : k < length gs) by (destruct (Nat.lt_ge_cases k (length gs)); auto; rewrite nth_overflow in Hin by auto; destruct Hin).
    assert (Hi : i < n). { assert (Hc : In i (concat gs)) by (apply in_concat; exists (nth k gs []); split; auto; now apply nth_In).
      eapply Permutation_in in Hc; [|exact HP]. apply in_seq in Hc. lia. }
    unfold ranks_of_groups. rewrite (nth_indep _ 0%Z (0 + 1)%Z).
    2: { rewrite map_length. clear -Hi. assert (G : forall l (r : list Z), length (fold_left (fun r (kg : nat * list nat) => fold_left (fun r i => upd r i (Z.of_nat (fst kg))) (snd kg) r) l r) = length r).
         { induction l; intros r; cbn; auto. now rewrite IHl, write_group_len. } rewrite G, repeat_length. auto. }
    rewrite (map_nth (fun r => (r + 1)%Z)). rewrite (write_groups gs 0 _ k i); auto.
    - eapply Permutation_NoDup; [symmetry; exact HP|]. apply seq_NoDup.
    - now rewrite repeat_length.
  Qed.
  Lemma length_ranks_of_groups gs n : length (ranks_of_groups n gs) = n.
  Proof.
    unfold ranks_of_groups. rewrite map_length.
    assert (G : forall l (r : list Z), length (fold_left (fun r (kg : nat * list nat) => fold_left (fun r i => upd r i (Z.of_nat (fst kg))) (snd kg) r) l r) = length r).
    { induction l; intros r; cbn; auto. now rewrite IHl, write_group_len. }
    rewrite G. apply repeat_length.
  Qed.
  Lemma in_group gs n i : Permutation (concat gs) (seq 0 n) -> i < n -> exists k, In i (nth k gs []) /\ k < length gs.
  Proof.
    intros HP Hi. assert (Hc : In i (concat gs)) by (eapply Permutation_in; [symmetry; exact HP|]; apply in_seq; lia).
    apply in_concat_nth in Hc as (k & H1 & H2). exists k. auto.
  Qed.

  (** Whatever the decision maker answers - also contradictions, also after invalid answers - every point gets exactly one rank and the ranks are 1..k
      without gaps. *)
  Theorem C108_pairwise_dense dm fuel F r : pairwise_ranks row dm fuel F d = Some r -> dense (length F) r.
  Proof.
    unfold pairwise_ranks, pairwise_groups. intros H.
    destruct (fold_left _ (seq 0 (length F)) (Some (0, []))) as [[t gs]|] eqn:E; [|discriminate]. injection H as <-.
    apply groups_perm in E as [HP HN]. split; [apply length_ranks_of_groups|].
    exists (Z.of_nat (length gs)). split.
    - intros i Hi. destruct (in_group gs _ i HP Hi) as (k & Hk & Hl). rewrite (ranks_of_groups_spec gs _ i k HP Hk). lia.
    - intros z Hz. set (k := Z.to_nat (z - 1)). assert (Hk : k < length gs) by lia.
      assert (Hg : nth k gs [] <> []) by (rewrite Forall_forall in HN; apply HN; now apply nth_In).
      destruct (nth k gs []) as [|i g] eqn:Eg; [congruence|]. assert (Hin : In i (nth k gs [])) by (rewrite Eg; now left).
      exists i. split; [|rewrite (ranks_of_groups_spec gs _ i k HP Hin); lia].
      assert (Hc : In i (concat gs)) by (apply in_concat; exists (nth k gs []); split; auto; now apply nth_In).
      eapply Permutation_in in Hc; [|exact HP]. apply in_seq in Hc. lia.
  Qed.

  (** ** a consistent decision maker *)
  (** a strict weak order on the rows *)
  Definition weak_order (better : row -> row -> Prop) : Prop :=
    (forall a, ~ better a a) /\ (forall a b c, better a b -> better b c -> better a c) /\
    (forall a b c, better a c -> better a b \/ better b c).
  Definition honest (better : row -> row -> Prop) (dm : nat -> row -> row -> option pref3) : Prop :=
    forall t a b p, dm t a b = Some p -> match p with PA => better a b | PB => better b a | PC => ~ better a b /\ ~ better b a end.
  Section Honest.
    Variable better : row -> row -> Prop.
    Hypothesis HW : weak_order better.
    Let irr := proj1 HW.
    Let tra := proj1 (proj2 HW).
    Let neg := proj2 (proj2 HW).
    Variable F : list row.
    Let bt (i j : nat) : Prop := better (nth i F d) (nth j F d).
    Let eqv (i j : nat) : Prop := ~ bt i j /\ ~ bt j i.
    (** groups in order: members equivalent, earlier groups better *)
    Fixpoint ordered (gs : list (list nat)) : Prop :=
      match gs with
      | [] => True
      | g :: gs => g <> [] /\ (forall i j, In i g -> In j g -> eqv i j) /\ (forall i j, In i g -> In j (concat gs) -> bt i j) /\ ordered gs
      end.
    Lemma eqv_bt_l i j k : eqv i j -> bt j k -> bt i k.
    Proof. intros [H1 H2] H. destruct (neg _ (nth i F d) _ H) as [K|K]; [exfalso; apply H2; exact K | exact K]. Qed.
    Lemma eqv_bt_r i j k : eqv i j -> bt k j -> bt k i.
    Proof. intros [H1 H2] H. destruct (neg _ (nth i F d) _ H) as [K|K]; [exact K | exfalso; apply H1; exact K]. Qed.
    Lemma eqv_trans i j k : eqv i j -> eqv j k -> eqv i k.
    Proof.
      intros A B. assert (S1 : eqv j i) by (destruct A; split; auto). assert (S2 : eqv k j) by (destruct B; split; auto). split; intros H.
      - apply (proj1 B). eapply eqv_bt_l; eauto.
      - apply (proj2 B). eapply eqv_bt_r; eauto.
    Qed.
    Lemma place_ordered dm fuel i : honest better dm -> forall gs t t' gs', ordered gs ->
      place row dm fuel t F d i gs = Some (t', gs') -> ordered gs'.
    Proof.
      intros Hd. induction gs as [|g gs IH]; intros t t' gs' Ho H; cbn in H.
      - injection H as <- <-. cbn. split; [discriminate|]. split; [|tauto]. intros a b [<-|[]] [<-|[]]. split; apply irr.
      - cbn in Ho. destruct Ho as (Hne & Heq & Hlt & Ho).
        destruct g as [|x g]; [congruence|]. cbn [hd] in H. set (g' := x :: g) in *.
        destruct (ask row dm fuel t (nth i F d) (nth x F d)) as [[t1 p]|] eqn:Ea; [|discriminate].
        apply ask_time in Ea as (t0 & Ea & _ & _). apply Hd in Ea.
        assert (Hx : In x g') by (now left).
        destruct p.
        + injection H as <- <-. cbn [ordered concat]. split; [discriminate|]. split; [intros a b [<-|[]] [<-|[]]; split; apply irr|].
          split; [|auto]. intros a b [<-|[]] Hb. apply in_app_iff in Hb as [Hb|Hb].
          * destruct (Heq x b Hx Hb) as [K1 K2]. apply (eqv_bt_r b x i); [split; auto|exact Ea].
          * eapply tra; [exact Ea|]. apply Hlt; auto.
        + destruct (place row dm fuel t1 F d i gs) as [[t2 gs2]|] eqn:E; [|discriminate]. injection H as <- <-.
          cbn [ordered]. split; [auto|]. split; [auto|]. split; [|eapply IH; eauto].
          intros a b Ha Hb.
          assert (Hn : Forall (fun g => g <> []) gs).
          { clear -Ho. induction gs as [|y gs IHg]; constructor; cbn in Ho; [tauto|]. apply IHg. tauto. }
          destruct (place_perm dm fuel F i gs _ _ _ Hn E) as [HP _]. eapply Permutation_in in Hb; [|exact HP].
          destruct Hb as [<-|Hb]; [|now apply Hlt]. apply (eqv_bt_l a x i); auto.
        + injection H as <- <-. assert (Hix : eqv i x) by exact Ea. cbn [ordered]. split; [destruct g; discriminate|].
          assert (Hi : forall a, In a g' -> eqv i a) by (intros a Ha; eapply eqv_trans; [exact Hix|]; apply Heq; auto).
          split; [|split; [|auto]].
          * intros a b Ha Hb. change (In a (g' ++ [i])) in Ha. change (In b (g' ++ [i])) in Hb. apply in_app_iff in Ha, Hb.
            destruct Ha as [Ha|[<-|[]]], Hb as [Hb|[<-|[]]]; auto.
            -- destruct (Hi a Ha). split; auto.
            -- split; apply irr.
          * intros a b Ha Hb. change (In a (g' ++ [i])) in Ha. apply in_app_iff in Ha. destruct Ha as [Ha|[<-|[]]]; [now apply Hlt|].
            eapply eqv_bt_l; [exact Hix|]. apply Hlt; auto.
    Qed.
    Lemma ordered_lookup : forall gs k l i j, ordered gs -> In i (nth k gs []) -> In j (nth l gs []) ->
      (k < l -> bt i j) /\ (k = l -> eqv i j).
    Proof.
      induction gs as [|g gs IH]; intros k l i j Ho Hi Hj; [destruct k; destruct Hi|].
      cbn in Ho. destruct Ho as (_ & Heq & Hlt & Ho). destruct k as [|k], l as [|l]; cbn in Hi, Hj.
      - split; [lia|]. intros _. auto.
      - split; [intros _|lia]. apply Hlt; auto. apply in_concat_nth.
        exists l. split; auto. destruct (Nat.lt_ge_cases l (length gs)); auto. rewrite nth_overflow in Hj by auto. destruct Hj.
      - split; lia.
      - destruct (IH k l i j Ho Hi Hj). split; intros; [apply H|apply H0]; lia.
    Qed.
  End Honest.

  (** If the answers follow a strict weak order, a better point has the smaller rank, and the ranks are equal exactly for equivalent points. *)
  Theorem C108_pairwise_consistent better dm fuel F r i j : weak_order better -> honest better dm ->
    pairwise_ranks row dm fuel F d = Some r -> i < length F -> j < length F ->
    ((nth i r 0 < nth j r 0)%Z <-> better (nth i F d) (nth j F d)) /\
    (nth i r 0%Z = nth j r 0%Z <-> ~ better (nth i F d) (nth j F d) /\ ~ better (nth j F d) (nth i F d)).
  Proof.
    intros HW Hd H Hi Hj. unfold pairwise_ranks, pairwise_groups in H.
    destruct (fold_left _ (seq 0 (length F)) (Some (0, []))) as [[t gs]|] eqn:E; [|discriminate]. injection H as <-.
    assert (Ho : ordered better F gs).
    { revert t gs E. generalize (length F) as k. induction k as [|k IH]; intros t gs E.
      - cbn in E. injection E as <- <-. exact Logic.I.
      - rewrite seq_S, fold_left_app in E. cbn [fold_left] in E.
        destruct (fold_left _ (seq 0 k) (Some (0, []))) as [[t0 gs0]|]; [|discriminate].
        eapply place_ordered; eauto. }
    apply groups_perm in E as [HP _].
    destruct (in_group gs _ i HP Hi) as (k & Hk & _). destruct (in_group gs _ j HP Hj) as (l & Hl & _).
    rewrite (ranks_of_groups_spec gs _ i k HP Hk), (ranks_of_groups_spec gs _ j l HP Hl).
    pose proof (ordered_lookup better F gs k l i j Ho Hk Hl) as [A1 A2].
    pose proof (ordered_lookup better F gs l k j i Ho Hl Hk) as [B1 B2].
    pose proof (proj1 HW) as irr. pose proof (proj1 (proj2 HW)) as tra.
    destruct (Nat.lt_trichotomy k l) as [C|[C|C]].
    - specialize (A1 C). split; split; intros K; try lia; auto. tauto.
    - specialize (A2 C). split; split; intros K; try lia; auto. destruct A2; tauto.
    - specialize (B1 C). split; split; intros K; try lia.
      + exfalso. apply (irr (nth i F d)). eapply tra; eauto.
      + tauto.
  Qed.

  (** A decision maker who always answers a, b or c is asked at most n(n-1)/2 questions, and the ranking succeeds. *)
  Theorem C108_pairwise_total dm fuel F : (forall t a b, dm t a b <> None) -> 0 < fuel ->
    exists t gs, pairwise_groups row dm fuel F d = Some (t, gs) /\ 2 * t <= length F * (length F - 1) /\
      pairwise_ranks row dm fuel F d = Some (ranks_of_groups (length F) gs).
  Proof.
    intros Hv Hf. destruct fuel as [|fuel]; [lia|]. unfold pairwise_ranks.
    assert (Hp : forall i gs t, exists t' gs', place row dm (S fuel) t F d i gs = Some (t', gs') /\ t' <= t + length gs /\ length gs' <= S (length gs)).
    { intros i. induction gs as [|g gs IH]; intros t; cbn [place ask].
      - exists t, [[i]]. cbn. split; [auto|lia].
      - specialize (Hv t (nth i F d) (nth (hd 0 g) F d)). destruct (dm t (nth i F d) (nth (hd 0 g) F d)) as [[| |]|]; [| | |congruence].
        + exists (S t), ([i] :: g :: gs). cbn. split; [auto|lia].
        + destruct (IH (S t)) as (t' & gs' & H1 & H2 & H3). rewrite H1. exists t', (g :: gs'). cbn. split; [auto|lia].
        + exists (S t), ((g ++ [i]) :: gs). cbn. split; [auto|lia]. }
    assert (G : forall k, exists t gs, fold_left (fun st i => match st with Some (t, gs) => place row dm (S fuel) t F d i gs | None => None end)
        (seq 0 k) (Some (0, [])) = Some (t, gs) /\ 2 * t <= k * (k - 1) /\ length gs <= k).
    { induction k as [|k (t & gs & H1 & H2 & H3)]; [exists 0, []; cbn; auto|].
      rewrite seq_S, fold_left_app, H1. cbn [fold_left]. destruct (Hp (0 + k) gs t) as (t' & gs' & K1 & K2 & K3).
      exists t', gs'. split; [exact K1|]. nia. }
    destruct (G (length F)) as (t & gs & H1 & H2 & _). exists t, gs. unfold pairwise_groups. rewrite H1. auto.
  Qed.
End Pairwise.

(** a decision maker with the score |x - 3| *)
Definition ex_dm (t : nat) (a b : Z) : option pref3 :=
  if (Z.abs (a - 3) <? Z.abs (b - 3))%Z then Some PA else if (Z.abs (b - 3) <? Z.abs (a - 3))%Z then Some PB else Some PC.
Example C108_pairwise_example :
  weak_order Z (fun a b => Z.abs (a - 3) < Z.abs (b - 3))%Z /\ honest Z (fun a b => Z.abs (a - 3) < Z.abs (b - 3))%Z ex_dm /\
  pairwise_ranks Z ex_dm 1 [7; 2; 4; 3]%Z 0%Z = Some [3; 2; 2; 1]%Z.
Proof.
  split; [repeat split; lia|]. split; [|reflexivity].
  intros t a b p H. unfold ex_dm in H.
  destruct (Z.ltb_spec (Z.abs (a - 3)) (Z.abs (b - 3))); [injection H as <-; auto|].
  destruct (Z.ltb_spec (Z.abs (b - 3)) (Z.abs (a - 3))); injection H as <-; [auto|lia].
Qed.

(** ** ranks typed in directly *)
(** The answer taken is the first one that is not empty and has all its numbers within 1..n; nothing is said about how many numbers there are: one number
    for four points is accepted. *)
Lemma fold_max_all : forall l a n, (fold_left Z.max l a <= n)%Z <-> (a <= n)%Z /\ Forall (fun x => (x <= n)%Z) l.
Proof.
  induction l as [|x l IH]; intros a n; cbn; [split; [auto|tauto]|]. rewrite IH. split.
  - intros [H1 H2]. split; [lia|]. constructor; auto. lia.
  - intros [H1 H2]. inversion H2; subst. split; [lia|auto].
Qed.
Lemma fold_min_all : forall l a n, (n <= fold_left Z.min l a)%Z <-> (n <= a)%Z /\ Forall (fun x => (n <= x)%Z) l.
Proof.
  induction l as [|x l IH]; intros a n; cbn; [split; [auto|tauto]|]. rewrite IH. split.
  - intros [H1 H2]. split; [lia|]. constructor; auto. lia.
  - intros [H1 H2]. inversion H2; subst. split; [lia|auto].
Qed.
Lemma ranks_valid_spec n r : ranks_valid n r = true <-> r <> [] /\ Forall (fun x => (1 <= x <= Z.of_nat n)%Z) r.
Proof.
  unfold ranks_valid. destruct r as [|x r]; [split; [discriminate|tauto]|].
  rewrite andb_true_iff, !Z.leb_le, fold_max_all, fold_min_all. split.
  - intros [[H1 H2] [H3 H4]]. split; [discriminate|]. constructor; [lia|].
    rewrite Forall_forall in H2, H4. apply Forall_forall. intros y Hy. split; auto.
  - intros [_ H]. inversion H as [|? ? K1 K2]; subst. rewrite Forall_forall in K2.
    split; (split; [lia|]); apply Forall_forall; intros y Hy; apply K2 in Hy; lia.
Qed.
Theorem C108_absolute n answers r : get_ranks n answers = Some r <->
  exists k, nth_error answers k = Some (Some r) /\ r <> [] /\ Forall (fun x => (1 <= x <= Z.of_nat n)%Z) r /\
    forall j, j < k -> exists r', nth_error answers j = Some (Some r') /\ (r' = [] \/ ~ Forall (fun x => (1 <= x <= Z.of_nat n)%Z) r').
Proof.
  induction answers as [|a answers IH]; cbn [get_ranks].
  - split; [discriminate|]. intros ([|k] & H & _); discriminate.
  - destruct a as [a|].
    + destruct (ranks_valid n a) eqn:E.
      * apply ranks_valid_spec in E as [E1 E2]. split.
        -- intros H. injection H as <-. exists 0. cbn. split; auto. split; auto. split; auto. lia.
        -- intros ([|k] & H1 & H2 & H3 & H4); [cbn in H1; congruence|]. exfalso.
           destruct (H4 0) as (r' & H5 & H6); [lia|]. cbn in H5. injection H5 as ->. tauto.
      * assert (Hn : ~ (a <> [] /\ Forall (fun x => (1 <= x <= Z.of_nat n)%Z) a)) by (rewrite <- ranks_valid_spec; congruence).
        rewrite IH. split.
        -- intros (k & H1 & H2 & H3 & H4). exists (S k). split; [exact H1|]. split; [auto|]. split; [auto|].
           intros [|j] Hj; [exists a; split; [auto|]|apply H4; lia].
           destruct a as [|x a]; [now left|]. right. intros Hc. apply Hn. split; [discriminate|auto].
        -- intros ([|k] & H1 & H2 & H3 & H4).
           { cbn in H1. injection H1 as ->. exfalso. apply Hn. auto. }
           exists k. split; [exact H1|]. split; [auto|]. split; [auto|]. intros j Hj. destruct (H4 (S j)) as (r' & K & K'); [lia|]. exists r'. auto.
    + split; [discriminate|]. intros ([|k] & H1 & _ & _ & H4); [discriminate|].
      destruct (H4 0) as (r' & K & _); [lia|]. discriminate.
Qed.
Theorem C108_absolute_refuted : exists r, get_ranks 4 [Some [1%Z]] = Some r /\ length r <> 4.
Proof. exists [1%Z]. split; [reflexivity|discriminate]. Qed.
