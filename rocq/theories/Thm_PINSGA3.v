(** * C108, continued: v2, the refitting loop, and the interaction step of PINSGA2 *)
From Coq Require Import List ZArith Bool Lia Arith Permutation.
From Verif Require Import ListAux M_PINSGA Thm_PINSGA2.
Import ListNotations.
Local Open Scope nat_scope.

Lemma dense_In n r : dense n r <-> length r = n /\ exists k, forall z, In z r <-> (1 <= z <= k)%Z.
Proof.
  unfold dense. split; intros [Hl (k & H)]; (split; [auto|]); exists k.
  - destruct H as [H1 H2]. intros z. split.
    + intros Hz. apply In_nth with (d := 0%Z) in Hz as (i & Hi & <-). apply H1. lia.
    + intros Hz. destruct (H2 z Hz) as (i & Hi & <-). apply nth_In. lia.
  - split.
    + intros i Hi. apply H. apply nth_In. lia.
    + intros z Hz. apply H in Hz. apply In_nth with (d := 0%Z) in Hz as (i & Hi & <-). exists i. split; [lia|auto].
Qed.

(** removing the second entry and closing the gap keeps the ranks dense *)
Lemma dense_remove n r0 r1 rest : dense (S n) (r0 :: r1 :: rest) ->
  dense n (map (fun r => if (r1 <? r)%Z then (r - 1)%Z else r) (r0 :: rest)).
Proof.
  rewrite !dense_In. intros [Hl (k & H)]. split; [rewrite map_length; cbn in *; lia|].
  set (f := fun r => if (r1 <? r)%Z then (r - 1)%Z else r).
  assert (H1 : (1 <= r1 <= k)%Z) by (apply H; cbn; auto).
  assert (Ho : forall z, z <> r1 -> (1 <= z <= k)%Z -> In z (r0 :: rest)).
  { intros z Hz Hk. apply H in Hk. cbn in *. intuition congruence. }
  assert (Hf : forall z, (z <= r1)%Z -> f z = z) by (intros z Hz; unfold f; destruct (Z.ltb_spec r1 z); lia).
  assert (Hg : forall z, (r1 < z)%Z -> f z = (z - 1)%Z) by (intros z Hz; unfold f; destruct (Z.ltb_spec r1 z); lia).
  assert (Hr : forall z, In z (r0 :: rest) -> (1 <= z <= k)%Z) by (intros z Hz; apply H; cbn in *; tauto).
  destruct (in_dec Z.eq_dec r1 (r0 :: rest)) as [Ht|Ht]; [destruct (Z.eq_dec r1 k) as [->|Hk]|].
  - exists k. intros z. rewrite in_map_iff. split.
    + intros (x & <- & Hx). apply Hr in Hx. rewrite Hf; lia.
    + intros Hz. exists z. split; [apply Hf; lia|]. destruct (Z.eq_dec z k) as [->|]; auto.
  - exists (k - 1)%Z. intros z. rewrite in_map_iff. split.
    + intros (x & <- & Hx). apply Hr in Hx. destruct (Z.le_gt_cases x r1); [rewrite Hf by auto|rewrite Hg by lia]; lia.
    + intros Hz. destruct (Z.lt_ge_cases z r1).
      * exists z. split; [apply Hf; lia|]. apply Ho; lia.
      * exists (z + 1)%Z. split; [rewrite Hg by lia; lia|]. apply Ho; lia.
  - exists (k - 1)%Z. intros z. rewrite in_map_iff. split.
    + intros (x & <- & Hx). pose proof (Hr x Hx). assert (x <> r1) by congruence.
      destruct (Z.le_gt_cases x r1); [rewrite Hf by auto|rewrite Hg by lia]; lia.
    + intros Hz. destruct (Z.lt_ge_cases z r1).
      * exists z. split; [apply Hf; lia|]. apply Ho; lia.
      * exists (z + 1)%Z. split; [rewrite Hg by lia; lia|]. apply Ho; lia.
Qed.

Lemma dense_range n r i : dense n r -> i < n -> (1 <= nth i r 0 <= Z.of_nat n)%Z.
Proof.
  intros HD Hi. pose proof HD as [Hl (k & H1 & H2)]. specialize (H1 i Hi).
  assert (Hk : (k <= Z.of_nat n)%Z); [|lia].
  assert (Hinc : incl (map Z.of_nat (seq 1 (Z.to_nat k))) r).
  { intros z Hz. apply in_map_iff in Hz as (x & <- & Hx). apply in_seq in Hx. destruct (H2 (Z.of_nat x)) as (j & Hj & <-); [lia|]. apply nth_In. lia. }
  apply NoDup_incl_length in Hinc.
  - rewrite map_length, seq_length in Hinc. lia.
  - apply FinFun.Injective_map_NoDup; [|apply seq_NoDup]. intros a b E. lia.
Qed.

Lemma pyidx_in n z : (0 <= z < Z.of_nat n)%Z -> pyidx n z = Some (Z.to_nat z).
Proof. intros H. unfold pyidx. rewrite (proj2 (Z.leb_le _ _)), (proj2 (Z.ltb_lt _ _)) by lia. reflexivity. Qed.
Lemma pyidx_lt n z k : pyidx n z = Some k -> k < n.
Proof.
  unfold pyidx. destruct (Z.leb_spec 0 z), (Z.ltb_spec z (Z.of_nat n)); cbn; try (intros E; injection E as <-; lia).
  all: destruct (Z.leb_spec (- Z.of_nat n) z), (Z.ltb_spec z 0); cbn; intros E; try discriminate; injection E as <-; lia.
Qed.
Lemma length_delete {A} k (l : list A) : k < length l -> length (delete k l) = length l - 1.
Proof. intros H. unfold delete. rewrite app_length, firstn_length, skipn_length. lia. Qed.

Section Refit.
  Variables (row val : Type) (d : row).
  Notation refit := (refit row val).
  Implicit Types (fit : list row -> list Z -> option ((row -> val) * bool)).

  Lemma refit_fuel fit : forall fuel fuel' eta r, length eta <= fuel -> length eta <= fuel' -> refit fit d fuel eta r = refit fit d fuel' eta r.
  Proof.
    induction fuel as [|fuel IH]; intros fuel' eta r H H'.
    - destruct eta; cbn in H; [|lia]. destruct fuel'; reflexivity.
    - destruct fuel' as [|fuel']; [destruct eta; cbn in *; [reflexivity|lia]|].
      cbn [M_PINSGA.refit]. destruct (Nat.leb_spec (length eta) 1) as [H1|H1]; auto.
      destruct (fit eta r) as [[vf [|]]|]; auto.
      destruct (length eta =? 2); auto. destruct r as [|r0 [|r1 rest]]; auto.
      destruct (pyidx (length eta) (r1 - 1)) as [k|] eqn:E; auto.
      apply pyidx_lt in E. apply IH; rewrite length_delete by auto; lia.
  Qed.

  (** The refitting loop ends: with at least as many passes as rows the result does not depend on the bound, so it is never cut off.
      With ranks 1..k without gaps (as the pairwise ranking gives) and a fit that does not raise on such data, no indexing fails, and the loop ends
      with a fitted function or with the preference removed. *)
  Theorem C108_refit_ends fit eta r :
    (forall fuel, length eta <= fuel -> refit fit d fuel eta r = refit fit d (length eta) eta r) /\
    ((forall e s, dense (length e) s -> fit e s <> None) -> dense (length eta) r -> 2 <= length eta ->
     refit fit d (length eta) eta r = Some (Reset row val) \/
     exists e s vf v2, refit fit d (length eta) eta r = Some (Fitted row val vf v2) /\ fit e s = Some (vf, true) /\
       incl e eta /\ 2 <= length e /\ dense (length e) s /\ exists x, In x e /\ v2 = vf x).
  Proof.
    split; [intros fuel H; apply refit_fuel; auto|].
    intros Hfit. remember (length eta) as n eqn:En. revert eta r En.
    induction n as [|n IH]; intros eta r En HD Hn; [lia|].
    cbn [M_PINSGA.refit]. rewrite <- En. destruct (Nat.leb_spec (S n) 1); [lia|].
    pose proof (Hfit eta r ltac:(rewrite <- En; exact HD)) as Hf.
    pose proof (dense_range (S n) r 1 HD ltac:(lia)) as R1.
    destruct r as [|r0 [|r1 rest]]; [destruct HD as [Hl _]; cbn in Hl; lia|destruct HD as [Hl _]; cbn in Hl; lia|]. cbn [nth] in R1.
    rewrite pyidx_in by lia. set (k := Z.to_nat (r1 - 1)). assert (Hk : k < S n) by lia.
    destruct (fit eta (r0 :: r1 :: rest)) as [[vf [|]]|] eqn:Ef; [| |congruence].
    - right. exists eta, (r0 :: r1 :: rest), vf, (vf (nth k eta d)). split; [auto|]. split; [auto|]. split; [apply incl_refl|].
      split; [lia|]. split; [rewrite <- En; auto|]. exists (nth k eta d). split; auto. apply nth_In. lia.
    - destruct (Nat.eqb_spec (S n) 2) as [E2|E2]; [now left|].
      destruct (IH (delete k eta) (map (fun r => if (r1 <? r)%Z then (r - 1)%Z else r) (r0 :: rest))) as [K|(e & s & vf' & v2 & K1 & K2 & K3 & K4)].
      + rewrite length_delete by lia. lia.
      + now apply dense_remove.
      + lia.
      + left. exact K.
      + right. exists e, s, vf', v2. split; [exact K1|]. split; [exact K2|]. split; [|exact K4].
        intros x Hx. apply K3 in Hx. unfold delete in Hx. apply in_app_iff in Hx as [Hx|Hx]; [|].
        * rewrite <- (firstn_skipn k eta). apply in_app_iff. now left.
        * rewrite <- (firstn_skipn (S k) eta). apply in_app_iff. now right.
  Qed.

  (** v2, when the fit succeeds at once: the value of the row AT the position given by the rank of the second row.  That row is the one the decision
      maker ranked second if the second row is it; in general its rank is r[r[1] - 1]. *)
  Theorem C108_v2 fit eta r vf : length r = length eta -> 2 <= length eta -> Forall (fun z => (1 <= z <= Z.of_nat (length eta))%Z) r ->
    fit eta r = Some (vf, true) ->
    let k := Z.to_nat (nth 1 r 0 - 1)%Z in
    k < length eta /\ refit fit d (length eta) eta r = Some (Fitted row val vf (vf (nth k eta d))) /\
    (nth 1 r 0%Z = 2%Z -> k = 1 /\ nth k r 0%Z = 2%Z).
  Proof.
    intros Hl Hn Hr Hf k.
    assert (R1 : (1 <= nth 1 r 0 <= Z.of_nat (length eta))%Z) by (rewrite Forall_forall in Hr; apply Hr, nth_In; lia).
    assert (Hk : k < length eta) by (unfold k; lia). split; [auto|]. split.
    - destruct (length eta) as [|[|n]] eqn:En; [lia|lia|]. cbn [M_PINSGA.refit]. rewrite En. cbn [Nat.leb]. rewrite Hf.
      destruct r as [|r0 [|r1 rest]]; [cbn in Hl; lia|cbn in Hl; lia|]. cbn [nth] in R1, k. rewrite pyidx_in by lia. reflexivity.
    - intros E. unfold k. rewrite E. cbn. auto.
  Qed.

  (** One failed fit, the second row being the one ranked second and the only one: the next attempt has the other rows, with their ranks in the same order. *)
  Theorem C108_remove fit eta r vf fuel : length r = length eta -> 3 <= length eta -> fit eta r = Some (vf, false) ->
    nth 1 r 0%Z = 2%Z -> (forall i, i < length r -> nth i r 0%Z = 2%Z -> i = 1) ->
    exists eta' r', refit fit d (S fuel) eta r = refit fit d fuel eta' r' /\ length eta' = length eta - 1 /\ length r' = length eta' /\
      let old i := if i =? 0 then 0 else S i in
      forall i, i < length eta' -> nth i eta' d = nth (old i) eta d /\
        forall j, j < length eta' -> ((nth i r' 0 < nth j r' 0)%Z <-> (nth (old i) r 0 < nth (old j) r 0)%Z).
  Proof.
    intros Hl Hn Hf H1 Ho. destruct r as [|r0 [|r1 rest]]; [cbn in Hl; lia|cbn in Hl; lia|]. cbn [nth] in H1. subst r1.
    destruct eta as [|e0 [|e1 et]]; [cbn in Hn; lia|cbn in Hn; lia|].
    exists (e0 :: et), (map (fun r => if (2 <? r)%Z then (r - 1)%Z else r) (r0 :: rest)). split.
    - cbn [M_PINSGA.refit]. cbn [length] in *. rewrite Hf. destruct (Nat.leb_spec (S (S (length et))) 1); [lia|].
      destruct (Nat.eqb_spec (S (S (length et))) 2); [lia|]. rewrite pyidx_in by lia. reflexivity.
    - cbn [length] in *. split; [lia|]. split; [rewrite map_length; cbn; lia|]. cbv zeta.
      assert (Hne : forall i, i < S (length et) -> nth (if i =? 0 then 0 else S i) (r0 :: 2%Z :: rest) 0%Z <> 2%Z).
      { intros i Hi E. apply Ho in E; [|destruct i; cbn; lia]. destruct i; cbn in E; lia. }
      assert (Hnth : forall i, i < S (length et) -> nth i (map (fun r => if (2 <? r)%Z then (r - 1)%Z else r) (r0 :: rest)) 0%Z =
        let z := nth (if i =? 0 then 0 else S i) (r0 :: 2%Z :: rest) 0%Z in if (2 <? z)%Z then (z - 1)%Z else z).
      { intros [|i] Hi; [reflexivity|]. cbn [map nth Nat.eqb]. cbv zeta. apply (map_nth (fun r => if (2 <? r)%Z then (r - 1)%Z else r) rest 0%Z). }
      intros i Hi. split; [destruct i; reflexivity|]. intros j Hj. rewrite !Hnth by auto. cbv zeta.
      pose proof (Hne i Hi). pose proof (Hne j Hj).
      destruct (Z.ltb_spec 2 (nth (if i =? 0 then 0 else S i) (r0 :: 2%Z :: rest) 0%Z)),
               (Z.ltb_spec 2 (nth (if j =? 0 then 0 else S j) (r0 :: 2%Z :: rest) 0%Z)); lia.
  Qed.
End Refit.

(** The rows a, b, c ranked third, first, second: v2 is the value of the worst.  After a failed fit the rows left are b and c, now ranked second and first, the
    opposite of what was said.  And with a tie on rank 2 the renumbering merges rank 3 into it. *)
Theorem C108_second_best_refuted : forall (row val : Type) (a b c : row) vf (fit : list row -> list Z -> option ((row -> val) * bool)),
  (fit [a; b; c] [3; 1; 2]%Z = Some (vf, true) -> refit row val fit a 3 [a; b; c] [3; 1; 2]%Z = Some (Fitted row val vf (vf a))) /\
  (fit [a; b; c] [3; 1; 2]%Z = Some (vf, false) -> refit row val fit a 3 [a; b; c] [3; 1; 2]%Z = refit row val fit a 2 [b; c] [2; 1]%Z) /\
  (forall e, fit [a; b; c; e] [1; 2; 2; 3]%Z = Some (vf, false) -> refit row val fit a 4 [a; b; c; e] [1; 2; 2; 3]%Z = refit row val fit a 3 [a; c; e] [1; 2; 2]%Z).
Proof.
  intros row val a b c vf fit. split; [|split]; intros; cbn [refit length Nat.leb Nat.eqb].
  - rewrite H. reflexivity.
  - rewrite H. reflexivity.
  - rewrite H. reflexivity.
Qed.

(** ** the interaction step *)
Section Advance.
  Variables (row val : Type) (d : row).
  Notation pin_advance := (pin_advance row val).
  Notation pstate := (pstate row val).

  (** the objective rows of the members of rank 0 *)
  Definition front0 (pop : list (nat * row)) : list row := map snd (filter (fun p => fst p =? 0) pop).

  (** After one iteration: the population is the one the survival left (also when the preference is reset: nothing is taken back); the history has grown by
      the rows of rank 0; the rows shown are at most eta rows of rank 0.  When n_gen is no multiple of tau, the preference stays; otherwise the old one is
      gone, replaced by what was fitted to the rows shown and the ranks given, or by none. *)
  Theorem C108_advance select uniq consult fit eta tau n_gen pop (s s' : pstate) :
    (forall F k, k <= length F -> length (select F k) = k /\ Forall (fun i => i < length F) (select F k)) ->
    (forall l, incl (uniq l) l /\ length (uniq l) <= length l) ->
    pin_advance select uniq consult fit d eta tau n_gen pop s = Some s' ->
    ps_pop _ _ s' = pop /\ ps_hist _ _ s' = ps_hist _ _ s ++ front0 pop /\
    incl (ps_eta_F _ _ s') (front0 pop) /\ length (ps_eta_F _ _ s') <= eta /\
    (n_gen mod tau <> 0 -> ps_vf _ _ s' = ps_vf _ _ s) /\
    (n_gen mod tau = 0 -> ps_vf _ _ s' = None \/
       exists vf v2 ranks e r, ps_vf _ _ s' = Some (vf, v2) /\ consult (ps_eta_F _ _ s') = Some ranks /\ fit e r = Some (vf, true) /\
         incl e (ps_eta_F _ _ s') /\ exists x, In x e /\ v2 = vf x).
  Proof.
    intros Hsel Huniq H. unfold M_PINSGA.pin_advance in H. fold (front0 pop) in H.
    set (F := front0 pop) in *. set (k := if eta <=? length F then eta else length F) in *.
    set (rows := uniq (map (fun i => nth i F d) (select F k))) in *.
    assert (Hk : k <= length F /\ k <= eta) by (unfold k; destruct (Nat.leb_spec eta (length F)); lia).
    destruct (Hsel F k (proj1 Hk)) as [S1 S2].
    assert (R1 : incl rows F).
    { intros x Hx. apply (proj1 (Huniq _)) in Hx. apply in_map_iff in Hx as (i & <- & Hi). rewrite Forall_forall in S2. apply nth_In. auto. }
    assert (R2 : length rows <= eta).
    { unfold rows. pose proof (proj2 (Huniq (map (fun i => nth i F d) (select F k)))) as L. rewrite map_length, S1 in L. lia. }
    destruct (Nat.eqb_spec tau 0) as [Ht|Ht]; [discriminate|].
    destruct (Nat.eqb_spec (n_gen mod tau) 0) as [Hg|Hg]; cbn [negb] in H.
    2: { injection H as <-. cbn. split; [auto|]. split; [auto|]. split; [auto|]. split; [auto|]. split; [auto|tauto]. }
    assert (HR : forall s1 : pstate, ps_prev _ _ s1 = Some pop -> ps_hist _ _ s1 = ps_hist _ _ s ++ F -> forall s'' : pstate, Some (reset_pref row val s1) = Some s'' ->
      ps_pop _ _ s'' = pop /\ ps_hist _ _ s'' = ps_hist _ _ s ++ F /\ incl (ps_eta_F _ _ s'') F /\ length (ps_eta_F _ _ s'') <= eta /\ ps_vf _ _ s'' = None).
    { intros s1 E1 E2 s'' E. injection E as <-. unfold reset_pref. cbn. rewrite E1, E2. split; [auto|]. split; [auto|]. split; [intros x []|]. split; [lia|auto]. }
    assert (HR' : forall s1 : pstate, ps_prev _ _ s1 = Some pop -> ps_hist _ _ s1 = ps_hist _ _ s ++ F -> Some (reset_pref row val s1) = Some s' ->
      ps_pop _ _ s' = pop /\ ps_hist _ _ s' = ps_hist _ _ s ++ F /\ incl (ps_eta_F _ _ s') F /\ length (ps_eta_F _ _ s') <= eta /\
      (n_gen mod tau <> 0 -> ps_vf _ _ s' = ps_vf _ _ s) /\ (n_gen mod tau = 0 -> ps_vf _ _ s' = None \/
       exists vf v2 ranks e r, ps_vf _ _ s' = Some (vf, v2) /\ consult (ps_eta_F _ _ s') = Some ranks /\ fit e r = Some (vf, true) /\
         incl e (ps_eta_F _ _ s') /\ exists x, In x e /\ v2 = vf x)).
    { intros s1 E1 E2 E. destruct (HR s1 E1 E2 s' E) as (A & B & C & D & G). split; [auto|]. split; [auto|]. split; [auto|]. split; [auto|]. split; [tauto|auto]. }
    destruct (Nat.ltb_spec (length rows) 2) as [L2|L2]; [eapply HR'; [| |exact H]; reflexivity|].
    destruct (consult rows) as [ranks|] eqn:Ec; [|discriminate].
    destruct (length (nodup Nat.eq_dec (map fst pop)) =? 0); [eapply HR'; [| |exact H]; reflexivity|].
    assert (G : forall fuel e r o, refit row val fit d fuel e r = Some o -> 2 <= length e -> incl e rows ->
      o = Reset row val \/ exists vf v2 e' r', o = Fitted row val vf v2 /\ fit e' r' = Some (vf, true) /\ incl e' rows /\ exists x, In x e' /\ v2 = vf x).
    { clear H HR HR'. induction fuel as [|fuel IH]; intros e r o H He Hi; cbn [refit] in H; (destruct (Nat.leb_spec (length e) 1); [lia|]); [discriminate|].
      destruct (fit e r) as [[vf [|]]|] eqn:Ef; [| |discriminate].
      - destruct r as [|r0 [|r1 rest]]; try discriminate. destruct (pyidx (length e) (r1 - 1)) as [q|] eqn:Ek; [|discriminate].
        assert (o = Fitted row val vf (vf (nth q e d))) by congruence. subst o. right. exists vf, (vf (nth q e d)), e, (r0 :: r1 :: rest).
        split; auto. split; auto. split; auto. exists (nth q e d). split; auto. apply nth_In. now apply pyidx_lt in Ek.
      - destruct (Nat.eqb_spec (length e) 2) as [E2|E2]; [left; congruence|].
        destruct r as [|r0 [|r1 rest]]; try discriminate. destruct (pyidx (length e) (r1 - 1)) as [q|] eqn:Ek; [|discriminate].
        apply pyidx_lt in Ek. eapply IH; [exact H| |].
        + rewrite length_delete by auto. lia.
        + intros x Hx. apply Hi. unfold delete in Hx. apply in_app_iff in Hx as [Hx|Hx].
          * rewrite <- (firstn_skipn q e). apply in_app_iff. now left.
          * rewrite <- (firstn_skipn (S q) e). apply in_app_iff. now right. }
    destruct (refit row val fit d (length rows) rows ranks) as [o|] eqn:Er; [|discriminate].
    destruct (G _ _ _ _ Er L2 (incl_refl _)) as [-> | (vf & v2 & e & r & -> & K1 & K2 & K3)].
    - eapply HR'; [| |exact H]; reflexivity.
    - injection H as <-. cbn. split; [auto|]. split; [auto|]. split; [auto|]. split; [auto|]. split; [tauto|].
      intros _. right. exists vf, v2, ranks, e, r. auto.
  Qed.

  (** the test meant for "no preference between any two points" looks at the ranks of the population, so it never fires on a non-empty one, whatever the
      decision maker said: a decision maker who ranks all points equal is taken at her word and a function is fitted *)
  Theorem C108_no_preference_refuted select uniq consult fit eta tau n_gen pop (s : pstate) vf :
    pop <> [] -> tau <> 0 -> n_gen mod tau = 0 ->
    let F := front0 pop in let rows := uniq (map (fun i => nth i F d) (select F (if eta <=? length F then eta else length F))) in
    2 <= length rows -> consult rows = Some (repeat 1%Z (length rows)) -> fit rows (repeat 1%Z (length rows)) = Some (vf, true) ->
    exists s', pin_advance select uniq consult fit d eta tau n_gen pop s = Some s' /\ ps_vf _ _ s' = Some (vf, vf (nth 0 rows d)).
  Proof.
    intros Hp Ht Hg F rows Hn Hc Hf. unfold M_PINSGA.pin_advance. fold (front0 pop). fold F. fold rows.
    rewrite (proj2 (Nat.eqb_neq _ _) Ht), Hg, Nat.eqb_refl. cbn [negb].
    destruct (Nat.ltb_spec (length rows) 2); [lia|]. rewrite Hc.
    assert (E : length (nodup Nat.eq_dec (map fst pop)) =? 0 = false).
    { apply Nat.eqb_neq. intros E. apply length_zero_iff_nil in E. destruct pop as [|p pop]; [congruence|].
      assert (Hin : In (fst p) (nodup Nat.eq_dec (map fst (p :: pop)))) by (apply nodup_In; cbn; auto). rewrite E in Hin. destruct Hin. }
    rewrite E. destruct (C108_v2 row val d fit rows (repeat 1%Z (length rows)) vf) as (K1 & K2 & _); auto.
    - apply repeat_length.
    - apply Forall_forall. intros z Hz. apply repeat_spec in Hz. lia.
    - rewrite K2. eexists. split; [reflexivity|]. cbn. destruct (length rows) as [|[|n]]; [lia|lia|]. reflexivity.
  Qed.
End Advance.

Example C108_advance_example :
  let s0 := {| ps_pop := []; ps_prev := None; ps_vf := None; ps_hist := [9%Z]; ps_eta_F := [] |} in
  exists s', pin_advance Z Z (fun _ k => seq 0 k) (fun l => l) (fun _ => Some [2; 1]%Z) (fun _ _ => Some (Z.opp, true)) 0%Z 2 5 10 [(0, 4%Z); (1, 5%Z); (0, 3%Z)] s0 = Some s' /\
    ps_hist _ _ s' = [9; 4; 3]%Z /\ ps_eta_F _ _ s' = [4; 3]%Z /\ option_map snd (ps_vf _ _ s') = Some (-4)%Z.
Proof. eexists. split; [reflexivity|]. repeat split. Qed.
