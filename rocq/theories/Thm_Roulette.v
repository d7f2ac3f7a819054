(** * C49: roulette and clearing selection *)
From Coq Require Import List Arith Bool ZArith QArith Lia Lqa.
From Verif Require Import ListAux M_Individual M_Survival M_RefDirs2 M_Roulette Thm_Decomp.
Import ListNotations.
Local Open Scope nat_scope.

(** ** roulette *)
Lemma count_prefix p m : (forall k, 1 <= k -> k < m -> p (S k) = true -> p k = true) ->
  exists i, i <= m /\ (forall k, 1 <= k -> k <= m -> p k = (k <=? i)) /\ length (filter p (seq 1 m)) = i.
Proof.
  induction m as [|m IH]; intros H; [exists 0; split; [lia|]; split; [intros; lia|reflexivity]|].
  destruct IH as (i & Hi & Hp & Hl); [intros k H1 H2; apply H; lia|]. rewrite seq_S, filter_app, app_length, Hl. cbn [filter Nat.add].
  destruct (p (S m)) eqn:E; cbn [length].
  - assert (i = m); [|subst i].
    { destruct m as [|m]; [lia|]. specialize (H (S m) ltac:(lia) ltac:(lia) E). rewrite Hp in H by lia. apply Nat.leb_le in H. lia. }
    exists (S m). split; [lia|]. split; [|lia]. intros k H1 H2. destruct (Nat.eq_dec k (S m)) as [->|Hne]; [rewrite E; symmetry; apply Nat.leb_refl|]. rewrite Hp by lia. transitivity true; [apply Nat.leb_le; lia|symmetry; apply Nat.leb_le; lia].
  - exists i. split; [lia|]. split; [|lia]. intros k H1 H2. destruct (Nat.eq_dec k (S m)) as [->|Hne]; [rewrite E; symmetry; apply Nat.leb_gt; lia|]. apply Hp; lia.
Qed.
Lemma filter_map_len {A B} (f : A -> B) p l : length (filter p (map f l)) = length (filter (fun x => p (f x)) l).
Proof. induction l as [|x l IH]; cbn; auto. destruct (p (f x)); cbn; congruence. Qed.
Lemma firstn_S_sum (l : list Q) k : k < length l -> (qsum (firstn (S k) l) == qsum (firstn k l) + nth k l 0)%Q.
Proof. unfold qsum. revert k. induction l as [|x l IH]; intros [|k] H; cbn [length] in H; try lia; [cbn; ring|]. cbn [firstn fold_right nth] in *. rewrite IH by lia. ring. Qed.

(** total weight of the entries before position [i] *)
Definition before (val : list Q) (i : nat) : Q := qsum (firstn i val).
(** C49: an index is always returned.  For non-negative weights with a positive sum and a random number x in [0,1), entry i is returned exactly when
    x lies in an interval whose length is the share of entry i; so an entry of weight zero is never chosen *)
Theorem C49_roulette : forall lib val x, val <> [] ->
  roulette_next lib val x < length val /\
  (lib = true -> Forall (fun v => 0 <= v)%Q val -> (0 < qsum val)%Q -> (0 <= x)%Q -> (x < 1)%Q -> forall i,
     (roulette_next lib val x = i <-> i < length val /\ (before val i / qsum val <= x)%Q /\ (x < before val i / qsum val + nth i val 0 / qsum val)%Q) /\
     (roulette_next lib val x = i -> (0 < nth i val 0)%Q)).
Proof.
  intros lib val x Hne. assert (HL : 0 < length val) by (destruct val; [congruence|cbn; lia]). split.
  - unfold roulette_next. assert (Hlen : length (roulette_val lib val) = length val) by (unfold roulette_val; destruct lib; rewrite ?map_length; auto).
    set (p := fun c : option Q => match c with Some c => Qle_bool c x | None => false end).
    assert (HF : forall l, length (filter p l) <= length l) by (induction l as [|a l IH]; cbn; [lia|destruct (p a); cbn; lia]).
    specialize (HF (cumulative (roulette_val lib val))). unfold cumulative in HF at 2. rewrite map_length, seq_length, Hlen in HF. lia.
  - intros -> HP HS Hx0 Hx1 i. unfold roulette_next, roulette_val, cumulative. rewrite filter_map_len.
    assert (E0 : Qeq_bool (qsum val) 0 = false) by (destruct (Qeq_bool (qsum val) 0) eqn:E; auto; apply Qeq_bool_iff in E; lra). rewrite E0.
    set (p := fun k => Qle_bool (qsum (firstn k val) / qsum val) x).
    assert (Hmono : forall k, k < length val -> (before val k / qsum val <= before val (S k) / qsum val)%Q).
    { intros k Hk. unfold before. rewrite (firstn_S_sum val k Hk). unfold Qdiv. apply Qmult_le_compat_r; [|apply Qinv_le_0_compat; lra]. rewrite Forall_forall in HP. specialize (HP _ (nth_In _ 0%Q Hk)). cbn beta in HP. lra. }
    destruct (count_prefix p (length val - 1)) as (c & Hc & Hp & Hl).
    { intros k H1 H2 H3. unfold p in *. apply Qle_bool_iff in H3. apply Qle_bool_iff. specialize (Hmono k ltac:(lia)). unfold before in Hmono. lra. }
    rewrite Hl. assert (HC : (before val c / qsum val <= x)%Q).
    { destruct c as [|c]; [unfold before; cbn; unfold Qdiv; rewrite Qmult_0_l; auto|]. specialize (Hp (S c) ltac:(lia) ltac:(lia)). rewrite Nat.leb_refl in Hp. now apply Qle_bool_iff in Hp. }
    assert (HC2 : (x < before val (S c) / qsum val)%Q).
    { destruct (Nat.eq_dec (S c) (length val)) as [E|Hn].
      - unfold before. rewrite E, firstn_all. unfold Qdiv. rewrite Qmult_inv_r by lra. auto.
      - specialize (Hp (S c) ltac:(lia) ltac:(lia)). replace (S c <=? c) with false in Hp by (symmetry; apply Nat.leb_gt; lia). unfold p in Hp. fold (before val (S c)) in Hp.
        destruct (Qlt_le_dec x (before val (S c) / qsum val)) as [H|H]; auto. apply Qle_bool_iff in H. congruence. }
    assert (Hsplit : forall k, k < length val -> (before val k / qsum val + nth k val 0 / qsum val == before val (S k) / qsum val)%Q) by (intros k Hk; unfold before; rewrite (firstn_S_sum val k Hk); unfold Qdiv; ring).
    assert (Hmono2 : forall a b, a <= b -> b <= length val -> (before val a / qsum val <= before val b / qsum val)%Q) by (intros a b H; induction H as [|b H IH]; intros Hb; [apply Qle_refl|]; eapply Qle_trans; [apply IH; lia|apply Hmono; lia]).
    split; [split|].
    + intros <-. split; [lia|]. split; auto. rewrite Hsplit by lia. auto.
    + intros (Hi & H1 & H2). rewrite Hsplit in H2 by auto. destruct (Nat.lt_trichotomy c i) as [H|[H|H]]; auto.
      * specialize (Hmono2 (S c) i ltac:(lia) ltac:(lia)). lra.
      * specialize (Hmono2 (S i) c ltac:(lia) ltac:(lia)). lra.
    + intros <-. assert (Hlt : (before val c / qsum val < before val (S c) / qsum val)%Q) by lra. rewrite <- Hsplit in Hlt by lia.
      assert (0 < nth c val 0 / qsum val)%Q by lra. destruct (Qlt_le_dec 0%Q (nth c val 0%Q)) as [H'|H']; auto. exfalso.
      assert (nth c val 0 / qsum val <= 0 / qsum val)%Q by (unfold Qdiv; apply Qmult_le_compat_r; [auto|apply Qinv_le_0_compat; lra]). unfold Qdiv in H0 at 2. rewrite Qmult_0_l in H0. lra.
Qed.
Print Assumptions C49_roulette.

(** smaller is better: the same with the weights (maximum - value); and if all values are equal the first entry is always returned *)
Theorem C49_minimise : forall val x, val <> [] ->
  exists M, (exists i, i < length val /\ M = nth i val 0%Q) /\ Forall (fun v => v <= M)%Q val /\
  (~ Forall (fun v => v == M)%Q val -> roulette_next false val x = roulette_next true (map (fun v => M - v)%Q val) x /\
     Forall (fun v => 0 <= v)%Q (map (fun v => M - v)%Q val) /\ (0 < qsum (map (fun v => M - v)%Q val))%Q) /\
  (Forall (fun v => v == M)%Q val -> roulette_next false val x = 0).
Proof.
  intros val x Hne. exists (q_max_list val). destruct val as [|v0 val]; [congruence|]. destruct (q_max_spec v0 val) as [(i & Hi & E) HB].
  assert (HM : Forall (fun v => v <= q_max_list (v0 :: val))%Q (v0 :: val)).
  { apply Forall_forall. intros v Hv. destruct (In_nth _ _ 0%Q Hv) as (k & Hk & <-). apply HB. exact Hk. }
  split; [exists i; split; auto|]. split; auto. set (M := q_max_list (v0 :: val)) in *. set (l := v0 :: val) in *.
  assert (HEq : roulette_next false l x = roulette_next true (map (fun v => M - v)%Q l) x) by reflexivity. clearbody M.
  assert (HP : Forall (fun v => 0 <= v)%Q (map (fun v => M - v)%Q l)) by (apply Forall_map; eapply Forall_impl; [|exact HM]; intros; cbn beta in *; lra).
  split.
  - intros Hn. split; [exact HEq|]. split; auto. clear Hi E HB HEq Hne. clearbody l. unfold qsum. induction l as [|v l IH]; [exfalso; apply Hn; constructor|].
    cbn [map fold_right] in *. inversion HM; subst. inversion HP; subst. destruct (Qeq_dec v M) as [Hv|Hv].
    + assert (0 < fold_right Qplus 0 (map (fun v => M - v) l))%Q; [|lra]. apply IH; auto.
    + assert (0 <= fold_right Qplus 0 (map (fun v => M - v) l))%Q; [|lra]. clear -H4. induction (map (fun v => (M - v)%Q) l) as [|a b IH]; cbn [fold_right]; [lra|]. inversion H4; subst. specialize (IH H2). lra.
  - intros HF. rewrite HEq. unfold roulette_next, roulette_val. assert (E0 : Qeq_bool (qsum (map (fun v => M - v)%Q l)) 0 = true).
    { apply Qeq_bool_iff. clear -HF. unfold qsum. induction HF as [|v l Hv HF IH]; cbn [map fold_right]; [reflexivity|]. rewrite IH, Hv. ring. }
    unfold cumulative. rewrite filter_map_len. rewrite E0. clear. induction (seq 1 (length (map (fun v => (M - v)%Q) l) - 1)); cbn; auto.
Qed.
Print Assumptions C49_minimise.
Example C49_roulette_case : roulette_next true [1; 0; 3]%Q (1 # 4) = 2 /\ roulette_next true [1; 0; 3]%Q (1 # 5) = 0 /\ roulette_next false [1; 0; 3]%Q (1 # 2) = 1.
Proof. vm_compute. auto. Qed.

(** ** clearing *)
  Lemma reset_flags (S : list nat) C j : j < length C -> Forall (fun i => i < length C) S -> (nth j (fold_left (fun C k => upd C k true) S C) false = true <-> In j S \/ nth j C false = true).
  Proof.
    revert C. induction S as [|k S IH]; intros C Hj HS; cbn [fold_left In]; [tauto|]. inversion HS; subst. rewrite IH by (rewrite length_upd; auto). rewrite nth_upd.
    destruct (Nat.eqb_spec j k) as [->|Hne]; cbn [andb]; [|intuition congruence]. replace (k <? length C) with true by (symmetry; apply Nat.ltb_lt; auto). intuition.
  Qed.
  Lemma length_reset S C : length (fold_left (fun C k => upd C k true) S C) = length C.
  Proof. revert C. induction S as [|k S IH]; intros C; cbn; auto. rewrite IH. apply length_upd. Qed.
Section Clr.
  Variables (n : nat) (close : nat -> nat -> bool) (sel : list nat -> nat).
  Hypothesis Hsel : forall r, r <> [] -> sel r < length r.
  (** every point is selected or close to a selected one *)
  Definition covered (S : list nat) : Prop := forall j, j < n -> In j S \/ exists k, In k S /\ close k j = true.
  Definition inv (e : nat) (c : clr) : Prop :=
    NoDup (cl_S c) /\ Forall (fun i => i < n) (cl_S c) /\ length (cl_C c) = n /\ e <= length (cl_S c) /\
    (forall j, j < n -> (nth j (cl_C c) false = true <-> In j (cl_S c) \/ exists k, In k (skipn e (cl_S c)) /\ close k j = true)) /\
    (e = 0 \/ covered (firstn e (cl_S c))) /\
    (forall i p, i < p -> p < length (cl_S c) -> close (nth i (cl_S c) 0) (nth p (cl_S c) 0) = true -> exists q, i < q /\ q <= p /\ covered (firstn q (cl_S c))).
  Lemma inv_reset e c : inv e c -> cl_remaining n c = [] -> inv (length (cl_S c)) (cl_reset n c).
  Proof using.
    intros (H1 & H2 & H3 & H4 & H5 & H6 & H7) HR. unfold inv, cl_reset. cbn [cl_S cl_C]. split; auto. split; auto. split; [rewrite length_reset; apply repeat_length|]. split; auto. split; [|split; [|auto]].
    - intros j Hj. rewrite skipn_all. rewrite reset_flags by (rewrite repeat_length; auto). rewrite nth_repeat. split; [intros [H|H]; [auto|discriminate]|intros [H|(k & [] & _)]; auto].
    - right. rewrite firstn_all. intros j Hj. assert (HC : nth j (cl_C c) false = true).
      { destruct (nth j (cl_C c) false) eqn:E; auto. assert (In j (cl_remaining n c)) by (apply In_where; split; auto; now rewrite E). rewrite HR in H. destruct H. }
      apply H5 in HC; auto. destruct HC as [HC|(k & Hk & HC)]; auto. right. exists k. split; auto. rewrite <- (firstn_skipn e). apply in_app_iff; auto.
  Qed.
  Lemma inv_select e c k : inv e c -> In k (cl_remaining n c) -> inv e (cl_select n close k c).
  Proof using.
    intros (H1 & H2 & H3 & H4 & H5 & H6 & H7) HR. apply In_where in HR as [Hk HR]. apply negb_true_iff in HR.
    assert (Hns : ~ In k (cl_S c)) by (intros Hf; assert (nth k (cl_C c) false = true) by (apply H5; auto); congruence).
    unfold inv, cl_select. cbn [cl_S cl_C]. rewrite app_length. cbn [length]. split; [|split; [|split; [|split; [lia|split; [|split]]]]].
    - clear -H1 Hns. induction (cl_S c) as [|a l IH]; cbn; [repeat constructor; auto|]. inversion H1; subst. constructor; [rewrite in_app_iff; cbn; intros [Hf|[->|[]]]; [auto|apply Hns; cbn; auto]|apply IH; auto; intros Hf; apply Hns; cbn; auto].
    - apply Forall_app. split; auto.
    - now rewrite map_length, seq_length.
    - intros j Hj. rewrite (nth_indep _ false ((nth 0 (upd (cl_C c) k true) false || close k 0)%bool)) by (now rewrite map_length, seq_length). rewrite (map_nth (fun j => (nth j (upd (cl_C c) k true) false || close k j)%bool)), seq_nth by auto. cbn [Nat.add].
      rewrite orb_true_iff, nth_upd, H3. replace (k <? n) with true by (symmetry; now apply Nat.ltb_lt). rewrite andb_true_r. rewrite in_app_iff. rewrite skipn_app. replace (e - length (cl_S c)) with 0 by lia. cbn [skipn In].
      destruct (Nat.eqb_spec j k) as [->|Hne].
      + split; [intros; left; auto|intros; left; auto].
      + rewrite H5 by auto. split.
        * intros [[H|(k' & Hk' & HC)]|H]; [auto|right; exists k'; rewrite in_app_iff; auto|right; exists k; rewrite in_app_iff; cbn; auto].
        * intros [[H|[H|[]]]|(k' & Hk' & HC)]; [auto|congruence|]. apply in_app_iff in Hk' as [Hk'|[<-|[]]]; [left; right; eauto|auto].
    - destruct H6 as [H6|H6]; auto. right. rewrite firstn_app. replace (e - length (cl_S c)) with 0 by lia. cbn [firstn]. now rewrite app_nil_r.
    - intros i p Hip Hp HC. destruct (Nat.eq_dec p (length (cl_S c))) as [->|Hne].
      + rewrite app_nth1 in HC by lia. rewrite nth_middle in HC.
        destruct (le_lt_dec e i) as [Hi|Hi].
        * exfalso. assert (nth k (cl_C c) false = true); [|congruence]. apply H5; auto. right. exists (nth i (cl_S c) 0). split; auto.
          rewrite <- (firstn_skipn e (cl_S c)) at 1. rewrite app_nth2 by (rewrite firstn_length; lia). apply nth_In. rewrite firstn_length, skipn_length. lia.
        * destruct H6 as [H6|H6]; [lia|]. exists e. split; [lia|]. split; [lia|]. rewrite firstn_app. replace (e - length (cl_S c)) with 0 by lia. cbn [firstn]. now rewrite app_nil_r.
      + rewrite !app_nth1 in HC by lia. destruct (H7 i p Hip ltac:(lia) HC) as (q & Hq1 & Hq2 & Hq3). exists q. split; auto. split; auto. rewrite firstn_app. replace (q - length (cl_S c)) with 0 by lia. cbn [firstn]. now rewrite app_nil_r.
  Qed.
  Lemma NoDup_short (S : list nat) : NoDup S -> Forall (fun i => i < n) S -> length S < n -> exists j, j < n /\ ~ In j S.
  Proof using.
    intros HN HF HL. destruct (forallb (fun j => existsb (Nat.eqb j) S) (seq 0 n)) eqn:E.
    - exfalso. rewrite forallb_forall in E. assert (incl (seq 0 n) S) by (intros j Hj; apply E in Hj; apply existsb_exists in Hj as (x & Hx & Ex); apply Nat.eqb_eq in Ex; now subst).
      pose proof (NoDup_incl_length (seq_NoDup n 0) H). rewrite seq_length in *. lia.
    - assert (HX : exists j, In j (seq 0 n) /\ existsb (Nat.eqb j) S = false).
      { clear -E. induction (seq 0 n) as [|a l IH]; [discriminate|]. cbn in E. apply andb_false_iff in E as [E|E]; [exists a; cbn; auto|]. destruct (IH E) as (j & Hj & Ej). exists j; cbn; auto. }
      destruct HX as (j & Hj & Ej). exists j. apply in_seq in Hj. split; [lia|]. intros Hf. assert (existsb (Nat.eqb j) S = true) by (apply existsb_exists; exists j; split; auto; apply Nat.eqb_refl). congruence.
  Qed.
  Lemma clearing_ok ns fuel : forall e c, inv e c -> ns <= n -> ns <= fuel + length (cl_S c) -> length (cl_S c) <= ns ->
    exists e' c', clearing_go fuel n ns close sel c = Some (cl_S c') /\ inv e' c' /\ length (cl_S c') = ns.
  Proof using Hsel.
    induction fuel as [|fuel IH]; intros e c HI Hn Hf Hle; cbn [clearing_go].
    - destruct (Nat.ltb_spec (length (cl_S c)) ns); [lia|]. exists e, c. split; auto. split; auto. lia.
    - destruct (Nat.ltb_spec (length (cl_S c)) ns) as [Hlt|Hge]; [|exists e, c; split; auto; split; auto; lia].
      assert (HS : exists e1 c1 rem, cl_next n c = (c1, rem) /\ inv e1 c1 /\ rem = cl_remaining n c1 /\ rem <> [] /\ cl_S c1 = cl_S c).
      { unfold cl_next. destruct (cl_remaining n c) as [|r0 r] eqn:ER.
        - exists (length (cl_S c)), (cl_reset n c), (cl_remaining n (cl_reset n c)). split; [reflexivity|]. pose proof (inv_reset e c HI ER) as HI'. split; auto. split; auto. split; auto.
          destruct HI as (H1 & H2 & _). destruct (NoDup_short _ H1 H2 ltac:(lia)) as (j & Hj & Hns).
          assert (In j (cl_remaining n (cl_reset n c))); [|intros E; rewrite E in H; destruct H]. apply In_where. split; auto. apply negb_true_iff. unfold cl_reset. cbn [cl_C].
          destruct (nth j (fold_left (fun C k => upd C k true) (cl_S c) (repeat false n)) false) eqn:E; auto. apply reset_flags in E; rewrite ?repeat_length; auto. rewrite nth_repeat in E. destruct E; [contradiction|discriminate].
        - exists e, c, (r0 :: r). split; auto. split; auto. split; auto. split; [discriminate|auto]. }
      destruct HS as (e1 & c1 & rem & -> & HI1 & Hrem & Hne & HSc). assert (HIn : In (nth (sel rem) rem 0) rem) by (apply nth_In, Hsel; auto).
      pose proof (inv_select e1 c1 (nth (sel rem) rem 0) HI1 ltac:(now rewrite <- Hrem)) as HI2.
      assert (HL : length (cl_S (cl_select n close (nth (sel rem) rem 0) c1)) = S (length (cl_S c))) by (cbn [cl_select cl_S]; rewrite app_length, HSc; cbn; lia).
      destruct (IH e1 _ HI2 Hn ltac:(lia) ltac:(lia)) as (e' & c' & E & HI' & HL'). exists e', c'. split; auto. destruct rem; [congruence|exact E].
  Qed.
  Lemma clearing_fail ns fuel : forall e c, inv e c -> n < ns -> length (cl_S c) <= n -> clearing_go fuel n ns close sel c = None.
  Proof using Hsel.
    induction fuel as [|fuel IH]; intros e c HI Hn Hle; cbn [clearing_go]; replace (length (cl_S c) <? ns) with true by (symmetry; apply Nat.ltb_lt; lia); auto.
    assert (HS : exists e1 c1 rem, cl_next n c = (c1, rem) /\ inv e1 c1 /\ rem = cl_remaining n c1 /\ cl_S c1 = cl_S c).
    { unfold cl_next. destruct (cl_remaining n c) as [|r0 r] eqn:ER.
      - exists (length (cl_S c)), (cl_reset n c), (cl_remaining n (cl_reset n c)). split; [reflexivity|]. pose proof (inv_reset e c HI ER). auto.
      - exists e, c, (r0 :: r). auto. }
    destruct HS as (e1 & c1 & rem & -> & HI1 & Hrem & HSc). destruct rem as [|r0 rem]; [reflexivity|].
    assert (HIn : In (nth (sel (r0 :: rem)) (r0 :: rem) 0) (r0 :: rem)) by (apply nth_In, Hsel; discriminate).
    pose proof (inv_select e1 c1 (nth (sel (r0 :: rem)) (r0 :: rem) 0) HI1) as HI2.
    rewrite <- Hrem in HI2. specialize (HI2 HIn). apply (IH e1); auto. destruct HI2 as (N1 & N2 & _). clear -N1 N2.
    assert (incl (cl_S (cl_select n close (nth (sel (r0 :: rem)) (r0 :: rem) 0) c1)) (seq 0 n)) by (intros j Hj; rewrite Forall_forall in N2; specialize (N2 j Hj); apply in_seq; lia).
    pose proof (NoDup_incl_length N1 H). now rewrite seq_length in *.
  Qed.
  Lemma inv_init : inv 0 (cl_init n).
  Proof using.
    unfold inv, cl_init. cbn [cl_S cl_C length]. split; [constructor|]. split; [constructor|]. split; [apply repeat_length|]. split; auto. split; [|split; [auto|intros; lia]].
    intros j Hj. rewrite nth_repeat. split; [discriminate|]. intros [[]|(k & [] & _)].
  Qed.
End Clr.
(** C49: asked for at most as many points as there are, clearing returns exactly that many different indices (asked for more, it raises); and a point
    close to an earlier chosen one is chosen only after the choice covered every point, i.e. each point was chosen or close to a chosen one *)
Theorem C49_clearing : forall n n_select close sel, (forall r, r <> [] -> sel r < length r) ->
  (n_select <= n -> exists S, select_by_clearing n n_select close sel = Some S /\ length S = n_select /\ NoDup S /\ Forall (fun i => i < n) S /\
     forall i p, i < p -> p < n_select -> close (nth i S 0) (nth p S 0) = true ->
       exists q, i < q /\ q <= p /\ forall j, j < n -> In j (firstn q S) \/ exists k, In k (firstn q S) /\ close k j = true) /\
  (n < n_select -> select_by_clearing n n_select close sel = None).
Proof.
  intros n ns close sel Hsel. split.
  - intros H. destruct (clearing_ok n close sel Hsel ns ns 0 (cl_init n) (inv_init n close) H ltac:(cbn; lia) ltac:(cbn; lia)) as (e & c & E & (H1 & H2 & _ & _ & _ & _ & H7) & HL).
    exists (cl_S c). split; auto. split; auto. split; auto. split; auto. intros i p Hip Hp. rewrite <- HL in Hp. apply H7; auto.
  - intros H. eapply clearing_fail; eauto; [apply inv_init|cbn; lia].
Qed.
Print Assumptions C49_clearing.
(** points on a line, epsilon 2: 0 5 9 are chosen, then everything is covered and 1 is allowed *)
Example C49_clearing_case : let close := fun i j => (if i <? j then j - i else i - j) <? 4 in
  select_by_clearing 10 4 close (fun _ => 0) = Some [0; 4; 8; 1] /\ (forall r : list nat, r <> [] -> (fun _ : list nat => 0) r < length r) /\ select_by_clearing 2 3 close (fun _ => 0) = None.
Proof. split; [vm_compute; reflexivity|]. split; [intros [|] H; [congruence|cbn; lia]|vm_compute; reflexivity]. Qed.
