(** * The tree-based sort *)
From Coq Require Import List ZArith Bool Lia Arith Permutation Floats.SpecFloat.
From Verif Require Import Flt ListAux M_Dominator M_NDS S_Pareto S_NDS P_Dominator P_Peel P_FastNDS P_NDS1 P_NDS2 P_NDS3.
Import ListNotations.

Scheme tree_mind := Induction for tree Sort Prop
  with forest_mind := Induction for forest Sort Prop.
Combined Scheme tree_forest_ind from tree_mind, forest_mind.

Section Tree.
  Variables (F : fltmat) (n M : nat) (oseq : list (list nat)).
  Hypothesis HM : 0 < M.
  Hypothesis Hseq : forall k, k < n -> length (nth k oseq []) = M - 1 /\ forall o, In o (nth k oseq []) <-> 1 <= o < M.

  Definition le_tail (p q : nat) : Prop := forall o, 1 <= o < M -> fleb (cell F p o) (cell F q o) = true.

  Definition tdom (p q : nat) : Prop := p < q /\ le_tail p q.

  Lemma tdom_trans i j k : tdom i j -> tdom j k -> tdom i k.
  Proof. intros [H1 H2] [H3 H4]. split; [lia|]. intros o Ho. eapply fle_trans; eauto. Qed.

  Lemma find_m_le p k l : find_m F p k l <= length l.
  Proof. induction l; simpl; [lia|]. destruct (fleb _ _); simpl; lia. Qed.

  Lemma find_m_full p k l : find_m F p k l = length l <-> forall o, In o l -> fleb (cell F k o) (cell F p o) = true.
  Proof.
    induction l as [|o l IH]; simpl; [split; [tauto|auto]|]. destruct (fleb (cell F k o) (cell F p o)) eqn:E.
    - split; intros H.
      + injection H as H. intros o' [->|Ho']; auto. now apply IH.
      + f_equal. apply IH. auto.
    - split; [discriminate|]. intros H. rewrite H in E by auto. discriminate.
  Qed.

  (** below the returned position the key is not larger *)
  Lemma find_m_prefix p k l i : i < find_m F p k l -> fleb (cell F k (nth i l 0)) (cell F p (nth i l 0)) = true.
  Proof.
    revert i. induction l as [|o l IH]; simpl; [lia|]. destruct (fleb _ _) eqn:E; [|lia]. intros [|i] Hi; auto. apply IH. lia.
  Qed.

  Lemma find_m_stop p k l : find_m F p k l < length l ->
    fleb (cell F k (nth (find_m F p k l) l 0)) (cell F p (nth (find_m F p k l) l 0)) = false.
  Proof.
    induction l as [|o l IH]; simpl; [lia|]. destruct (fleb (cell F k o) (cell F p o)) eqn:E; simpl; auto. intros. apply IH. lia.
  Qed.

  Definition fm p k := find_m F p k (nth k oseq []).

  (** well formed: keys in range; a key in slot [i] of node [k] was placed there by [fm] *)
  Fixpoint WF (t : tree) : Prop :=
    match t with
    | TNone => True
    | TNode k ch => k < n /\ WFF k 0 ch
    end
  with WFF (k i : nat) (f : forest) : Prop :=
    match f with
    | FNil => i = M - 1
    | FCons t f => WF t /\ (forall q, In q (keys t) -> q < n /\ fm q k = i) /\ WFF k (S i) f
    end.

  Lemma WFF_fm k f : forall i q, WFF k i f -> In q (fkeys f) -> q < n /\ i <= fm q k.
  Proof.
    induction f as [|t f IH]; intros i q HW Hq; simpl in *; [tauto|].
    destruct HW as (_ & H1 & H2). apply in_app_iff in Hq as [Hq|Hq].
    - apply H1 in Hq as [? ->]. split; auto.
    - apply IH with (i := S i) in Hq; auto. lia.
  Qed.

  Lemma WFF_nones k i : i <= M - 1 -> WFF k i (nones (M - 1 - i)).
  Proof.
    remember (M - 1 - i) as d eqn:Ed. revert i Ed. induction d as [|d IH]; intros i Ed Hi; simpl; [lia|].
    split; auto. split; [tauto|]. apply IH; lia.
  Qed.
  Lemma fkeys_nones d : fkeys (nones d) = [].
  Proof. induction d; simpl; auto. Qed.

  Variable p : nat.
  Hypothesis Hp : p < n.

  (** no key can be below [p] in the slots after [fm p k] *)
  Lemma later_slot k q : k < n -> q < n -> fm p k < M - 1 -> fm p k < fm q k -> ~ le_tail q p.
  Proof.
    intros Hk Hq Hm Hlt Hle. destruct (Hseq k Hk) as [HL HI]. unfold fm in *.
    set (m := find_m F p k (nth k oseq [])) in *.
    assert (Ho : 1 <= nth m (nth k oseq []) 0 < M) by (apply HI, nth_In; lia).
    pose proof (find_m_prefix q k _ _ Hlt) as H1.
    assert (H2 : fleb (cell F k (nth m (nth k oseq []) 0)) (cell F p (nth m (nth k oseq []) 0)) = false).
    { apply find_m_stop. fold m. lia. }
    specialize (Hle _ Ho). rewrite (fle_trans _ _ _ H1 Hle) in H2. discriminate.
  Qed.

  Definition free (l : list nat) : Prop := forall q, In q l -> ~ le_tail q p.

  Lemma check_tree_false_id :
    (forall t, snd (check_tree F M oseq p t false) = t) /\
    (forall f r, snd (check_forest F M oseq p f r false) = f).
  Proof.
    apply tree_forest_ind; simpl; auto.
    - intros k ch IH. destruct (_ =? _); auto. specialize (IH (find_m F p k (nth k oseq []))).
      destruct (check_forest _ _ _ _ _ _ _) as [b ch']; simpl in *. congruence.
    - intros t IHt f IHf [|r].
      + destruct (check_tree F M oseq p t false) as [b c']; simpl in *. subst c'. destruct b; auto. destruct t; auto.
      + destruct (check_tree F M oseq p t false) as [b c']; simpl in *. subst c'. destruct b; auto.
        specialize (IHf r). destruct (check_forest _ _ _ _ _ _ _) as [b2 rest']; simpl in *. congruence.
  Qed.

  Lemma check_tree_none t add : snd (check_tree F M oseq p t add) = TNone <-> t = TNone.
  Proof.
    destruct t as [|k ch]; simpl; [tauto|]. destruct (_ =? _); simpl; [split; discriminate|].
    destruct (check_forest _ _ _ _ _ _ _); simpl. split; discriminate.
  Qed.

  Lemma check_spec :
    (forall t add, WF t ->
       let '(b, t') := check_tree F M oseq p t add in
       (b = true <-> free (keys t)) /\
       (b = false -> t' = t) /\
       (b = true -> add = true -> t <> TNone -> WF t' /\ Permutation (keys t') (p :: keys t))) /\
    (forall f k i r add, WFF k i f -> k < n -> fm p k = i + r -> i + r < M - 1 ->
       let '(b, f') := check_forest F M oseq p f r add in
       (b = true <-> free (fkeys f)) /\
       (b = false -> f' = f) /\
       (b = true -> add = true -> WFF k i f' /\ Permutation (fkeys f') (p :: fkeys f))).
  Proof.
    apply tree_forest_ind.
    - intros add _. simpl. split; [|split; [discriminate|congruence]]. split; auto. intros _ q [].
    - intros k ch IH add [Hk HW]. simpl. fold (fm p k).
      destruct (Hseq k Hk) as [HL HI].
      destruct (Nat.eqb_spec (fm p k) (M - 1)) as [E|E].
      + split; [|split; [auto|discriminate]]. split; [discriminate|]. intros Hfr. exfalso. apply (Hfr k); simpl; auto.
        intros o Ho. apply HI in Ho. eapply find_m_full; [|exact Ho]. fold (fm p k). lia.
      + assert (Hlt : fm p k < M - 1) by (pose proof (find_m_le p k (nth k oseq [])); unfold fm in *; lia).
        specialize (IH k 0 (fm p k) add HW Hk eq_refl Hlt).
        destruct (check_forest F M oseq p ch (fm p k) add) as [b ch']. destruct IH as (I1 & I2 & I3).
        assert (Hnk : ~ le_tail k p).
        { intros Hle. apply E. rewrite <- HL. apply find_m_full. intros o Ho. apply Hle, HI, Ho. }
        split; [|split].
        * rewrite I1. simpl. split; intros H q Hq; [destruct Hq as [<-|Hq]; auto|apply H; simpl; auto].
        * intros Hb. now rewrite I2.
        * intros Hb Ha _. destruct (I3 Hb Ha) as [J1 J2]. simpl. split; [split; auto|].
          rewrite J2. apply perm_swap.
    - intros k i r add HW _ Hm Hlt. simpl in HW. lia.
    - intros t IHt f IHf k i r add (W1 & W2 & W3) Hk Hm Hlt. simpl. destruct r as [|r].
      + specialize (IHt add W1). pose proof (check_tree_none t add) as HN.
        destruct (check_tree F M oseq p t add) as [b c']. destruct IHt as (I1 & I2 & I3). simpl in HN.
        assert (Hrest : free (fkeys f)).
        { intros q Hq. destruct (WFF_fm _ _ _ _ W3 Hq) as [H1 H2]. apply (later_slot k); auto; lia. }
        destruct b.
        * assert (HB : true = true <-> free (keys t ++ fkeys f)).
          { split; auto. intros _ q Hq. apply in_app_iff in Hq as [Hq|Hq]; [apply I1 in Hq; auto|auto]. }
          destruct c' as [|k' ch'].
          { assert (t = TNone) by (now apply HN). subst t. split; [exact HB|]. split; [discriminate|].
            intros _ ->. split.
            - split; [simpl; split; auto; replace (M - 1) with (M - 1 - 0) by lia; apply WFF_nones; lia|].
              split; [|exact W3]. simpl. rewrite fkeys_nones. intros q [<-|[]]. split; auto. lia.
            - simpl. rewrite fkeys_nones. apply Permutation_refl. }
          split; [exact HB|]. split; [discriminate|]. intros _ Ha.
          assert (Ht : t <> TNone) by (intros E; apply HN in E; discriminate).
          destruct (I3 eq_refl Ha Ht) as [J1 J2]. split.
          -- split; [exact J1|]. split; [|exact W3]. intros q Hq. eapply Permutation_in in Hq; [|exact J2].
             destruct Hq as [<-|Hq]; [split; auto; lia | auto].
          -- cbn [fkeys]. rewrite J2. simpl. apply Permutation_refl.
        * split; [|split; [intros _; now rewrite I2|discriminate]]. split; [discriminate|]. intros H. apply I1.
          intros q Hq. apply H. simpl. apply in_app_iff. auto.
      + specialize (IHt false W1). pose proof (proj1 check_tree_false_id t) as Hid.
        destruct (check_tree F M oseq p t false) as [b c']. simpl in Hid. subst c'. destruct IHt as (I1 & _ & _).
        destruct b.
        * specialize (IHf k (S i) r add W3 Hk ltac:(lia) ltac:(lia)).
          destruct (check_forest F M oseq p f r add) as [b2 f']. destruct IHf as (J1 & J2 & J3). split; [|split].
          -- rewrite J1. simpl. split; intros H q Hq.
             ++ apply in_app_iff in Hq as [Hq|Hq]; auto. apply I1 in Hq; auto.
             ++ apply H. apply in_app_iff. auto.
          -- intros Hb. now rewrite J2.
          -- intros Hb Ha. destruct (J3 Hb Ha) as [K1 K2]. split; [split; auto|]. simpl. rewrite K2. symmetry. apply Permutation_middle.
        * split; [|split; [auto|discriminate]]. split; [discriminate|]. intros H. apply I1.
          intros q Hq. apply H. simpl. apply in_app_iff. auto.
  Qed.
End Tree.

Section TreeSort.
  Variables (F : fltmat) (n M : nat) (oseq : list (list nat)).
  Hypothesis HM : 0 < M.
  Hypothesis Hseq : forall k, k < n -> length (nth k oseq []) = M - 1 /\ forall o, In o (nth k oseq []) <-> 1 <= o < M.
  Let tdom := tdom F M.
  Let WF := WF F n M oseq.

  Definition TInv (t : nat) (left0 : list bool) (st : tree * list bool) : Prop :=
    let '(tr, lft) := st in
    WF tr /\ length lft = n /\ NoDup (keys tr) /\
    (forall p, In p (keys tr) -> p < t /\ p < n /\ nth p left0 false = true) /\
    (forall p, p < n -> nth p lft false = nth p left0 false && negb (mem (keys tr) p)) /\
    (forall p q, In p (keys tr) -> In q (keys tr) -> ~ tdom q p) /\
    (forall p, p < t -> nth p left0 false = true -> ~ In p (keys tr) -> exists q, In q (keys tr) /\ tdom q p).

  Lemma mem_false l x : mem l x = false <-> ~ In x l.
  Proof. rewrite <- mem_iff. destruct (mem l x); intuition congruence. Qed.

  Lemma mem_perm l l' x : Permutation l l' -> mem l x = mem l' x.
  Proof.
    intros H. apply eq_true_iff_eq. rewrite !mem_iff. split; intros Hi; [|apply Permutation_sym in H]; eapply Permutation_in; eauto.
  Qed.

  Lemma update_tree_inv t l0 st : t < n -> length l0 = n -> TInv t l0 st -> TInv (S t) l0 (update_tree F M oseq st t).
  Proof.
    intros Ht Hl0. destruct st as [tr lft]. intros (W & L & ND & K & LF & AN & CV). unfold update_tree.
    assert (Htk : ~ In t (keys tr)) by (intros H; apply K in H; lia).
    assert (Hlt : nth t lft false = nth t l0 false).
    { rewrite LF by auto. rewrite (proj2 (mem_false _ _) Htk). now rewrite andb_true_r. }
    rewrite Hlt. destruct (nth t l0 false) eqn:El.
    2: { repeat (split; [solve [auto]|]). split; [intros p Hp; destruct (K p Hp) as (? & ? & ?); repeat split; auto|].
         split; auto. split; auto. intros p Hp Hp0 Hn. destruct (Nat.eq_dec p t) as [->|]; [congruence|]. apply CV; auto; lia. }
    assert (Hadd : forall tr', WF tr' -> Permutation (keys tr') (t :: keys tr) -> free F M t (keys tr) -> TInv (S t) l0 (tr', upd lft t false)).
    { intros tr' W' P' Hfr.
      assert (HIn : forall x, In x (keys tr') <-> x = t \/ In x (keys tr)).
      { intros x. split; intros H; [eapply Permutation_in in H; [|exact P']|eapply Permutation_in; [symmetry; exact P'|]]; simpl in *; intuition. }
      split; auto. split; [now rewrite length_upd|]. split.
      { eapply Permutation_NoDup; [symmetry; exact P'|]. constructor; auto. }
      split; [intros p Hp; apply HIn in Hp as [->|Hp]; [auto|destruct (K p Hp) as (? & ? & ?); auto]|].
      split.
      { intros p Hp. rewrite nth_upd, L. rewrite (proj2 (Nat.ltb_lt t n) Ht), andb_true_r. rewrite (mem_perm _ _ p P'). unfold mem. simpl.
        fold (mem (keys tr) p). destruct (Nat.eqb_spec p t) as [->|]; simpl; [now rewrite andb_false_r|]. now apply LF. }
      split.
      { intros p q Hp Hq [Hlt' Hd]. apply HIn in Hp; apply HIn in Hq. destruct Hp as [->|Hp], Hq as [->|Hq].
        - lia.
        - apply (Hfr q); auto.
        - apply K in Hp. lia.
        - apply (AN p q); auto. split; auto. }
      intros p Hp Hp0 Hn. destruct (Nat.eq_dec p t) as [->|]; [exfalso; apply Hn, HIn; auto|].
      destruct (CV p) as (q & Hq & Hd); auto; [lia|intros H; apply Hn, HIn; auto|]. exists q. split; auto. apply HIn; auto. }
    destruct tr as [|k ch].
    - apply Hadd.
      + split; auto. pose proof (WFF_nones F n M oseq HM t 0 ltac:(lia)) as HW. rewrite Nat.sub_0_r in HW. exact HW.
      + simpl. rewrite fkeys_nones. apply Permutation_refl.
      + intros q [].
    - destruct (check_spec F n M oseq HM Hseq t Ht) as [HC _]. specialize (HC (TNode k ch) true W).
      destruct (check_tree F M oseq t (TNode k ch) true) as [b t']. destruct HC as (C1 & C2 & C3). destruct b.
      + destruct (C3 eq_refl eq_refl ltac:(discriminate)). apply Hadd; auto. now apply C1.
      + rewrite C2 by auto.
        repeat (split; [solve [auto]|]). split; [intros p Hp; destruct (K p Hp) as (? & ? & ?); repeat split; auto|].
        split; auto. split; auto. intros p Hp Hp0 Hn. destruct (Nat.eq_dec p t) as [->|]; [|apply CV; auto; lia].
        (* t is dominated *)
        assert (Hnf : ~ free F M t (keys (TNode k ch))) by (intros H; apply C1 in H; discriminate).
        assert (Hex : forall l, (forall q, In q l -> q < t) -> ~ free F M t l -> exists q, In q l /\ tdom q t).
        { induction l as [|x l IH]; intros Hb Hnfr; [exfalso; apply Hnfr; intros q []|].
          assert (Hdec : le_tail F M x t \/ ~ le_tail F M x t).
          { unfold le_tail.
            assert (G : forall d, (forall o, 1 <= o < d -> fleb (cell F x o) (cell F t o) = true) \/ ~ (forall o, 1 <= o < d -> fleb (cell F x o) (cell F t o) = true)).
            { induction d as [|d [IHd|IHd]]; [left; intros; lia| |right; intros H; apply IHd; intros; apply H; lia].
              destruct (fleb (cell F x d) (cell F t d)) eqn:Ed.
              - left. intros o Ho. destruct (Nat.eq_dec o d) as [->|]; auto. apply IHd; lia.
              - destruct d; [left; intros; lia|]. right. intros H. rewrite H in Ed by lia. discriminate. }
            apply G. }
          destruct Hdec as [Hd|Hd].
          - exists x. split; [simpl; auto|]. split; auto. apply Hb; simpl; auto.
          - destruct IH as (q & Hq & Hqd); [intros; apply Hb; simpl; auto| |exists q; simpl; auto].
            intros Hf. apply Hnfr. intros q [->|Hq]; auto. }
        apply Hex; auto. intros q Hq. now apply K in Hq.
  Qed.

  Lemma tree_sweep l0 : length l0 = n -> TInv n l0 (fold_left (update_tree F M oseq) (seq 0 n) (TNone, l0)).
  Proof.
    intros Hl0. assert (G : forall t, t <= n -> TInv t l0 (fold_left (update_tree F M oseq) (seq 0 t) (TNone, l0))); [|now apply G].
    induction t as [|t IH]; intros Ht.
    - simpl. repeat (split; [solve [simpl; auto; constructor]|]). split; [simpl; tauto|]. split; [intros; now rewrite andb_true_r|].
      split; [simpl; tauto|]. intros; lia.
    - rewrite seq_S, fold_left_app. cbn [fold_left plus]. apply update_tree_inv; auto. apply IH; lia.
  Qed.

  Lemma tree_while_spec fuel : forall lft trees,
    length lft = n -> ppeel n tdom (map keys trees) ->
    (forall p, p < n -> nth p lft false = negb (mem (concat (map keys trees)) p)) ->
    n <= length (concat (map keys trees)) + fuel ->
    exists out, tree_while fuel n F M oseq lft trees = Some out /\ is_peeling n tdom (map keys out).
  Proof.
    induction fuel as [|fuel IH]; intros lft trees Hl HP Hlf Hfu; cbn [tree_while];
      destruct (existsb (fun b => b) lft) eqn:Ex.
    - exfalso. apply (existsb_nth_iff _ _ false) in Ex as (p & Hp & Hb). rewrite Hlf in Hb by lia.
      apply negb_true_iff, mem_false in Hb. apply Hb. destruct HP as (P1 & P2 & _).
      eapply NoDup_full with (n := n); eauto; lia.
    - exists trees. split; auto. apply ppeel_done; auto. lia.
    - pose proof (tree_sweep lft Hl) as HS.
      destruct (fold_left (update_tree F M oseq) (seq 0 n) (TNone, lft)) as [tr lft'].
      destruct HS as (W & L & ND & K & LF & AN & CV). pose proof HP as (P1 & P2 & _).
      assert (Hmem : forall p, p < n -> (nth p lft false = true <-> ~ In p (concat (map keys trees)))).
      { intros p Hp. rewrite Hlf by auto. rewrite negb_true_iff. apply mem_false. }
      assert (Hmin : forall i, In i (keys tr) <-> is_minimal n tdom (concat (map keys trees)) i).
      { apply kernel_minimal; auto.
        - intros i j k _ _ _. now apply tdom_trans.
        - intros i Hi. destruct (K i Hi) as (_ & ? & ?). split; auto. now apply Hmem.
        - intros i Hi Hr Hc. apply CV; auto. now apply Hmem. }
      assert (Hne : keys tr <> []).
      { intros E. apply (existsb_nth_iff _ _ false) in Ex as (p & Hp & Hb). rewrite Hl in Hp.
        destruct (in_dec Nat.eq_dec p (keys tr)) as [Hi|Hi]; [rewrite E in Hi; destruct Hi|].
        destruct (CV p Hp Hb Hi) as (q & Hq & _). rewrite E in Hq. destruct Hq. }
      apply IH; auto.
      + rewrite map_app. apply ppeel_extend; auto.
      + intros p Hp. rewrite LF, Hlf by auto. rewrite map_app, concat_app. simpl. rewrite app_nil_r. unfold mem.
        rewrite existsb_app. now rewrite negb_orb.
      + rewrite map_app, concat_app, app_length. simpl. rewrite app_nil_r. destruct (keys tr); [congruence|simpl in *; lia].
    - exists trees. split; auto. apply ppeel_done; auto.
      destruct HP as (P1 & P2 & _).
      assert (Hall : forall p, p < n -> In p (concat (map keys trees))).
      { intros p Hp. destruct (nth p lft false) eqn:Eb.
        - exfalso. apply not_true_iff_false in Ex. apply Ex. apply (existsb_nth_iff _ _ false). exists p. split; auto; lia.
        - rewrite Hlf in Eb by auto. apply negb_false_iff, mem_iff in Eb. auto. }
      rewrite <- (seq_length n 0) at 1. apply NoDup_incl_length; [apply seq_NoDup|]. intros i Hi. apply in_seq in Hi. apply Hall. lia.
  Qed.
End TreeSort.

(** the objective sequences: row [k] is an ordering of the objectives 1..m-1 *)

Lemma tree_nds_spec m F I oseq : 0 < m -> rect m F -> Permutation I (seq 0 (length F)) -> obj_seq_ok m (length F) oseq ->
  exists fronts, tree_nds I oseq F = Some (map (gather 0 I) fronts) /\
                 is_peeling (length F) (tdom (gather [] F I) m) fronts.
Proof.
  intros Hm Hr HI Ho. unfold tree_nds.
  destruct F as [|r F0] eqn:EF.
  { exists []. simpl. split; auto. apply ppeel_done; [apply ppeel_nil|simpl; lia]. }
  rewrite <- EF in *.
  assert (EM : length (nth 0 F []) = m) by (apply rect_nth; auto; rewrite EF; simpl; lia). rewrite EM.
  destruct (tree_while_spec (gather [] F I) (length F) m oseq Hm) with (fuel := length F) (lft := repeat true (length F)) (trees := @nil tree)
    as (out & E & HP).
  - intros k Hk. specialize (Ho k Hk). split.
    + apply Permutation_length in Ho. now rewrite seq_length in Ho.
    + intros o. split; intros H.
      * eapply Permutation_in in H; [|exact Ho]. apply in_seq in H. lia.
      * eapply Permutation_in; [symmetry; exact Ho|]. apply in_seq. lia.
  - apply repeat_length.
  - apply ppeel_nil.
  - intros p Hp. simpl. rewrite nth_repeat' by auto. reflexivity.
  - simpl. lia.
  - exists (map keys out). rewrite E, map_map. split; auto.
Qed.


Lemma tdom_row_dom m F I : 0 < m -> rect m F -> mat_ok F -> distinct_rows m F -> is_argsort lexlt [] F I ->
  forall p q, p < length F -> q < length F ->
  (tdom (gather [] F I) m p q <-> row_dom F (nth p I 0) (nth q I 0)).
Proof.
  intros Hm Hr Hok Hd HI p q Hp Hq. pose proof HI as [HP Hs]. pose proof (perm_seq_length _ _ HP) as HL.
  assert (Hlt : forall p, p < length F -> nth p I 0 < length F) by (intros; now apply perm_nth_lt).
  assert (Hne : F <> []) by (intros ->; simpl in Hp; lia).
  assert (Hnn : forall i k, i < length F -> k < m -> isnan (cell F i k) = false).
  { intros i k Hi Hk. unfold cell. pose proof (mat_ok_nth F i Hok) as Hv. unfold vec_ok in Hv. rewrite Forall_forall in Hv.
    apply Hv, nth_In. rewrite (rect_nth m); auto. }
  assert (Hcell : forall a o, a < length F -> cell (gather [] F I) a o = cell F (nth a I 0) o).
  { intros a o Ha. unfold cell. now rewrite nth_gather by lia. }
  split.
  - intros [Hpq Hle]. rewrite (row_dom_cells m) by auto.
    assert (H0 : fleb (cell F (nth p I 0) 0) (cell F (nth q I 0) 0) = true).
    { specialize (Hs p q Hpq ltac:(lia)).
      assert (E1 : length (nth (nth q I 0) F []) = m) by (apply rect_nth; auto).
      assert (E2 : length (nth (nth p I 0) F []) = m) by (apply rect_nth; auto).
      pose proof (Hnn (nth p I 0) 0 (Hlt p Hp) Hm) as N1. pose proof (Hnn (nth q I 0) 0 (Hlt q Hq) Hm) as N2.
      unfold cell in *. destruct (nth (nth q I 0) F []) as [|x a], (nth (nth p I 0) F []) as [|y b]; simpl in *; try lia.
      destruct (fltb x y) eqn:Ex; [discriminate|]. now apply nlt_le. }
    assert (Hall : forall k, k < m -> fleb (cell F (nth p I 0) k) (cell F (nth q I 0) k) = true).
    { intros [|k] Hk; auto. specialize (Hle (S k) ltac:(lia)). now rewrite !Hcell in Hle by auto. }
    split; auto. intros Hrev.
    destruct (Hd (nth p I 0) (nth q I 0)) as (k & Hk & Hk2); auto.
    { intros E. apply (perm_nth_inj I (length F)) in E; auto; lia. }
    rewrite (fle_antisym _ _ (Hall k Hk) (Hrev k Hk)) in Hk2. discriminate.
  - intros Hdom. split.
    + destruct (Nat.lt_trichotomy p q) as [H|[->|H]]; auto; exfalso.
      * now apply row_dom_irrefl in Hdom.
      * revert Hdom. apply (lexlt_topological F I); auto.
    + rewrite (row_dom_cells m) in Hdom by auto. destruct Hdom as [H1 _]. intros o Ho. rewrite !Hcell by auto. apply H1; lia.
Qed.

Lemma tree_nds_peeling m F I oseq : 0 < m -> rect m F -> mat_ok F -> distinct_rows m F -> is_argsort lexlt [] F I ->
  obj_seq_ok m (length F) oseq ->
  exists fronts, tree_nds I oseq F = Some fronts /\ is_peeling (length F) (row_dom F) fronts.
Proof.
  intros Hm Hr Hok Hd HI Ho. pose proof HI as [HP _]. destruct (tree_nds_spec m F I oseq) as (out & E & HPe); auto.
  exists (map (gather 0 I) out). split; auto. apply peeling_map; auto.
  eapply is_peeling_ext; [|exact HPe]. intros i j Hi Hj. cbn beta. now apply tdom_row_dom.
Qed.
