(** * Theorems C64: DIRECT tiles the search space *)
From Coq Require Import List Arith Bool ZArith QArith Qpower Lia Lqa.
From Verif Require P_Survival P_Survival4 Flt.
From Verif Require Import ListAux M_Individual M_Survival M_RefDirs2 M_Norm M_Direct S_Norm S_Direct Thm_RefDirs2 Thm_Norm Thm_Norm2.
Import ListNotations.
Local Open Scope Q_scope.

Definition box_of (i : dind) : box := (d_x i, d_xl i, d_xu i).
(** a problem with [m >= 1] variables and proper bounds, as given to the normalisation *)
Definition domain (m : nat) (lo up : list Q) (bs : list bnd) : Prop :=
  (0 < m)%nat /\ length lo = m /\ length up = m /\ (forall j, (j < m)%nat -> nth j lo 0 < nth j up 0) /\ zto_init (map Some lo) (map Some up) = Some bs.

Lemma domain_bs m lo up bs : domain m lo up bs -> length bs = m /\ forall j, (j < m)%nat -> nth j bs (None, None) = (Some (nth j lo 0), Some (nth j up 0)).
Proof.
  intros (Hm & Hl & Hu & Hlt & Hb). assert (HS : forall l j, (j < length l)%nat -> nth j (map (@Some Q) l) None = Some (nth j l 0)).
  { intros l j Hj. rewrite (nth_indep _ None (Some 0)) by (rewrite map_length; auto). apply (map_nth (@Some Q)). }
  destruct (zto_init_spec (map Some lo) (map Some up)) as [_ C]; [rewrite !map_length; lia|]. destruct (C bs Hb) as [L H]. rewrite map_length in L, H.
  split; [lia|]. intros j Hj. specialize (H j ltac:(lia)). rewrite !HS in H by lia. cbn [zto_init1] in H. specialize (Hlt j Hj).
  destruct (Qeq_bool (nth j lo 0) (nth j up 0)) eqn:E; [apply Qeq_bool_iff in E; lra|]. destruct (Qle_bool _ _); [|discriminate]. now injection H.
Qed.
Lemma sides_spec m lo up bs i : domain m lo up bs -> length (d_xl i) = m -> length (d_xu i) = m ->
  length (sides bs i) = m /\ forall j, (j < m)%nat -> nth j (sides bs i) 0 == (nth j (d_xu i) 0 - nth j (d_xl i) 0) / (nth j up 0 - nth j lo 0).
Proof.
  intros HD H1 H2. destruct (domain_bs _ _ _ _ HD) as [L B]. destruct HD as (_ & _ & _ & Hlt & _). unfold sides. split; [rewrite !length_map2; lia|]. intros j Hj.
  rewrite (map2_nth _ _ _ j 0 0 0) by (rewrite ?length_map2; lia). rewrite !(map2_nth zto_forward1 bs _ j 0 (None, None) 0) by lia. rewrite B by auto. cbn [zto_forward1].
  specialize (Hlt j Hj). field. lra.
Qed.

Definition child (b : box) (k : nat) (lo hi ce : Q) (c : box) : Prop :=
  length (centre c) = length (centre b) /\ length (low c) = length (low b) /\ length (high c) = length (high b) /\
  nth k (low c) 0 == lo /\ nth k (high c) 0 == hi /\ nth k (centre c) 0 == ce /\
  forall j, j <> k -> nth j (low c) 0 = nth j (low b) 0 /\ nth j (high c) 0 = nth j (high b) 0 /\ nth j (centre c) 0 = nth j (centre b) 0.
Lemma divide_spec m lo up bs i : domain m lo up bs -> good_box m lo up (box_of i) ->
  exists c l r k, divide bs i = Some (c, l, r) /\ d_x c = d_x i /\ (k < m)%nat /\
    (forall j, (j < m)%nat -> (nth j (d_xu i) 0 - nth j (d_xl i) 0) / (nth j up 0 - nth j lo 0) <= (nth k (d_xu i) 0 - nth k (d_xl i) 0) / (nth k up 0 - nth k lo 0)) /\
    let a := nth k (d_xl i) 0 in let e := nth k (d_xu i) 0 in let t := (e - a) / 3 in
    child (box_of i) k (a + t) (e - t) ((a + e) / 2) (box_of c) /\ child (box_of i) k a (a + t) (a + t / 2) (box_of l) /\ child (box_of i) k (e - t) e (e - t / 2) (box_of r).
Proof.
  intros HD ((L1 & B1) & (L2 & B2) & L3 & B3). cbn [box_of centre low high fst snd] in *.
  destruct (sides_spec _ _ _ _ i HD L1 L2) as [Ls Hs]. assert (Hm : (0 < m)%nat) by apply HD.
  destruct (argmaxQ_spec (sides bs i)) as (k & Ek & Hk & HM); [destruct (sides bs i); [simpl in Ls; lia|discriminate]|].
  unfold divide. rewrite Ek. do 3 eexists. exists k. split; [reflexivity|]. split; [reflexivity|]. split; [lia|]. split.
  - intros j Hj. rewrite <- !Hs by lia. rewrite Forall_forall in HM. apply HM, nth_In. lia.
  - cbv zeta. rewrite Ls in Hk. destruct (B3 k Hk) as [Hlt Hc].
    assert (Hdiv : (nth k (d_xu i) 0 - nth k (d_xl i) 0) / 6 == (nth k (d_xu i) 0 - nth k (d_xl i) 0) / 3 / 2) by field.
    split; [|split]; unfold child; cbn [box_of update_bounds centre low high fst snd d_x d_xl d_xu]; rewrite ?length_upd;
      (do 3 (split; [reflexivity|])); rewrite ?nth_upd_eq by lia; (split; [|split; [|split]]);
      try (intros j Hj; rewrite !nth_upd_neq by auto; auto); try (rewrite ?Hc; field); reflexivity.
Qed.

Lemma child_good m lo up b k l h ce c : good_box m lo up b -> (k < m)%nat -> child b k l h ce c ->
  nth k (low b) 0 <= l -> l < h -> h <= nth k (high b) 0 -> ce == (l + h) / 2 -> good_box m lo up c.
Proof.
  intros ((L1 & B1) & (L2 & B2) & L3 & B3) Hk (C1 & C2 & C3 & Cl & Ch & Cc & Co) H1 H2 H3 H4. unfold good_box, within.
  assert (HJ : forall j, (j < m)%nat -> j <> k \/ j = k) by (intros; lia).
  split; [|split; [|split]]; try lia.
  - split; [lia|]. intros j Hj. destruct (HJ j Hj) as [Hn| ->]; [destruct (Co j Hn) as (e1 & e2 & e3); rewrite ?e1, ?e2, ?e3; auto|]. rewrite Cl. specialize (B1 k Hk). specialize (B2 k Hk). lra.
  - split; [lia|]. intros j Hj. destruct (HJ j Hj) as [Hn| ->]; [destruct (Co j Hn) as (e1 & e2 & e3); rewrite ?e1, ?e2, ?e3; auto|]. rewrite Ch. specialize (B1 k Hk). specialize (B2 k Hk). lra.
  - intros j Hj. destruct (HJ j Hj) as [Hn| ->]; [destruct (Co j Hn) as (e1 & e2 & e3); rewrite ?e1, ?e2, ?e3; auto|]. rewrite Cl, Ch, Cc. split; auto.
Qed.
Definition apart (m : nat) (a b : box) : Prop := exists j, (j < m)%nat /\ (nth j (high a) 0 <= nth j (low b) 0 \/ nth j (high b) 0 <= nth j (low a) 0).
Lemma apart_sym m a b : apart m a b -> apart m b a.
Proof. intros (j & Hj & H). exists j. tauto. Qed.
Lemma apart_no_overlap m a b : apart m a b -> no_overlap m a b.
Proof. intros (j & Hj & H) p [H1 H2]. specialize (H1 j Hj). specialize (H2 j Hj). lra. Qed.
Lemma child_sub m b k l h ce c : (k < m)%nat -> child b k l h ce c -> nth k (low b) 0 <= l -> h <= nth k (high b) 0 ->
  forall x, apart m b x -> apart m c x.
Proof.
  intros Hk (C1 & C2 & C3 & Cl & Ch & Cc & Co) H1 H2 x (j & Hj & H). exists j. split; auto. destruct (Nat.eq_dec j k) as [->|Hn]; [rewrite Cl, Ch; lra|].
  destruct (Co j Hn) as (-> & -> & _). auto.
Qed.
Lemma child_cover m b k l h ce c p : (k < m)%nat -> child b k l h ce c -> within m (low b) (high b) p -> l <= nth k p 0 <= h -> within m (low c) (high c) p.
Proof.
  intros Hk (C1 & C2 & C3 & Cl & Ch & Cc & Co) [Lp Hp] H. split; auto. intros j Hj. destruct (Nat.eq_dec j k) as [->|Hn]; [rewrite Cl, Ch; auto|].
  destruct (Co j Hn) as (-> & -> & _). auto.
Qed.

(** invariant: boxes are good; and (unless members have been dropped) they tile the domain *)
Definition goods (m : nat) (lo up : list Q) (L : list box) : Prop := Forall (good_box m lo up) L /\ forall i j d, (i < j < length L)%nat -> apart m (nth i L d) (nth j L d).
Definition covers (m : nat) (lo up : list Q) (L : list box) : Prop := forall p, within m lo up p -> exists b, In b L /\ within m (low b) (high b) p.

Lemma upd_In {A} (l : list A) k v x : In x (upd l k v) -> x = v \/ In x l.
Proof.
  intros H. apply (In_nth _ _ v) in H as (n & Hn & E). rewrite length_upd in Hn. destruct (Nat.eq_dec n k) as [->|Hne]; [rewrite nth_upd_eq in E by auto; auto|].
  rewrite nth_upd_neq in E by auto. right. rewrite <- E. now apply nth_In.
Qed.
Lemma In_upd {A} (l : list A) k v x d : (k < length l)%nat -> In x l -> x = nth k l d \/ In x (upd l k v).
Proof.
  intros Hk H. apply (In_nth _ _ d) in H as (n & Hn & E). destruct (Nat.eq_dec n k) as [->|Hne]; [auto|]. right. rewrite <- E.
  rewrite <- (nth_upd_neq l k n v d) by auto. apply nth_In. now rewrite length_upd.
Qed.
Lemma goods_step m lo up L i c l r : goods m lo up L -> (i < length L)%nat ->
  let b := nth i L ([], [], []) in
  Forall (good_box m lo up) [c; l; r] -> (forall x, apart m b x -> apart m c x /\ apart m l x /\ apart m r x) ->
  apart m c l -> apart m c r -> apart m l r -> goods m lo up (upd L i c ++ [l; r]).
Proof.
  intros [HG HA] Hi b HF HS A1 A2 A3. inversion HF as [|? ? G1 HF']; subst. inversion HF' as [|? ? G2 HF'']; subst. inversion HF'' as [|? ? G3 _]; subst. split.
  - apply Forall_app. split; [|auto]. apply Forall_forall. intros x Hx. apply upd_In in Hx as [->|Hx]; auto. rewrite Forall_forall in HG. auto.
  - rewrite app_length, length_upd. cbn [length]. intros x y d [Hx Hy].
    assert (HN : forall n, (n < length L)%nat -> n <> i -> apart m c (nth n L d) /\ apart m l (nth n L d) /\ apart m r (nth n L d)).
    { intros n Hn Hne. apply HS. unfold b. rewrite (nth_indep _ ([], [], []) d) by auto. destruct (Nat.lt_ge_cases n i); [apply apart_sym|]; apply HA; lia. }
    assert (E1 : forall n, (n < length L)%nat -> n <> i -> nth n (upd L i c ++ [l; r]) d = nth n L d) by (intros n Hn Hne; rewrite app_nth1 by (rewrite length_upd; auto); now rewrite nth_upd_neq).
    assert (E2 : nth i (upd L i c ++ [l; r]) d = c) by (rewrite app_nth1 by (rewrite length_upd; auto); now rewrite nth_upd_eq).
    assert (E3 : nth (length L) (upd L i c ++ [l; r]) d = l) by (rewrite app_nth2 by (rewrite length_upd; lia); rewrite length_upd, Nat.sub_diag; auto).
    assert (E4 : nth (S (length L)) (upd L i c ++ [l; r]) d = r) by (rewrite app_nth2 by (rewrite length_upd; lia); rewrite length_upd; replace (S (length L) - length L)%nat with 1%nat by lia; auto).
    destruct (Nat.lt_ge_cases x (length L)) as [Hxl|Hxl].
    + destruct (Nat.eq_dec x i) as [->|Hxi].
      * rewrite E2. destruct (Nat.lt_ge_cases y (length L)) as [Hyl|Hyl]; [rewrite E1 by lia; apply HN; lia|].
        destruct (Nat.eq_dec y (length L)) as [->|]; [rewrite E3; auto|]. replace y with (S (length L)) by lia. rewrite E4; auto.
      * rewrite E1 by auto. apply apart_sym. destruct (Nat.lt_ge_cases y (length L)) as [Hyl|Hyl].
        -- destruct (Nat.eq_dec y i) as [->|]; [rewrite E2; apply HN; lia|]. rewrite E1 by auto. apply apart_sym, HA; lia.
        -- destruct (Nat.eq_dec y (length L)) as [->|]; [rewrite E3; apply HN; auto|]. replace y with (S (length L)) by lia. rewrite E4; apply HN; auto.
    + replace x with (length L) by lia. replace y with (S (length L)) by lia. rewrite E3, E4. auto.
Qed.

Lemma map_upd {A B} (f : A -> B) l k v : map f (upd l k v) = upd (map f l) k (f v).
Proof. revert k; induction l as [|x l IH]; intros [|k]; cbn; auto. now rewrite IH. Qed.
Lemma upd_app {A} (l l2 : list A) k v : (k < length l)%nat -> upd (l ++ l2) k v = upd l k v ++ l2.
Proof. revert k; induction l as [|x l IH]; intros [|k] Hk; cbn in *; try lia; auto. rewrite IH by lia. auto. Qed.

(** the shape invariant *)
Lemma cube_child m lo up b k l h ce c : (0 < m)%nat -> (k < m)%nat -> cube_like m lo up b -> child b k l h ce c -> (h - l) * 3 == nth k (high b) 0 - nth k (low b) 0 ->
  (forall j, (j < m)%nat -> nth j lo 0 < nth j up 0) ->
  (forall j, (j < m)%nat -> (nth j (high b) 0 - nth j (low b) 0) / (nth j up 0 - nth j lo 0) <= (nth k (high b) 0 - nth k (low b) 0) / (nth k up 0 - nth k lo 0)) ->
  cube_like m lo up c.
Proof.
  intros Hm Hk (e & He & Hs) (C1 & C2 & C3 & Cl & Ch & Cc & Co) H3 Hlt HM.
  assert (Hp : forall n, 0 < 3 ^ Z.of_nat n) by (intros n; apply Qpower_0_lt; lra).
  assert (Hpow : forall n, 3 ^ Z.of_nat (S n) == 3 * 3 ^ Z.of_nat n). { intros n. rewrite Nat2Z.inj_succ, <- Z.add_1_l, Qpower_plus by (intros E; discriminate). reflexivity. }
  assert (Hmono : forall a b, (a < b)%nat -> 3 ^ Z.of_nat a < 3 ^ Z.of_nat b).
  { intros a b'. induction 1; rewrite Hpow; [pose proof (Hp a)|pose proof (Hp m0)]; lra. }
  assert (Hside : forall j, (j < m)%nat -> (nth j (high b) 0 - nth j (low b) 0) / (nth j up 0 - nth j lo 0) == / 3 ^ Z.of_nat (e j)).
  { intros j Hj. rewrite <- Hs by auto. specialize (Hlt j Hj). pose proof (Hp (e j)). specialize (Hs j Hj).
    set (w := nth j (high b) 0 - nth j (low b) 0) in *. assert (~ w == 0) by (intros Z; rewrite Z in Hs; lra). field. split; lra. }
  assert (Hmin : forall j, (j < m)%nat -> (e k <= e j)%nat).
  { intros j Hj. specialize (HM j Hj). rewrite !Hside in HM by auto. destruct (Nat.le_gt_cases (e k) (e j)) as [|Hgt]; auto. exfalso. apply Hmono in Hgt.
    pose proof (Hp (e k)). pose proof (Hp (e j)). assert (/ 3 ^ Z.of_nat (e k) < / 3 ^ Z.of_nat (e j)); [|lra]. rewrite <- Qinv_lt_contravar; auto. }
  exists (fun j => if (j =? k)%nat then S (e k) else e j). split.
  - intros i j Hi Hj. pose proof (Hmin i Hi); pose proof (Hmin j Hj); pose proof (He i j Hi Hj); destruct (Nat.eqb_spec i k), (Nat.eqb_spec j k); subst; lia.
  - intros j Hj. destruct (Nat.eqb_spec j k) as [->|Hn].
    + rewrite Cl, Ch, Hpow. rewrite <- (Hs k Hk), <- H3. ring.
    + destruct (Co j Hn) as (-> & -> & _). auto.
Qed.

Section Run.
  Context (m : nat) (lo up : list Q) (bs : list bnd) (HD : domain m lo up bs).
  Let boxes (p : list dind) := map box_of p.
  Lemma infill_spec sel : forall pop inf, goods m lo up (boxes (pop ++ inf)) -> Forall (cube_like m lo up) (boxes (pop ++ inf)) -> (forall i, In i sel -> (i < length pop)%nat) ->
    exists pop' inf', direct_infill bs pop inf sel = Some (pop', inf') /\ length pop' = length pop /\ length inf' = (length inf + 2 * length sel)%nat /\
      goods m lo up (boxes (pop' ++ inf')) /\ Forall (cube_like m lo up) (boxes (pop' ++ inf')) /\ (covers m lo up (boxes (pop ++ inf)) -> covers m lo up (boxes (pop' ++ inf'))) /\
      map d_x pop' = map d_x pop /\ exists news, inf' = inf ++ news.
  Proof.
    induction sel as [|i sel IH]; intros pop inf HG HC Hsel; cbn [direct_infill].
    - exists pop, inf. cbn [length]. split; [reflexivity|]. split; [lia|]. split; [lia|]. do 4 (split; auto). exists []. now rewrite app_nil_r.
    - assert (Hi : (i < length pop)%nat) by (apply Hsel; simpl; auto). set (b := nth i pop d0).
      assert (Eb : nth i (boxes (pop ++ inf)) ([], [], []) = box_of b).
      { unfold boxes. change ([], [], [] : list Q) with (box_of d0). rewrite map_nth, app_nth1 by auto. reflexivity. }
      assert (Hil : (i < length (boxes (pop ++ inf)))%nat) by (unfold boxes; rewrite map_length, app_length; lia).
      assert (Gb : good_box m lo up (box_of b)) by (rewrite <- Eb; destruct HG as [HG _]; rewrite Forall_forall in HG; apply HG, nth_In; auto).
      assert (Cb : cube_like m lo up (box_of b)) by (rewrite <- Eb; rewrite Forall_forall in HC; apply HC, nth_In; auto).
      destruct (divide_spec m lo up bs b HD Gb) as (c & l & r & k & -> & Exc & Hk & HM & Hc & Hl & Hr).
      pose proof Gb as (_ & _ & _ & B3). destruct (B3 k Hk) as [Hlt Hce]. cbn [box_of centre low high fst snd] in Hlt, Hce.
      set (a := nth k (d_xl b) 0) in *. set (e := nth k (d_xu b) 0) in *. set (t := (e - a) / 3) in *.
      assert (Ht : 3 * t == e - a) by (unfold t; field).
      assert (E' : boxes (upd pop i c ++ (inf ++ [l; r])) = upd (boxes (pop ++ inf)) i (box_of c) ++ [box_of l; box_of r]).
      { unfold boxes. rewrite app_assoc, map_app, <- (upd_app pop inf) by auto. now rewrite map_upd. }
      destruct HD as (Hm & _ & _ & Hdlt & _).
      assert (GG : Forall (good_box m lo up) [box_of c; box_of l; box_of r]).
      { apply Forall_cons; [|apply Forall_cons; [|apply Forall_cons; [|apply Forall_nil]]]; (eapply (child_good m lo up (box_of b) k); [exact Gb|exact Hk|eassumption|..]); cbn [box_of low high fst snd]; fold a e; try lra; try (field; fail). }
      assert (G1 : goods m lo up (boxes (upd pop i c ++ (inf ++ [l; r])))).
      { rewrite E'. apply goods_step; auto; rewrite ?Eb.
        - intros x Hx. split; [|split]; (eapply child_sub; [|eassumption| | |exact Hx]); auto; cbn [box_of low high fst snd]; fold a e; lra.
        - destruct Hc as (_ & _ & _ & c1 & c2 & _), Hl as (_ & _ & _ & l1 & l2 & _). exists k. split; auto. right. rewrite c1, l2. lra.
        - destruct Hc as (_ & _ & _ & c1 & c2 & _), Hr as (_ & _ & _ & l1 & l2 & _). exists k. split; auto. left. rewrite c2, l1. lra.
        - destruct Hr as (_ & _ & _ & c1 & c2 & _), Hl as (_ & _ & _ & l1 & l2 & _). exists k. split; auto. left. rewrite c1, l2. lra. }
      assert (C1 : Forall (cube_like m lo up) (boxes (upd pop i c ++ (inf ++ [l; r])))).
      { rewrite E'. apply Forall_app. split.
        - apply Forall_forall. intros x Hx. apply upd_In in Hx as [->|Hx]; [|rewrite Forall_forall in HC; auto]. (eapply (cube_child m lo up (box_of b) k); [exact Hm|exact Hk|exact Cb|eassumption| |exact Hdlt|exact HM]). cbn [box_of low high fst snd]. fold a e. lra.
        - apply Forall_cons; [|apply Forall_cons; [|apply Forall_nil]]; (eapply (cube_child m lo up (box_of b) k); [exact Hm|exact Hk|exact Cb|eassumption| |exact Hdlt|exact HM]); cbn [box_of low high fst snd]; fold a e; lra. }
      destruct (IH (upd pop i c) (inf ++ [l; r]) G1 C1) as (pop' & inf' & -> & L1 & L2 & G2 & C2 & V2 & X2 & news & Hn); [intros j Hj; rewrite length_upd; apply Hsel; simpl; auto|].
      exists pop', inf'. split; [reflexivity|]. rewrite length_upd in L1. rewrite app_length in L2. cbn [length] in *. split; [lia|]. split; [lia|]. do 2 (split; [assumption|]). split; [|split].
      + intros HV. apply V2. rewrite E'. intros p Hp. destruct (HV p Hp) as (x & Hx & Wx). destruct (In_upd _ i (box_of c) x ([], [], []) Hil Hx) as [->|Hx'].
        * rewrite Eb in Wx. pose proof Wx as [_ Wk]. specialize (Wk k Hk). cbn [box_of low high fst snd] in Wk. fold a e in Wk.
          destruct (Qlt_le_dec (nth k p 0) (a + t)) as [H1|H1]; [|destruct (Qlt_le_dec (e - t) (nth k p 0)) as [H2|H2]].
          -- exists (box_of l). split; [apply in_app_iff; simpl; auto|]. (eapply child_cover; [exact Hk|eassumption|exact Wx|]). lra.
          -- exists (box_of r). split; [apply in_app_iff; simpl; auto|]. (eapply child_cover; [exact Hk|eassumption|exact Wx|]). lra.
          -- exists (box_of c). split; [apply in_app_iff; left|(eapply child_cover; [exact Hk|eassumption|exact Wx|]); lra].
             assert (En : nth i (upd (boxes (pop ++ inf)) i (box_of c)) (box_of c) = box_of c) by (apply nth_upd_eq; auto). rewrite <- En at 1. apply nth_In. rewrite length_upd; auto.
        * exists x. split; auto. apply in_app_iff; auto.
      + rewrite X2, map_upd. replace (d_x c) with (nth i (map d_x pop) (d_x d0)).
        * apply nth_ext with (d := []) (d' := []); [now rewrite length_upd|]. intros n Hn'. rewrite length_upd in Hn'. destruct (Nat.eq_dec n i) as [->|]; [rewrite nth_upd_eq by auto; apply nth_indep; auto|now rewrite nth_upd_neq].
        * rewrite map_nth. fold b. auto.
      + exists ([l; r] ++ news). rewrite Hn. now rewrite app_assoc.
  Qed.
End Run.

(** the sorters return positions of the points they are given (np.argsort: each position at most once) *)
Definition sorters_ok (c : dconf) : Prop :=
  (forall obj i, In i (c_front c obj) -> (i < length obj)%nat) /\
  (forall obj, NoDup (c_rank_order c obj) /\ forall i, In i (c_rank_order c obj) -> (i < length obj)%nat) /\
  (forall pop n i, In i (c_crowding c pop n) -> (i < length pop)%nat).

(** the archives a run can reach, with any evaluation results; [keep]: the archive is never truncated *)
Inductive reached (c : dconf) (bs : list bnd) (lo up : list Q) (n_obj : nat) (keep : bool) : list dind -> Prop :=
| r_init : forall eval, reached c bs lo up n_obj keep (evaluated eval [direct_setup bs lo up])
| r_iter : forall pop eval pop', reached c bs lo up n_obj keep pop -> (keep = true -> (length pop <= c_max_archive c)%nat) ->
    direct_iter c bs n_obj pop eval = Some pop' -> reached c bs lo up n_obj keep pop'.

Lemma evaluated_boxes eval l : map box_of (evaluated eval l) = map box_of l.
Proof. unfold evaluated. rewrite map_map. apply map_ext. reflexivity. Qed.
Lemma direct_obj_length c bs n_obj pop obj : direct_obj c bs n_obj pop = Some obj -> length obj = length pop.
Proof.
  unfold direct_obj, normalize. destruct (zto_init _ _); [|discriminate]. intros H. injection H as <-. unfold zto_forward. rewrite length_map2, !map_length. lia.
Qed.
Lemma gather_boxes pop J : map box_of (gather d0 pop J) = gather ([], [], []) (map box_of pop) J.
Proof. unfold gather. rewrite map_map. apply map_ext. intros i. change ([], [], [] : list Q) with (box_of d0). now rewrite map_nth. Qed.
Lemma goods_gather m lo up L J : goods m lo up L -> NoDup J -> (forall i, In i J -> (i < length L)%nat) -> goods m lo up (gather ([], [], []) L J).
Proof.
  intros [HG HA] HN HJ. unfold gather. split.
  - apply Forall_forall. intros x Hx. apply in_map_iff in Hx as (i & <- & Hi). rewrite Forall_forall in HG. apply HG, nth_In. auto.
  - rewrite map_length. intros i j d [Hi Hj].
    assert (E : forall n, (n < length J)%nat -> nth n (map (fun i => nth i L ([], [], [])) J) d = nth (nth n J 0%nat) L ([], [], [])).
    { intros n Hn. rewrite (nth_indep _ d ((fun i => nth i L ([], [], [])) 0%nat)) by (rewrite map_length; auto). apply (map_nth (fun i => nth i L ([], [], []))). }
    rewrite !E by lia. assert (Hne : nth i J 0%nat <> nth j J 0%nat). { intros E2. apply (NoDup_nth J 0%nat) in E2; auto; lia. }
    assert (nth i J 0 < length L)%nat by (apply HJ, nth_In; lia). assert (nth j J 0 < length L)%nat by (apply HJ, nth_In; lia).
    destruct (Nat.lt_ge_cases (nth i J 0%nat) (nth j J 0%nat)); [|apply apart_sym]; apply HA; lia.
Qed.

Lemma setup_box m lo up bs eval : domain m lo up bs -> exists x, map box_of (evaluated eval [direct_setup bs lo up]) = [(x, lo, up)] /\ length x = m /\
  forall j, (j < m)%nat -> nth j x 0 == (nth j lo 0 + nth j up 0) / 2.
Proof.
  intros HD. rewrite evaluated_boxes. cbn [map box_of direct_setup d_x d_xl d_xu]. eexists. split; [reflexivity|]. destruct (domain_bs _ _ _ _ HD) as [L B].
  destruct HD as (Hm & Hl & Hu & Hlt & Hb). unfold direct_setup, zto_backward; cbn [d_x map nth]. split; [rewrite length_map2, map_length; lia|]. intros j Hj.
  rewrite (map2_nth _ _ _ j 0 ((None, None) : bnd) 0) by (rewrite ?map_length; lia). rewrite B by auto. cbn [store andb zto_backward1].
  rewrite (nth_indep (map (fun _ : Q => 1 # 2) lo) 0 ((fun _ => 1 # 2) 0)) by (rewrite map_length; lia). rewrite (map_nth (fun _ : Q => 1 # 2) lo 0). field.
Qed.

Lemma reached_inv c m lo up bs n_obj keep pop : domain m lo up bs -> sorters_ok c -> reached c bs lo up n_obj keep pop ->
  goods m lo up (map box_of pop) /\ Forall (cube_like m lo up) (map box_of pop) /\ (keep = true -> covers m lo up (map box_of pop)).
Proof.
  intros HD (S1 & S2 & S3) H. induction H as [eval|pop eval pop' Hr IH Hk Hit].
  - destruct (setup_box m lo up bs eval HD) as (x & -> & Lx & Hx). pose proof HD as (Hm & Hl & Hu & Hlt & _).
    assert (W : within m lo up lo /\ within m lo up up). { unfold within. split; split; auto; intros j Hj; specialize (Hlt j Hj); lra. } destruct W as [W1 W2]. split; [split|split].
    + apply Forall_cons; [|apply Forall_nil]. unfold good_box. cbn [centre low high fst snd]. do 3 (split; [assumption|]). intros j Hj. split; auto.
    + cbn [length]. intros; lia.
    + apply Forall_cons; [|apply Forall_nil]. exists (fun _ => 0%nat). split; [intros; lia|]. intros j Hj. cbn [low high fst snd]. change (3 ^ Z.of_nat 0) with 1. ring.
    + intros _ p Hp. exists (x, lo, up). split; [simpl; auto|]. exact Hp.
  - destruct IH as (HG & HC & HV). unfold direct_iter in Hit. destruct (potential_optimal c bs n_obj pop) as [[pop1 sel]|] eqn:EP; [|discriminate].
    assert (P1 : goods m lo up (map box_of pop1) /\ Forall (cube_like m lo up) (map box_of pop1) /\ (keep = true -> covers m lo up (map box_of pop1)) /\ forall i, In i sel -> (i < length pop1)%nat).
    { unfold potential_optimal in EP. destruct (Nat.eqb_spec (length pop) 1) as [E1|E1].
      - injection EP as <- <-. do 3 (split; [assumption|]). intros i [<-|[]]. lia.
      - destruct (direct_obj c bs n_obj pop) as [obj|] eqn:EO; [|discriminate]. apply direct_obj_length in EO.
        destruct (Nat.ltb_spec (c_max_archive c) (length pop)) as [HA|HA].
        + set (J := firstn (c_truncated c) (c_rank_order c obj)) in *. destruct (S2 obj) as [N1 N2].
          assert (NJ : NoDup J) by (unfold J; now apply P_Survival.NoDup_firstn).
          assert (HJ : forall i, In i J -> (i < length pop)%nat). { intros i Hi. rewrite <- EO. apply N2. rewrite <- (firstn_skipn (c_truncated c) (c_rank_order c obj)). apply in_app_iff. auto. }
          assert (HP : pop1 = gather d0 pop J /\ forall i, In i sel -> (i < length pop1)%nat).
          { assert (LL : length (gather [] obj J) = length (gather d0 pop J)) by (unfold gather; now rewrite !map_length).
            destruct (length (c_front c (gather [] obj J)) =? 1)%nat; [|destruct (_ <? _)%nat]; injection EP as <- <-; (split; [reflexivity|]); intros i Hi; [rewrite <- LL| |rewrite <- LL]; eauto. }
          destruct HP as [-> HP]. rewrite gather_boxes. split; [|split; [|split]]; auto.
          * apply goods_gather; auto. rewrite map_length. auto.
          * apply Forall_forall. intros x Hx. unfold gather in Hx. apply in_map_iff in Hx as (i & <- & Hi). rewrite Forall_forall in HC. apply HC, nth_In. rewrite map_length. auto.
          * intros Hkeep. specialize (Hk Hkeep). lia.
        + assert (HP : pop1 = pop /\ forall i, In i sel -> (i < length pop1)%nat).
          { destruct (length (c_front c obj) =? 1)%nat; [|destruct (_ <? _)%nat]; injection EP as <- <-; (split; [reflexivity|]); intros i Hi; [rewrite <- EO| |rewrite <- EO]; eauto. }
          destruct HP as [-> HP]. auto. }
    destruct P1 as (G1 & C1 & V1 & Hsel). destruct (infill_spec m lo up bs HD sel pop1 []) as (pop2 & inf & Ei & L1 & L2 & G2 & C2 & V2 & _); rewrite ?app_nil_r; auto.
    rewrite Ei in Hit. injection Hit as <-.
    assert (EB : map box_of (pop2 ++ evaluated eval inf) = map box_of (pop2 ++ inf)) by (rewrite !map_app, evaluated_boxes; auto). rewrite EB.
    split; [auto|]. split; [auto|]. intros Hkeep. apply V2. rewrite app_nil_r. auto.
Qed.

(** C64: as long as the archive is not truncated, its boxes tile the search space (they cover it and do not overlap), each evaluated point is
    the centre of its box - whatever the evaluations are, whichever members are selected, after any number of iterations *)
Theorem C64_tiles : forall c m lo up bs n_obj pop, domain m lo up bs -> sorters_ok c -> reached c bs lo up n_obj true pop -> tiles m lo up (map box_of pop).
Proof.
  intros c m lo up bs n_obj pop HD HS HR. destruct (reached_inv _ _ _ _ _ _ _ _ HD HS HR) as ([G A] & _ & V). split; [auto|]. split; [now apply V|].
  intros i j d H. apply apart_no_overlap; auto.
Qed.
Print Assumptions C64_tiles.
(** C64: with or without truncation, boxes stay inside the search space without overlapping, every point is the centre of its box (in
    particular within the bounds), no point is evaluated twice *)
Theorem C64_points : forall c m lo up bs n_obj keep pop, domain m lo up bs -> sorters_ok c -> reached c bs lo up n_obj keep pop ->
  Forall (good_box m lo up) (map box_of pop) /\ (forall i, In i pop -> within m lo up (d_x i)) /\
  (forall i j, (i < j < length pop)%nat -> no_overlap m (box_of (nth i pop d0)) (box_of (nth j pop d0)) /\ exists k, (k < m)%nat /\ ~ nth k (d_x (nth i pop d0)) 0 == nth k (d_x (nth j pop d0)) 0).
Proof.
  intros c m lo up bs n_obj keep pop HD HS HR. destruct (reached_inv _ _ _ _ _ _ _ _ HD HS HR) as ([G A] & _ & _). split; [auto|]. rewrite Forall_forall in G. split.
  - intros i Hi. apply (in_map box_of) in Hi. destruct (G _ Hi) as ((L1 & B1) & (L2 & B2) & L3 & B3). cbn [box_of centre low high fst snd] in *. split; auto. intros j Hj.
    specialize (B1 j Hj). specialize (B2 j Hj). destruct (B3 j Hj) as [B4 ->].
    assert ((nth j (d_xl i) 0 + nth j (d_xu i) 0) / 2 * 2 == nth j (d_xl i) 0 + nth j (d_xu i) 0) by field. lra.
  - intros i j Hij. specialize (A i j (box_of d0)). rewrite map_length in A. specialize (A Hij). rewrite !map_nth in A. split; [now apply apart_no_overlap|].
    assert (HG : forall n, (n < length pop)%nat -> good_box m lo up (box_of (nth n pop d0))) by (intros n Hn; apply G, in_map, nth_In; auto).
    destruct (HG i ltac:(lia)) as (_ & _ & _ & Ci). destruct (HG j ltac:(lia)) as (_ & _ & _ & Cj). destruct A as (k & Hk & Ha). exists k. split; auto. intros E.
    destruct (Ci k Hk) as [I1 I2]. destruct (Cj k Hk) as [J1 J2]. cbn [box_of centre low high fst snd] in *. rewrite E in I2. rewrite I2 in J2.
    set (a := nth k (d_xl (nth i pop d0)) 0) in *. set (b := nth k (d_xu (nth i pop d0)) 0) in *. set (a' := nth k (d_xl (nth j pop d0)) 0) in *. set (b' := nth k (d_xu (nth j pop d0)) 0) in *.
    assert (F1 : (a + b) / 2 * 2 == a + b) by field. assert (F2 : (a' + b') / 2 * 2 == a' + b') by field. rewrite J2 in F1. lra.
Qed.
Print Assumptions C64_points.
(** C64: the sides of every box are 3^-k of the domain's, with exponents that differ by at most one: the longest side is the one divided *)
Theorem C64_shape : forall c m lo up bs n_obj keep pop, domain m lo up bs -> sorters_ok c -> reached c bs lo up n_obj keep pop -> forall i, In i pop -> cube_like m lo up (box_of i).
Proof.
  intros c m lo up bs n_obj keep pop HD HS HR i Hi. destruct (reached_inv _ _ _ _ _ _ _ _ HD HS HR) as (_ & C & _). rewrite Forall_forall in C. apply C, in_map; auto.
Qed.
Print Assumptions C64_shape.

(** ** which members are divided *)
(** half the mean normalised side length of a member's box, and its penalised normalised objectives *)
Definition size_of (m : nat) (lo up : list Q) (i : dind) : Q :=
  qsum (map (fun j => (nth j (d_xu i) 0 - nth j (d_xl i) 0) / (nth j up 0 - nth j lo 0)) (seq 0 m)) / (2 * inject_Z (Z.of_nat m)).
Lemma qsum_half l m' : ~ m' == 0 -> qsum (map (fun s => s / 2) l) / m' == qsum l / (2 * m').
Proof.
  intros Hm. assert (H : qsum (map (fun s => s / 2) l) == qsum l / 2). { induction l as [|x l IH]; cbn [map]; [reflexivity|]. unfold qsum in *. cbn [fold_right map]. rewrite IH. field. }
  rewrite H. field. auto.
Qed.
Lemma qsum_ext a : forall b, length a = length b -> (forall j, (j < length a)%nat -> nth j a 0 == nth j b 0) -> qsum a == qsum b.
Proof.
  induction a as [|x a IH]; intros [|y b] HL H; try discriminate; [reflexivity|]. unfold qsum in *. cbn [fold_right]. rewrite (H 0%nat ltac:(simpl; lia)).
  rewrite (IH b); [reflexivity|simpl in HL; lia|]. intros j Hj. apply (H (S j)). simpl. lia.
Qed.
Lemma obj_spec c bs m lo up n_obj pop : domain m lo up bs -> table n_obj (map d_f pop) -> Forall (good_box m lo up) (map box_of pop) ->
  exists obj nF, direct_obj c bs n_obj pop = Some obj /\ normalize false n_obj (map d_f pop) None None = Some nF /\ length obj = length pop /\
    forall i, (i < length pop)%nat -> length (nth i obj []) = S n_obj /\ nth 0 (nth i obj []) 0 == - size_of m lo up (nth i pop d0) /\
      forall j, (j < n_obj)%nat -> nth (S j) (nth i obj []) 0 == entry nF i j + c_penalty c * d_cv (nth i pop d0).
Proof.
  intros HD HT HG. destruct (C62_estimated n_obj (map d_f pop) HT) as (nF & EN & LN & _). unfold direct_obj. rewrite EN. do 2 eexists. split; [reflexivity|]. split; [reflexivity|].
  rewrite map_length in LN. split; [rewrite length_map2; lia|]. intros i Hi.
  assert (Lr : length (nth i nF []) = n_obj).
  { unfold normalize in EN. destruct (zto_init _ _) as [b|] eqn:EB; [|discriminate]. injection EN as <-. unfold zto_forward. destruct (zto_init_spec (map Some (col_min n_obj (map d_f pop))) (map Some (col_max n_obj (map d_f pop)))) as [_ C]; [rewrite !map_length, col_min_length, col_max_length; auto|].
    destruct (C b EB) as [Lb _]. rewrite map_length, col_min_length in Lb. rewrite map_row_length by (rewrite map_length; auto). destruct HT as [_ HT]. rewrite HT by (apply nth_In; rewrite map_length; auto). lia. }
  rewrite (map2_nth _ _ _ i [] d0 []) by lia. cbn [length nth]. rewrite map_length, Lr. split; [reflexivity|]. split.
  - rewrite Forall_forall in HG. assert (G : good_box m lo up (box_of (nth i pop d0))) by (apply HG, in_map, nth_In; auto). destruct G as ((L1 & _) & (L2 & _) & _). cbn [box_of low high fst snd] in *.
    destruct (sides_spec _ _ _ _ (nth i pop d0) HD L1 L2) as [Ls Hs]. destruct (domain_bs _ _ _ _ HD) as [Lb _]. rewrite Lb.
    assert (Hm0 : ~ inject_Z (Z.of_nat m) == 0). { destruct HD as [Hm _]. unfold inject_Z, Qeq. cbn [Qnum Qden]. lia. }
    rewrite qsum_half by auto. unfold size_of. rewrite (qsum_ext (sides bs (nth i pop d0)) (map (fun j => (nth j (d_xu (nth i pop d0)) 0 - nth j (d_xl (nth i pop d0)) 0) / (nth j up 0 - nth j lo 0)) (seq 0 m))).
    + reflexivity.
    + rewrite map_length, seq_length. auto.
    + intros j Hj. rewrite Ls in Hj. rewrite nth_seq_map by auto. auto.
  - intros j Hj. unfold entry. rewrite (nth_indep _ 0 ((fun y => y + c_penalty c * d_cv (nth i pop d0)) 0)) by (rewrite map_length; lia).
    rewrite (map_nth (fun y => y + c_penalty c * d_cv (nth i pop d0))). reflexivity.
Qed.

(** some row with the least first entry is not dominated *)
Lemma min_exists {A} (f : A -> Q) (l : list A) : l <> [] -> exists x, In x l /\ forall y, In y l -> f x <= f y.
Proof.
  induction l as [|x l IH]; [congruence|]. intros _. destruct l as [|y l]; [exists x; split; [simpl; auto|]; intros y [<-|[]]; lra|].
  destruct IH as (z & Hz & H); [discriminate|]. destruct (Qlt_le_dec (f x) (f z)) as [Hlt|Hle].
  - exists x. split; [simpl; auto|]. intros w [<-|Hw]; [lra|]. specialize (H w Hw). lra.
  - exists z. split; [right; auto|]. intros w [<-|Hw]; [lra|auto].
Qed.
Lemma sum_lt n (a b : list Q) : length a = n -> length b = n -> row_dominates n a b -> qsum a < qsum b.
Proof.
  revert a b; induction n as [|n IH]; intros a b La Lb [H1 (j & Hj & H2)]; [lia|]. destruct a as [|x a]; [discriminate|]. destruct b as [|y b]; [discriminate|].
  injection La as La. injection Lb as Lb. unfold qsum in *. cbn [fold_right].
  assert (Hxy : x <= y) by (apply (H1 0%nat); lia).
  destruct j as [|j].
  - cbn [nth] in H2. assert (fold_right Qplus 0 a <= fold_right Qplus 0 b); [|lra].
    assert (HH : forall j, (j < n)%nat -> nth j a 0 <= nth j b 0) by (intros i Hi; apply (H1 (S i)); lia). clear - La Lb HH. revert a b La Lb HH. induction n as [|n IH]; intros a b La Lb HH.
    + destruct a, b; try discriminate; apply Qle_refl.
    + destruct a as [|x a], b as [|y b]; try discriminate. cbn [fold_right]. specialize (IH a b ltac:(simpl in La; lia) ltac:(simpl in Lb; lia) (fun j Hj => HH (S j) ltac:(lia))). specialize (HH 0%nat ltac:(lia)). cbn [nth] in HH. lra.
  - specialize (IH a b La Lb). assert (fold_right Qplus 0 a < fold_right Qplus 0 b); [|lra]. apply IH. split; [intros i Hi; apply (H1 (S i)); lia|]. exists j. split; [lia|]. exact H2.
Qed.
Lemma largest_in_front n rows J : rows <> [] -> (forall r, In r rows -> length r = S n) -> is_front (S n) rows J ->
  exists i, In i J /\ forall r, In r rows -> nth 0 (nth i rows []) 0 <= nth 0 r 0.
Proof.
  intros Hne HL [_ HJ]. destruct (min_exists (fun r => nth 0 r 0) rows Hne) as (r0 & Hr0 & M0).
  destruct (min_exists qsum (filter (fun r => Qeq_bool (nth 0 r 0) (nth 0 r0 0)) rows)) as (r & Hr & M).
  { assert (In r0 (filter (fun r => Qeq_bool (nth 0 r 0) (nth 0 r0 0)) rows)) by (apply filter_In; split; auto; apply Qeq_bool_iff; reflexivity). destruct (filter _ _); [destruct H|discriminate]. }
  apply filter_In in Hr as [Hr Er]. apply Qeq_bool_iff in Er. pose proof Hr as Hr'. apply (In_nth _ _ []) in Hr' as (i & Hi & Ei). exists i. rewrite Ei. split.
  - apply HJ. split; auto. rewrite Ei. intros s Hs Hd. pose proof (sum_lt (S n) s r (HL s Hs) (HL r Hr) Hd) as Hlt. destruct Hd as [Hd _]. specialize (Hd 0%nat ltac:(lia)).
    assert (Hin : In s (filter (fun r => Qeq_bool (nth 0 r 0) (nth 0 r0 0)) rows)). { apply filter_In. split; auto. apply Qeq_bool_iff. specialize (M0 s Hs). lra. }
    specialize (M s Hin). lra.
  - intros s Hs. rewrite Er. auto.
Qed.

(** C64: an iteration of a not too large archive with at most n_max_candidates non-dominated members divides exactly the members that are
    non-dominated with respect to large boxes and small (penalised) values; one of the largest boxes is among them *)
Theorem C64_selection : forall c bs m lo up n_obj pop, domain m lo up bs -> (forall rows, is_front (S n_obj) rows (c_front c rows)) ->
  table n_obj (map d_f pop) -> Forall (good_box m lo up) (map box_of pop) -> (length pop <= c_max_archive c)%nat -> (1 < length pop)%nat ->
  exists nF, normalize false n_obj (map d_f pop) None None = Some nF /\
    let better i j := size_of m lo up (nth j pop d0) <= size_of m lo up (nth i pop d0) /\
                      (forall k, (k < n_obj)%nat -> entry nF i k + c_penalty c * d_cv (nth i pop d0) <= entry nF j k + c_penalty c * d_cv (nth j pop d0)) /\
                      (size_of m lo up (nth j pop d0) < size_of m lo up (nth i pop d0) \/
                       exists k, (k < n_obj)%nat /\ entry nF i k + c_penalty c * d_cv (nth i pop d0) < entry nF j k + c_penalty c * d_cv (nth j pop d0)) in
    exists J, NoDup J /\ (forall i, In i J <-> (i < length pop)%nat /\ forall j, (j < length pop)%nat -> ~ better j i) /\
      (exists i, In i J /\ forall j, (j < length pop)%nat -> size_of m lo up (nth j pop d0) <= size_of m lo up (nth i pop d0)) /\
      ((length J <= c_max_candidates c)%nat -> potential_optimal c bs n_obj pop = Some (pop, J)).
Proof.
  intros c bs m lo up n_obj pop HD HF HT HG HA Hp. destruct (obj_spec c bs m lo up n_obj pop HD HT HG) as (obj & nF & EO & EN & LO & HO). exists nF. split; [exact EN|]. cbv zeta.
  destruct (HF obj) as [N1 N2]. exists (c_front c obj). split; [auto|].
  assert (HB : forall i j, (i < length pop)%nat -> (j < length pop)%nat -> (row_dominates (S n_obj) (nth i obj []) (nth j obj []) <->
     size_of m lo up (nth j pop d0) <= size_of m lo up (nth i pop d0) /\
                      (forall k, (k < n_obj)%nat -> entry nF i k + c_penalty c * d_cv (nth i pop d0) <= entry nF j k + c_penalty c * d_cv (nth j pop d0)) /\
                      (size_of m lo up (nth j pop d0) < size_of m lo up (nth i pop d0) \/
                       exists k, (k < n_obj)%nat /\ entry nF i k + c_penalty c * d_cv (nth i pop d0) < entry nF j k + c_penalty c * d_cv (nth j pop d0)))).
  { intros i j Hi Hj. destruct (HO i Hi) as (_ & I1 & I2). destruct (HO j Hj) as (_ & J1 & J2). split.
    - intros [D1 (k & Hk & D2)]. split; [specialize (D1 0%nat ltac:(lia)); lra|]. split; [intros q Hq; specialize (D1 (S q) ltac:(lia)); rewrite I2, J2 in D1 by auto; auto|].
      destruct k as [|k]; [left; lra|right]. exists k. split; [lia|]. rewrite I2, J2 in D2 by lia. auto.
    - intros (D1 & D2 & D3). split; [intros [|q] Hq; [lra|rewrite I2, J2 by lia; apply D2; lia]|]. destruct D3 as [D3|(k & Hk & D3)]; [exists 0%nat; split; [lia|lra]|exists (S k); split; [lia|]]. rewrite I2, J2 by auto. auto. }
  split; [|split].
  - intros i. rewrite N2, LO. split; intros [Hi H]; (split; [auto|]).
    + intros j Hj HH. apply (H (nth j obj [])); [apply nth_In; lia|]. apply HB; auto.
    + intros r Hr Hd. apply (In_nth _ _ []) in Hr as (j & Hj & <-). rewrite LO in Hj. apply HB in Hd; auto. exact (H j Hj Hd).
  - destruct (largest_in_front n_obj obj (c_front c obj)) as (i & Hi & HM); [intros ->; simpl in LO; lia| |apply HF|].
    { intros r Hr. apply (In_nth _ _ []) in Hr as (j & Hj & <-). apply HO. lia. }
    exists i. split; auto. intros j Hj. apply N2 in Hi as [Hi _]. specialize (HM (nth j obj []) ltac:(apply nth_In; lia)).
    destruct (HO i ltac:(lia)) as (_ & O1 & _). destruct (HO j ltac:(lia)) as (_ & O2 & _). lra.
  - intros Hc. unfold potential_optimal. destruct (Nat.eqb_spec (length pop) 1); [lia|]. rewrite EO. destruct (Nat.ltb_spec (c_max_archive c) (length pop)); [lia|].
    destruct (length (c_front c obj) =? 1)%nat; auto. destruct (Nat.ltb_spec (c_max_candidates c) (length (c_front c obj))); [lia|]. reflexivity.
Qed.
Print Assumptions C64_selection.

(** C64: an iteration never fails; without truncation the archive keeps all its points, in order, and gains two new ones per divided member *)
Theorem C64_growth : forall c m lo up bs n_obj pop eval, domain m lo up bs -> sorters_ok c -> reached c bs lo up n_obj true pop ->
  table n_obj (map d_f pop) -> (length pop <= c_max_archive c)%nat ->
  exists sel pop', potential_optimal c bs n_obj pop = Some (pop, sel) /\ direct_iter c bs n_obj pop eval = Some pop' /\
    length pop' = (length pop + 2 * length sel)%nat /\ firstn (length pop) (map d_x pop') = map d_x pop.
Proof.
  intros c m lo up bs n_obj pop eval HD HS HR HT HA. destruct (reached_inv _ _ _ _ _ _ _ _ HD HS HR) as (G & C & _). destruct HS as (S1 & S2 & S3).
  destruct (obj_spec c bs m lo up n_obj pop HD HT (proj1 G)) as (obj & nF & EO & EN & LO & HO).
  assert (HP : exists sel, potential_optimal c bs n_obj pop = Some (pop, sel) /\ forall i, In i sel -> (i < length pop)%nat).
  { unfold potential_optimal. destruct (Nat.eqb_spec (length pop) 1) as [E|E]; [eexists; split; [reflexivity|]; intros i [<-|[]]; lia|]. rewrite EO.
    destruct (Nat.ltb_spec (c_max_archive c) (length pop)); [lia|].
    destruct (length (c_front c obj) =? 1)%nat; [|destruct (_ <? _)%nat]; eexists; (split; [reflexivity|]); intros i Hi; [rewrite <- LO| |rewrite <- LO]; eauto. }
  destruct HP as (sel & EP & Hsel). exists sel. unfold direct_iter. rewrite EP.
  destruct (infill_spec m lo up bs HD sel pop []) as (pop2 & inf & Ei & L1 & L2 & _ & _ & _ & X & _); rewrite ?app_nil_r; auto. rewrite Ei. eexists. split; [reflexivity|]. split; [reflexivity|].
  split; [unfold evaluated; rewrite app_length, map_length; cbn [length] in L2; lia|]. rewrite map_app, firstn_app, map_length, L1, Nat.sub_diag. cbn [firstn]. rewrite app_nil_r, X.
  apply firstn_all2. rewrite map_length. lia.
Qed.
Print Assumptions C64_growth.

(** ** examples and refutations *)
Definition dominatesb (m : nat) (a b : list Q) : bool :=
  forallb (fun j => Qle_bool (nth j a 0) (nth j b 0)) (seq 0 m) && existsb (fun j => negb (Qle_bool (nth j b 0) (nth j a 0))) (seq 0 m).
Definition front_ref (m : nat) (rows : list (list Q)) : list nat := filter (fun i => forallb (fun r => negb (dominatesb m r (nth i rows []))) rows) (seq 0 (length rows)).
Lemma front_ref_ok m rows : is_front m rows (front_ref m rows).
Proof.
  assert (HB : forall a b, dominatesb m a b = true <-> row_dominates m a b).
  { intros a b. unfold dominatesb, row_dominates. rewrite andb_true_iff, forallb_forall, existsb_exists. split; intros [H1 (j & H2 & H3)].
    - apply in_seq in H2. split; [intros i Hi; apply Qle_bool_iff, H1, in_seq; lia|]. exists j. split; [lia|]. apply negb_true_iff in H3. now apply Qle_bool_false in H3.
    - split; [intros i Hi; apply in_seq in Hi; apply Qle_bool_iff, H1; lia|]. exists j. split; [apply in_seq; lia|]. destruct (Qle_bool (nth j b 0) (nth j a 0)) eqn:E; auto. apply Qle_bool_iff in E. lra. }
  unfold front_ref. split; [apply NoDup_filter, seq_NoDup|]. intros i. rewrite filter_In, in_seq, forallb_forall. split; intros [H1 H2]; (split; [lia|]); intros r Hr.
  - intros HD. apply HB in HD. specialize (H2 r Hr). rewrite HD in H2. discriminate.
  - destruct (dominatesb m r (nth i rows [])) eqn:E; auto. apply HB in E. destruct (H2 r Hr E).
Qed.
(** RankAndCrowdingSurvival as modelled for NSGA-II, on integer objective values *)
Definition crowding_ref (pop : list dind) (n : nat) : list nat :=
  filter (fun i => i <? length pop)%nat (rs_surv (rac_do (P_Survival4.default_nds P_Survival4.pr_ref) (fun F _ => map (fun _ => Flt.f_zero) F) (fun c => seq 0 (length c)) (map (fun i => map (fun q => Flt.fz (trunc q)) (d_f i)) pop) n)).
Definition conf_ex (cand arch tr : nat) : dconf :=
  {| c_penalty := 1 # 10; c_max_candidates := cand; c_max_archive := arch; c_truncated := tr; c_front := front_ref 2; c_rank_order := fun obj => seq 0 (length obj); c_crowding := crowding_ref |}.
(** the objective: x0 rounded down to multiples of 1/100, times 100 *)
Definition eval_ex (i : dind) : list Q * Q := ([inject_Z (trunc (100 * nth 0 (d_x i) 0))], 0).
Definition run_ex (c : dconf) (bs : list bnd) (lo up : list Q) (n : nat) : option (list dind) :=
  Nat.iter n (fun o => match o with None => None | Some p => direct_iter c bs 1 p eval_ex end) (Some (evaluated eval_ex [direct_setup bs lo up])).
Definition bs1 : list bnd := [(Some 0, Some 1)].
Lemma domain1 : domain 1 [0] [1] bs1.
Proof. repeat split; auto. intros [|j] Hj; simpl; [lra|lia]. Qed.
Lemma conf_ex_ok cand arch tr : sorters_ok (conf_ex cand arch tr).
Proof.
  split; [|split]; cbn [conf_ex c_front c_rank_order c_crowding].
  - intros obj i Hi. now apply (front_ref_ok 2 obj) in Hi.
  - intros obj. split; [apply seq_NoDup|]. intros i Hi. apply in_seq in Hi. lia.
  - intros pop n i Hi. unfold crowding_ref in Hi. apply filter_In in Hi as [_ Hi]. now apply Nat.ltb_lt in Hi.
Qed.
Lemma run_reached c bs lo up keep n : forall pop, (keep = true -> forall k p, (k < n)%nat -> run_ex c bs lo up k = Some p -> (length p <= c_max_archive c)%nat) ->
  run_ex c bs lo up n = Some pop -> reached c bs lo up 1 keep pop.
Proof.
  induction n as [|n IH]; intros pop HK H.
  - assert (E : pop = evaluated eval_ex [direct_setup bs lo up]) by (change (Some (evaluated eval_ex [direct_setup bs lo up]) = Some pop) in H; congruence). rewrite E. apply r_init.
  - change (run_ex c bs lo up (S n)) with (match run_ex c bs lo up n with None => None | Some p => direct_iter c bs 1 p eval_ex end) in H.
    destruct (run_ex c bs lo up n) as [p|] eqn:E; [|discriminate]. eapply r_iter; [apply IH; [intros Hk k q Hq; apply (HK Hk k q); lia|reflexivity]| |exact H]. intros Hk. apply (HK Hk n p); auto.
Qed.

(** C64, refuted: a largest box is divided in every iteration - when there are more than n_max_candidates non-dominated members the whole
    population, not the candidates, is handed to the rank-and-crowding survival, which ignores the sizes *)
Theorem C64_largest_refuted : ~ (forall c m lo up bs n_obj pop pop1 sel, domain m lo up bs -> sorters_ok c -> (forall rows, is_front (S n_obj) rows (c_front c rows)) ->
  (1 <= c_max_candidates c)%nat -> c_crowding c = crowding_ref -> reached c bs lo up n_obj true pop -> potential_optimal c bs n_obj pop = Some (pop1, sel) -> exists i, In i sel /\ forall j, In j pop1 -> size_of m lo up j <= size_of m lo up (nth i pop1 d0)).
Proof.
  intros H. destruct (run_ex (conf_ex 1 100 3) bs1 [0] [1] 2) as [pop|] eqn:E; [|vm_compute in E; discriminate].
  assert (HR : reached (conf_ex 1 100 3) bs1 [0] [1] 1 true pop).
  { apply run_reached with (n := 2%nat); auto. intros _ k p Hk Hp. destruct k as [|[|k]]; [| |lia]; vm_compute in Hp; injection Hp as <-; vm_compute; lia. }
  destruct (potential_optimal (conf_ex 1 100 3) bs1 1 pop) as [[pop1 sel]|] eqn:EP; [|vm_compute in E; injection E as <-; vm_compute in EP; discriminate].
  destruct (H _ _ _ _ _ _ _ _ _ domain1 (conf_ex_ok _ _ _) (front_ref_ok 2) (le_n 1) eq_refl HR EP) as (i & Hi & HM). revert EP Hi HM. vm_compute in E; injection E as <-. intros EP. vm_compute in EP. injection EP as <- <-.
  intros [<-|[]] HM. specialize (HM _ (or_introl eq_refl)). vm_compute in HM. auto.
Qed.
Print Assumptions C64_largest_refuted.
(** C64, refuted: the boxes tile the search space after the archive has been truncated *)
Theorem C64_truncation_refuted : ~ (forall c m lo up bs n_obj pop, domain m lo up bs -> sorters_ok c -> reached c bs lo up n_obj false pop -> tiles m lo up (map box_of pop)).
Proof.
  intros H. destruct (run_ex (conf_ex 10 2 1) bs1 [0] [1] 2) as [pop|] eqn:E; [|vm_compute in E; discriminate].
  assert (HR : reached (conf_ex 10 2 1) bs1 [0] [1] 1 false pop) by (apply run_reached with (n := 2%nat); auto; discriminate).
  destruct (H _ _ _ _ _ _ _ domain1 (conf_ex_ok _ _ _) HR) as (_ & HC & _). destruct (HC [0]) as (b & Hb & [_ Wb]).
  { split; auto. intros [|j] Hj; simpl; [lra|lia]. }
  specialize (Wb 0%nat ltac:(lia)) as [Wb _]. revert Hb Wb. vm_compute in E; injection E as <-. intros Hb Wb. repeat (destruct Hb as [<-|Hb]; [vm_compute in Wb; auto|]). destruct Hb.
Qed.
Print Assumptions C64_truncation_refuted.
(** C64, refuted for a fixed variable (equal bounds): the first point evaluated is outside the bounds *)
Theorem C64_fixed_refuted : ~ (forall m lo up bs, length lo = m -> length up = m -> (forall j, (j < m)%nat -> nth j lo 0 <= nth j up 0) -> zto_init (map Some lo) (map Some up) = Some bs ->
  within m lo up (d_x (direct_setup bs lo up))).
Proof.
  intros H. destruct (H 2%nat [0; 2] [1; 2] [(Some 0, Some 1); (Some 2, None)] eq_refl eq_refl) as [_ HW].
  - intros [|[|j]] Hj; simpl; try lra; lia.
  - reflexivity.
  - specialize (HW 1%nat ltac:(lia)). destruct HW as [_ HW]. vm_compute in HW. auto.
Qed.
Print Assumptions C64_fixed_refuted.

(** a run of three iterations: the hypotheses are met and the archive has grown *)
Lemma C64_case : domain 2 [0; 1] [3; 2] [(Some 0, Some 3); (Some 1, Some 2)] /\ sorters_ok (conf_ex 10 100 3) /\ exists pop,
  run_ex (conf_ex 10 100 3) [(Some 0, Some 3); (Some 1, Some 2)] [0; 1] [3; 2] 3 = Some pop /\ (7 <= length pop)%nat /\ reached (conf_ex 10 100 3) [(Some 0, Some 3); (Some 1, Some 2)] [0; 1] [3; 2] 1 true pop /\ table 1 (map d_f pop).
Proof.
  split; [repeat split; auto; intros [|[|j]] Hj; simpl; try lra; lia|]. split; [apply conf_ex_ok|].
  destruct (run_ex (conf_ex 10 100 3) [(Some 0, Some 3); (Some 1, Some 2)] [0; 1] [3; 2] 3) as [pop|] eqn:E; [|vm_compute in E; discriminate]. exists pop. split; auto.
  split; [vm_compute in E; injection E as <-; vm_compute; lia|]. split; [|split; [vm_compute in E; injection E as <-; discriminate|]].
  - apply run_reached with (n := 3%nat); auto. intros _ k p Hk Hp. destruct k as [|[|[|k]]]; [| | |lia]; vm_compute in Hp; injection Hp as <-; vm_compute; lia.
  - vm_compute in E; injection E as <-. intros r Hr. repeat (destruct Hr as [<-|Hr]; [reflexivity|]). destruct Hr.
Qed.
