From Coq Require Import List Arith Bool ZArith Lia Permutation.
From Verif Require Import Flt ListAux NpSort M_Dominator M_NDS M_Optimum M_NSGA3 M_CTAEA S_Pareto S_NDS P_Peel P_NDS1 P_Dominator P_Optimum S_Survival P_Survival P_NSGA3 Thm_SMS S_CTAEA.
Import ListNotations.
Local Open Scope nat_scope.

Lemma fargmax_from_spec l : forall best bi i, isnan best = false -> vec_ok l ->
  (fargmax_from best bi i l = bi /\ forall k, k < length l -> fleb (nth k l f_nan) best = true) \/
  (i <= fargmax_from best bi i l < i + length l /\ fltb best (nth (fargmax_from best bi i l - i) l f_nan) = true /\ forall k, k < length l -> fleb (nth k l f_nan) (nth (fargmax_from best bi i l - i) l f_nan) = true).
Proof.
  induction l as [|x l IH]; intros best bi i Hb Hl; [left; split; [reflexivity|simpl; lia]|]. inversion Hl as [|? ? Hx Hl']; subst. cbn [fargmax_from].
  destruct (fltb best x) eqn:E.
  - destruct (IH x i (S i) Hx Hl') as [[K1 K2]|(K1 & K2 & K3)].
    + right. rewrite K1, Nat.sub_diag. cbn [nth length]. split; [lia|]. split; auto. intros [|k] Hk; [now apply fle_refl|apply K2; lia].
    + right. set (z := fargmax_from x i (S i) l) in *. replace (z - i) with (S (z - S i)) by lia. cbn [nth length]. split; [lia|]. split; [eapply flt_trans; eauto|].
      intros [|k] Hk; [now apply flt_le|apply K3; lia].
  - destruct (IH best bi (S i) Hb Hl') as [[K1 K2]|(K1 & K2 & K3)].
    + left. split; auto. intros [|k] Hk; cbn [nth]; [now apply nlt_le|apply K2; simpl in Hk; lia].
    + right. set (z := fargmax_from best bi (S i) l) in *. replace (z - i) with (S (z - S i)) by lia. cbn [nth length]. split; [lia|]. split; auto.
      intros [|k] Hk; [|apply K3; lia]. apply fle_trans with best; [now apply nlt_le|now apply flt_le].
Qed.
Lemma fargmax_spec l : l <> [] -> vec_ok l -> fargmax l < length l /\ forall k, k < length l -> fleb (nth k l f_nan) (nth (fargmax l) l f_nan) = true.
Proof.
  destruct l as [|x l]; [congruence|]. intros _ Hl. inversion Hl as [|? ? Hx Hl']; subst. cbn [fargmax]. destruct (fargmax_from_spec l x 0 1 Hx Hl') as [[K1 K2]|(K1 & K2 & K3)].
  - rewrite K1. cbn [nth length]. split; [lia|]. intros [|k] Hk; [now apply fle_refl|apply K2; lia].
  - set (z := fargmax_from x 0 1 l) in *. replace z with (S (z - 1)) by lia. cbn [nth length]. split; [lia|]. intros [|k] Hk; [now apply flt_le|apply K3; lia].
Qed.
(** the element of a list with the largest value *)
Lemma fargmax_map {A} (f : A -> flt) (l : list A) d : l <> [] -> (forall x, In x l -> isnan (f x) = false) ->
  In (nth (fargmax (map f l)) l d) l /\ forall y, In y l -> fleb (f y) (f (nth (fargmax (map f l)) l d)) = true.
Proof.
  intros Hne HN. destruct (fargmax_spec (map f l)) as [H1 H2]; [destruct l; [congruence|discriminate]|apply Forall_forall; intros x Hx; apply in_map_iff in Hx as (y & <- & Hy); auto|].
  rewrite map_length in *. split; [now apply nth_In|]. intros y Hy. apply (In_nth _ _ d) in Hy as (k & Hk & <-). specialize (H2 k Hk).
  rewrite !(nth_indep (map f l) f_nan (f d)) in H2 by (now rewrite map_length). now rewrite !map_nth in H2.
Qed.
Lemma argmin_map {A} (f : A -> flt) (l : list A) d : l <> [] -> (forall x, In x l -> isnan (f x) = false) ->
  In (nth (np_argmin (map f l)) l d) l /\ forall y, In y l -> fleb (f (nth (np_argmin (map f l)) l d)) (f y) = true.
Proof.
  intros Hne HN. destruct (np_argmin_spec (map f l)) as [H1 H2]; [destruct l; [congruence|discriminate]|apply Forall_forall; intros x Hx; apply in_map_iff in Hx as (y & <- & Hy); auto|].
  rewrite map_length in *. split; [now apply nth_In|]. intros y Hy. apply (In_nth _ _ d) in Hy as (k & Hk & <-). specialize (H2 k Hk).
  rewrite !(nth_indep (map f l) f_nan (f d)) in H2 by (now rewrite map_length). now rewrite !map_nth in H2.
Qed.

Lemma filter_length_le {A} f (l : list A) : length (filter f l) <= length l.
Proof. induction l as [|a l IH]; [auto|]. cbn [filter]. destruct (f a); simpl; lia. Qed.
Lemma NoDup_nth_concat {A} (ll : list (list A)) : forall k, NoDup (concat ll) -> NoDup (nth k ll []).
Proof. induction ll as [|l ll IH]; intros [|k] H; cbn [nth]; try constructor; cbn [concat] in H; apply NoDup_app_iff in H as (H1 & H2 & _); auto. Qed.
Lemma fmin_spec l : (forall v, In v l -> isnan v = false) -> isnan (fmin l) = false /\ (fmin l = f_inf \/ In (fmin l) l) /\ forall v, In v l -> fleb (fmin l) v = true.
Proof.
  intros H. unfold fmin. assert (G : forall l a, isnan a = false -> (forall v, In v l -> isnan v = false) -> let r := fold_left (fun a x => if fltb x a then x else a) l a in
    isnan r = false /\ (r = a \/ In r l) /\ fleb r a = true /\ forall v, In v l -> fleb r v = true).
  { clear. induction l as [|x l IH]; intros a Ha H; cbn [fold_left]; [split; [auto|]; split; [auto|]; split; [now apply fle_refl|intros v []]|].
    assert (Hx : isnan x = false) by (apply H; left; auto). destruct (fltb x a) eqn:E.
    - destruct (IH x Hx) as (I1 & I2 & I3 & I4); [intros; apply H; right; auto|]. cbn zeta in *. split; auto. split; [right; cbn; intuition auto|]. split; [apply fle_trans with x; auto; now apply flt_le|]. intros v [<-|Hv]; auto.
    - destruct (IH a Ha) as (I1 & I2 & I3 & I4); [intros; apply H; right; auto|]. cbn zeta in *. split; auto. split; [cbn; intuition auto|]. split; auto. intros v [<-|Hv]; auto. apply fle_trans with a; auto. now apply nlt_le. }
  destruct (G l f_inf eq_refl H) as (G1 & G2 & G3 & G4). auto.
Qed.
Section CA.
  Context {A : Type} (d : A) (obj : A -> list flt) (cv : A -> flt) (niche : A -> nat) (fv : A -> flt) (dist : A -> A -> flt).
  Variables (nds : fltmat -> nat -> list (list nat)) (asort : list flt -> list nat) (pop : list A) (m : nat).
  Notation ind i := (nth i pop d).
  Notation crowd := (crowd d niche pop).
  Hypothesis Hpop : forall i, i < length pop -> ctaea_ind_ok m obj cv fv (ind i).

  (** *** truncation *)
  Definition below (l : list nat) : Prop := forall i, In i l -> i < length pop.
  Lemma crowd_In surv k x : In x (crowd surv k) <-> In x surv /\ niche (ind x) = k.
  Proof. unfold M_CTAEA.crowd. rewrite filter_In, Nat.eqb_eq. tauto. Qed.
  Lemma fv_ok i : i < length pop -> isnan (fv (ind i)) = false.
  Proof. intros H. apply (Hpop i H). Qed.

  Lemma niche_worst_in J surv swap k : below surv -> crowd surv k <> [] -> In (niche_worst d niche fv dist pop J surv swap k) (crowd surv k).
  Proof.
    intros HB HC. unfold niche_worst. cbv zeta.
    set (c := crowd surv k) in *.
    assert (HN : forall x, In x c -> isnan (fv (ind x)) = false) by (intros x Hx; apply crowd_In in Hx; apply fv_ok, HB; tauto).
    destruct (fargmax_map (fun i => fv (ind i)) c 0 HC HN) as [H1 _].
    set (pairs := flat_map (fun a => map (fun b => (a, b)) c) c).
    match goal with |- In (if _ then nth (fargmax (map _ ?C)) _ 0 else _) _ => set (closest := C) end.
    destruct (_ || _); auto.
    assert (HP : pairs <> []).
    { unfold pairs. destruct c as [|a c']; [congruence|]. discriminate. }
    assert (HPr : forall p, In p pairs -> In (fst p) c /\ In (snd p) c).
    { intros p Hp. unfold pairs in Hp. apply in_flat_map in Hp as (a & Ha & Hp). apply in_map_iff in Hp as (b & <- & Hb). auto. }
    match type of closest with _ => match eval unfold closest in closest with context [nth ?K pairs (0, 0)] => set (kk := K) in closest end end.
    destruct (le_lt_dec (length pairs) kk) as [HK|HK].
    - exfalso. revert HK. unfold kk.
      assert (Hg : forall l, l <> [] -> np_argmin l < length l).
      { intros l. destruct l as [|x l]; [congruence|]. intros _. cbn [np_argmin].
        assert (HG : forall l b bi i, bi < i -> argmin_from b bi i l < i + length l).
        { clear. induction l as [|y l IH]; intros b bi i H; cbn [argmin_from length]; [lia|]. repeat match goal with |- context [if ?e then _ else _] => destruct e end; try lia;
          try (eapply Nat.lt_le_trans; [apply IH; lia|lia]). }
        specialize (HG l x 0 1 ltac:(lia)). simpl in *. lia. }
      specialize (Hg (map (fun p : nat * nat => if fst p =? snd p then f_inf else dist (ind (fst p)) (ind (snd p))) pairs)). rewrite map_length in Hg. assert (HH : map (fun p : nat * nat => if fst p =? snd p then f_inf else dist (ind (fst p)) (ind (snd p))) pairs <> []) by (destruct pairs; [congruence|discriminate]). specialize (Hg HH). lia.
    - pose proof (HPr _ (nth_In _ (0, 0) HK)) as [P1 P2]. 
      assert (HCl : closest <> [] /\ forall x, In x closest -> In x c).
      { unfold closest. destruct swap; (split; [discriminate|]); intros x [<-|[<-|[]]]; auto. }
      destruct (fargmax_map (fun i => fv (ind i)) closest 0 (proj1 HCl)) as [H2 _]; [intros x Hx; apply HN, HCl, Hx|]. apply HCl, H2.
  Qed.

  Hypothesis Hdist : forall a b, fltb (dist a b) f_inf = true.
  (** why [x] is removed from its niche: its fitness is the worst there, or it is the worse one of a closest pair there *)
  Lemma niche_worst_why J surv swap k : below surv -> crowd surv k <> [] ->
    let x := niche_worst d niche fv dist pop J surv swap k in
    ((forall y, In y (crowd surv k) -> fleb (fv (ind y)) (fv (ind x)) = true) /\ forall a b, In a (crowd surv k) -> In b (crowd surv k) -> a <> b -> exists z, In z surv /\ z <> x /\ fleb (dist (ind x) (ind z)) (dist (ind a) (ind b)) = true) \/
    exists y w, In y (crowd surv k) /\ y <> x /\ fleb (fv (ind y)) (fv (ind x)) = true /\
      (forall a b, In a (crowd surv k) -> In b (crowd surv k) -> a <> b -> fleb (dist (ind x) (ind y)) (dist (ind a) (ind b)) = true \/ fleb (dist (ind y) (ind x)) (dist (ind a) (ind b)) = true) /\
      In w (crowd surv k) /\ (forall y', In y' (crowd surv k) -> fleb (fv (ind y')) (fv (ind w)) = true) /\
      forall z, In z surv -> z <> w -> fleb (dist (ind x) (ind y)) (dist (ind w) (ind z)) = true \/ fleb (dist (ind y) (ind x)) (dist (ind w) (ind z)) = true.
  Proof.
    intros HB HC. unfold niche_worst. cbv zeta.
    set (c := crowd surv k) in *.
    assert (HN : forall x, In x c -> isnan (fv (ind x)) = false) by (intros x Hx; apply crowd_In in Hx; apply fv_ok, HB; tauto).
    destruct (fargmax_map (fun i => fv (ind i)) c 0 HC HN) as [H1 H1'].
    set (pairs := flat_map (fun a => map (fun b => (a, b)) c) c).
    match goal with |- context [np_argmin (map ?f pairs)] => set (dp := f) end.
    set (nw := nth (fargmax (map (fun i => fv (ind i)) c)) c 0) in *. cbn beta in H1'.
    set (mm := fmin (map (fun j => if j =? nw then f_inf else dist (ind nw) (ind j)) surv)).
    destruct (fmin_spec (map (fun j => if j =? nw then f_inf else dist (ind nw) (ind j)) surv)) as (HmN & HmA & HmL).
    { intros v Hv. apply in_map_iff in Hv as (j & <- & _). destruct (j =? nw); [reflexivity|]. apply flt_nonnan_l with f_inf, Hdist. }
    fold mm in HmN, HmA, HmL.
    assert (HP : pairs <> []) by (unfold pairs; destruct c as [|a c']; [congruence|discriminate]).
    assert (HPr : forall a b, In (a, b) pairs <-> In a c /\ In b c).
    { intros a b. unfold pairs. rewrite in_flat_map. split.
      - intros (a' & Ha & Hp). apply in_map_iff in Hp as (b' & E & Hb). injection E as -> ->. auto.
      - intros [Ha Hb]. exists a. split; auto. apply in_map_iff. exists b. auto. }
    assert (HND : forall p, In p pairs -> isnan (dp p) = false).
    { intros p _. unfold dp. destruct (fst p =? snd p); [reflexivity|]. apply flt_nonnan_l with f_inf, Hdist. }
    destruct (argmin_map dp pairs (0, 0) HP HND) as [H2 H3].
    set (pr := nth (np_argmin (map dp pairs)) pairs (0, 0)) in *.
    match goal with |- context [if ?B then _ else _] => destruct B eqn:EB end.
    2:{ left. split; [exact H1'|]. intros a b Ha Hb Eab. apply orb_false_iff in EB as [EB _].
      assert (HNp : isnan (dp pr) = false) by (apply HND; exact H2).
      assert (Hle : fleb mm (dist (ind a) (ind b)) = true).
      { apply fle_trans with (dp pr); [now apply nlt_le|]. specialize (H3 (a, b) (proj2 (HPr a b) (conj Ha Hb))). unfold dp in H3 at 2. cbn [fst snd] in H3. destruct (Nat.eqb_spec a b); [congruence|exact H3]. }
      destruct HmA as [Ei|Hin]; [rewrite Ei in Hle; apply fle_not_lt in Hle; rewrite Hdist in Hle; discriminate|]. apply in_map_iff in Hin as (z & Ez & Hz). destruct (Nat.eqb_spec z nw) as [C|C].
      - rewrite <- Ez in Hle. apply fle_not_lt in Hle. rewrite Hdist in Hle. discriminate.
      - exists z. split; auto. split; auto. rewrite Ez. exact Hle. }
    assert (HB2 : fleb (dp pr) mm = true).
    { apply orb_true_iff in EB as [EB|EB]; [now apply flt_le|]. apply andb_true_iff in EB as [EB _]. now apply feq_le. }
    clear EB. destruct pr as [a b] eqn:Epr. cbn [fst snd]. apply HPr in H2 as [Pa Pb].
    assert (HW : forall z, In z surv -> z <> nw -> a <> b -> fleb (dist (ind a) (ind b)) (dist (ind nw) (ind z)) = true).
    { intros z Hz Ez Eab. apply fle_trans with mm; [|apply HmL, in_map_iff; exists z; destruct (Nat.eqb_spec z nw); [congruence|auto]]. unfold dp in HB2. cbn [fst snd] in HB2. destruct (Nat.eqb_spec a b); [congruence|exact HB2]. }
    set (closest := if swap then [b; a] else [a; b]).
    destruct (fargmax_map (fun i => fv (ind i)) closest 0) as [H4 H5]; [unfold closest; destruct swap; discriminate|intros x Hx; apply HN; unfold closest in Hx; destruct swap; destruct Hx as [<-|[<-|[]]]; auto|].
    set (x := nth (fargmax (map (fun i => fv (ind i)) closest)) closest 0) in *.
    assert (HX : (x = a /\ fleb (fv (ind b)) (fv (ind x)) = true) \/ (x = b /\ fleb (fv (ind a)) (fv (ind x)) = true)).
    { assert (Ia : In a closest /\ In b closest) by (unfold closest; destruct swap; cbn; auto). destruct Ia as [Ia Ib].
      assert (IX : x = a \/ x = b) by (unfold closest in H4; destruct swap; destruct H4 as [H4|[H4|[]]]; auto). destruct IX; [left|right]; split; auto. }
    destruct (Nat.eq_dec a b) as [E|E].
    - subst b. left. assert (Ex : x = a) by (destruct HX; tauto). rewrite Ex.
      assert (HU : forall y, In y c -> y = a); [|split; [intros y Hy; rewrite (HU y Hy); now apply fle_refl, HN|intros y z Hy Hz; rewrite (HU y Hy), (HU z Hz); congruence]].
      intros y Hy. destruct (Nat.eq_dec y a) as [->|Ey]; [auto|].
      exfalso. specialize (H3 (y, a) (proj2 (HPr y a) (conj Hy Pa))). unfold dp in H3. cbn [fst snd] in H3. rewrite Nat.eqb_refl in H3. destruct (Nat.eqb_spec y a) as [|_]; [congruence|].
      apply fle_not_lt in H3. rewrite Hdist in H3. discriminate.
    - right. assert (HM : forall a' b', In a' c -> In b' c -> a' <> b' -> fleb (dist (ind a) (ind b)) (dist (ind a') (ind b')) = true).
      { intros a' b' Ha' Hb' E'. specialize (H3 (a', b') (proj2 (HPr a' b') (conj Ha' Hb'))). unfold dp in H3. cbn [fst snd] in H3.
        destruct (Nat.eqb_spec a b) as [|_]; [congruence|]. destruct (Nat.eqb_spec a' b') as [|_]; [congruence|]. exact H3. }
      destruct HX as [[-> Hl]|[-> Hl]]; [exists b|exists a]; exists nw; (split; [auto|]); (split; [congruence|]); (split; [exact Hl|]); (split; [intros a' b' Ha' Hb' E'; (left; now apply HM) || (right; now apply HM)|]); (split; [exact H1|]); (split; [exact H1'|]); intros z Hz Ez; [left|right]; auto.
  Qed.

  (** the niches *)
  Lemma worst_spec J surv swap : below surv -> incl surv J -> surv <> [] ->
    exists x k, worst d niche fv dist pop J surv swap = Some x /\ In x (crowd surv k) /\ x = niche_worst d niche fv dist pop J surv (swap k) k /\ forall k', length (crowd surv k') <= length (crowd surv k).
  Proof.
    intros HB HI Hne. unfold worst. cbv zeta.
    set (index := np_unique (map (fun i => niche (ind i)) J)).
    set (count := fun k => length (crowd surv k)).
    assert (HIx : forall x, In x surv -> In (niche (ind x)) index) by (intros x Hx; unfold index; apply np_unique_In, in_map_iff; exists x; auto).
    assert (HMax : forall l, l <> [] -> exists k, In k l /\ forall k', In k' l -> count k' <= count k).
    { induction l as [|a l IH]; [congruence|]. intros _. destruct l as [|b l]; [exists a; split; [left; auto|intros k' [<-|[]]; auto]|]. destruct IH as (k & Hk & HK); [discriminate|].
      destruct (le_lt_dec (count a) (count k)); [exists k|exists a]; (split; [cbn; auto|]); intros k' [<-|Hk']; auto; specialize (HK _ Hk'); lia. }
    assert (HX : exists x0, In x0 surv) by (destruct surv as [|x0 s]; [congruence|exists x0; left; auto]). destruct HX as [x0 Hx0].
    destruct (HMax index) as (k0 & Hk0 & HK0); [intros E; specialize (HIx x0 Hx0); rewrite E in HIx; destruct HIx|].
    set (crowdest := filter (fun k => forallb (fun k' => count k' <=? count k) index) index).
    assert (HCr : forall k, In k crowdest -> In k index /\ forall k', count k' <= count k).
    { intros k Hk. apply filter_In in Hk as [Hk1 Hk2]. split; auto. rewrite forallb_forall in Hk2. intros k'. destruct (in_dec Nat.eq_dec k' index) as [Hi|Hi]; [apply Nat.leb_le, Hk2, Hi|].
      enough (E : crowd surv k' = []) by (unfold count; rewrite E; simpl; lia). destruct (crowd surv k') as [|y l] eqn:E; auto. exfalso. apply Hi. assert (Hy : In y (crowd surv k')) by (rewrite E; left; auto). apply crowd_In in Hy as [Hy <-]. auto. }
    assert (HCne : In k0 crowdest) by (apply filter_In; split; auto; apply forallb_forall; intros k' Hk'; apply Nat.leb_le; auto).
    assert (HCc : forall k, In k crowdest -> crowd surv k <> []).
    { intros k Hk E. destruct (HCr k Hk) as [_ HK]. specialize (HK (niche (ind x0))). unfold count in HK. rewrite E in HK. assert (Hx : In x0 (crowd surv (niche (ind x0)))) by (apply crowd_In; auto). destruct (crowd surv (niche (ind x0))); [destruct Hx|simpl in HK; lia]. }
    set (ok := fun x => exists k, In k crowdest /\ In x (crowd surv k) /\ x = niche_worst d niche fv dist pop J surv (swap k) k).
    set (step := fun '(w, fit) k => let x := niche_worst d niche fv dist pop J surv (swap k) k in if fltb fit (fv (ind x)) then (Some x, fv (ind x)) else (w, fit)).
    assert (HSt : forall k w fit, In k crowdest -> (match w with Some y => ok y | None => fit = fz (-1) end) -> exists y, fst (step (w, fit) k) = Some y /\ ok y).
    { intros k w fit Hk Hw. assert (Hx : ok (niche_worst d niche fv dist pop J surv (swap k) k)).
      { exists k. split; auto. split; auto. apply niche_worst_in; auto. }
      unfold step. set (x := niche_worst d niche fv dist pop J surv (swap k) k) in *.
      destruct (fltb fit (fv (ind x))) eqn:E; cbn [fst]; [exists x; auto|]. destruct w as [y|]; [exists y; auto|]. subst fit. destruct Hx as (k1 & _ & Hx1 & _). apply crowd_In in Hx1 as [Hx1 _].
      pose proof (Hpop x (HB x Hx1)) as (_ & _ & _ & _ & Hgt). congruence. }
    assert (HF : forall l st, (forall k, In k l -> In k crowdest) -> (exists y, fst st = Some y /\ ok y) -> exists y, fst (fold_left step l st) = Some y /\ ok y).
    { induction l as [|k l IH]; intros [w fit] Hl Hst; [exact Hst|]. cbn [fold_left]. apply IH; [intros k' Hk'; apply Hl; right; auto|]. apply HSt; [apply Hl; left; auto|].
      destruct Hst as (y & E & Hy). cbn [fst] in E. rewrite E. exact Hy. }
    assert (HG : exists y, fst (fold_left step crowdest (None, fz (-1))) = Some y /\ ok y).
    { clearbody crowdest. destruct crowdest as [|k l]; [destruct HCne|]. cbn [fold_left]. apply HF; [intros k' Hk'; right; auto|]. apply HSt; [left; auto|reflexivity]. }
    destruct HG as (x & E & k & Hk & Hx1 & Hx2). exists x, k. split; [exact E|]. split; auto. split; auto. apply (HCr k Hk).
  Qed.

  (** the removals, one after the other *)
  Notation removes := (S_CTAEA.removes d niche fv dist pop).
  Notation trunc := (S_CTAEA.trunc d niche fv dist pop).
  Lemma worst_removes J surv swap : below surv -> incl surv J -> surv <> [] -> exists x, worst d niche fv dist pop J surv swap = Some x /\ removes surv x.
  Proof.
    intros HB HI Hne. destruct (worst_spec J surv swap HB HI Hne) as (x & k & E & Hx & Ex & HM). exists x. split; auto. pose proof Hx as Hx'. apply crowd_In in Hx' as [Hs Hk]. split; auto.
    rewrite Hk. split; auto. rewrite Ex. apply niche_worst_why; auto. intros C. rewrite C in Hx. destruct Hx.
  Qed.
  Lemma filter_neq (l : list nat) x : NoDup l -> In x l -> length (filter (fun i => negb (i =? x)) l) = length l - 1.
  Proof.
    induction l as [|a l IH]; intros HN Hx; [destruct Hx|]. inversion HN as [|? ? Ha HN']; subst. cbn [filter length]. destruct (Nat.eqb_spec a x) as [->|E]; cbn [negb].
    - rewrite Nat.sub_succ, Nat.sub_0_r. f_equal. clear IH HN Hx. induction l as [|b l IH]; [reflexivity|]. cbn [filter]. destruct (Nat.eqb_spec b x) as [->|E]; [destruct Ha; left; auto|]. cbn [negb]. f_equal.
      inversion HN'; subst. apply IH; auto. intros C. apply Ha. right; auto.
    - destruct Hx as [C|Hx]; [congruence|]. cbn [length]. rewrite IH by auto. destruct l; [destruct Hx|simpl; lia].
  Qed.
  Lemma ca_drop_trunc n swap J : 0 < n -> forall r fuel surv, NoDup surv -> below surv -> incl surv J -> length surv = n + r -> r <= fuel -> trunc r surv (ca_drop d niche fv dist pop fuel n swap J surv).
  Proof.
    intros Hn. induction r as [|r IH]; intros fuel surv HN HB HI HL HF.
    - destruct fuel as [|fuel]; cbn [ca_drop]; [constructor|]. destruct (Nat.ltb_spec n (length surv)); [lia|constructor].
    - destruct fuel as [|fuel]; [lia|]. cbn [ca_drop]. destruct (Nat.ltb_spec n (length surv)); [|lia]. destruct (worst_removes J surv (swap fuel) HB HI) as (x & E & HX); [intros C; subst surv; simpl in HL; lia|].
      rewrite E. apply trunc_step with x; auto. apply IH.
      + now apply NoDup_filter.
      + intros i Hi. apply filter_In in Hi. apply HB. tauto.
      + intros i Hi. apply filter_In in Hi. apply HI. tauto.
      + rewrite filter_neq by (auto; apply HX). lia.
      + lia.
  Qed.
  Lemma trunc_basic r surv out : trunc r surv out -> NoDup surv -> NoDup out /\ incl out surv /\ length out + r = length surv.
  Proof.
    induction 1 as [surv|r surv x out HX HT IH]; intros HN; [split; [auto|split; [apply incl_refl|lia]]|].
    destruct IH as (I1 & I2 & I3); [now apply NoDup_filter|]. split; auto. split; [intros i Hi; apply I2, filter_In in Hi; tauto|]. rewrite filter_neq in I3 by (auto; apply HX). assert (length surv <> 0) by (destruct HX as [HX _]; destruct surv; [destruct HX|simpl; lia]). lia.
  Qed.
  Definition even (J surv : list nat) : Prop := forall i k', In i J -> ~ In i surv -> length (crowd surv k') <= S (length (crowd surv (niche (ind i)))).
  Lemma crowd_remove surv x k : NoDup surv -> In x surv -> length (crowd (filter (fun i => negb (i =? x)) surv) k) = if niche (ind x) =? k then length (crowd surv k) - 1 else length (crowd surv k).
  Proof.
    intros HN Hx. assert (E : crowd (filter (fun i => negb (i =? x)) surv) k = filter (fun i => negb (i =? x)) (crowd surv k)).
    { unfold M_CTAEA.crowd. clear. induction surv as [|a l IH]; [reflexivity|]. cbn [filter]. destruct (negb (a =? x)) eqn:E1; destruct (niche (ind a) =? k) eqn:E2; cbn [filter]; rewrite ?E1, ?E2, IH; reflexivity. }
    rewrite E. destruct (Nat.eqb_spec (niche (ind x)) k) as [Ek|Ek].
    - apply filter_neq; [apply NoDup_filter, HN|apply crowd_In; auto].
    - f_equal. clear E. assert (Hn : forall y, In y (crowd surv k) -> negb (y =? x) = true) by (intros y Hy; apply crowd_In in Hy as [_ Hy]; destruct (Nat.eqb_spec y x); [congruence|reflexivity]).
      induction (crowd surv k) as [|y l IH]; [reflexivity|]. cbn [filter]. rewrite Hn by (left; auto). f_equal. apply IH. intros; apply Hn; right; auto.
  Qed.
  Lemma trunc_even J r surv out : trunc r surv out -> NoDup surv -> even J surv -> even J out.
  Proof.
    induction 1 as [surv|r surv x out HX HT IH]; intros HN HE; auto. apply IH; [now apply NoDup_filter|]. intros i k' Hi Hni. destruct HX as (Hx & HM & _). change (members d niche pop) with crowd in HM.
    rewrite !crowd_remove by auto.
    destruct (Nat.eqb_spec (niche (ind x)) (niche (ind i))) as [E|E].
    - specialize (HM k'). rewrite E in HM. destruct (niche (ind x) =? k'); lia.
    - assert (Hs : ~ In i surv). { intros C. apply Hni, filter_In. split; auto. destruct (Nat.eqb_spec i x); [congruence|reflexivity]. }
      specialize (HE i k' Hi Hs). destruct (niche (ind x) =? k'); lia.
  Qed.

  (** *** the archive *)
  Notation upd_ca n swap := (update_ca d obj cv niche fv dist nds asort pop n swap).
  Notation feasible i := (feqb (cv (ind i)) f_zero = true).
  Hypothesis Hnds : nds_ok m nds.
  Hypothesis Hnds2 : nds_ok 2 nds.
  Hypothesis Hasort : asort_ok asort.
  Let fe := where_ (fun i => feqb (cv (ind i)) f_zero) (length pop).
  Let infe := where_ (fun i => fltb f_zero (cv (ind i))) (length pop).
  Lemma fe_In i : In i fe <-> i < length pop /\ feasible i.
  Proof. unfold fe. rewrite In_where. tauto. Qed.
  Lemma infe_In i : In i infe <-> i < length pop /\ ~ feasible i.
  Proof.
    unfold infe. rewrite In_where. split; intros [H1 H2]; (split; [exact H1|]).
    - intros C. apply feq_le, fle_not_lt in C. congruence.
    - pose proof (Hpop i H1) as (_ & _ & H3 & _). rewrite fleb_lt_eq in H3. apply orb_true_iff in H3 as [H3|H3]; auto. rewrite feq_sym in H3. congruence.
  Qed.

  Lemma obj_rows l : below l -> rect m (map (fun i => obj (ind i)) l) /\ mat_ok (map (fun i => obj (ind i)) l).
  Proof. intros HB. split; apply Forall_forall; intros r Hr; apply in_map_iff in Hr as (i & <- & Hi); apply (Hpop i (HB i Hi)). Qed.
  Lemma fe_below : below fe.
  Proof. intros i Hi. now apply fe_In in Hi. Qed.
  Lemma infe_below : below infe.
  Proof. intros i Hi. now apply infe_In in Hi. Qed.
  (** the first front of a sorter *)
  Lemma first_front F n : F <> [] -> rect m F -> mat_ok F -> forall p, In p (nth 0 (nds F n) []) <-> p < length F /\ forall q, q < length F -> ~ row_dom F q p.
  Proof.
    intros H1 H2 H3 p. destruct (Hnds F n H1 H2 H3) as (full & HP & HS). destruct HS as (Hpre & Hne & _ & _).
    assert (E : nth 0 full [] = nth 0 (nds F n) []) by (apply prefix_nth; auto; destruct (nds F n); [congruence|simpl; lia]). rewrite <- E.
    destruct HP as (HPP & HPne & HPk). destruct full as [|f0 full]; [destruct Hpre as [r Er]; destruct (nds F n); [congruence|discriminate]|].
    rewrite (HPk 0 p) by (simpl; lia). assert (He : forall i, ~ in_earlier (f0 :: full) 0 i) by (intros i (k' & Hk & _); lia). split; [intros (A1 & _ & A2); split; auto|intros (A1 & A2); split; auto].
  Qed.
  Lemma front_of l n : l <> [] -> NoDup l -> below l -> forall i, In i (gather 0 l (nth 0 (nds (map (fun i => obj (ind i)) l) n) [])) <-> In i l /\ forall j, In j l -> ~ dominates (obj (ind j)) (obj (ind i)).
  Proof.
    intros Hne HN HB i. destruct (obj_rows l HB) as [HR HM]. rewrite In_gather.
    assert (HF : map (fun i => obj (ind i)) l <> []) by (destruct l; [congruence|discriminate]).
    assert (HD : forall p q, p < length l -> q < length l -> (row_dom (map (fun i => obj (ind i)) l) q p <-> dominates (obj (ind (nth q l 0))) (obj (ind (nth p l 0))))).
    { intros p q Hp Hq. unfold row_dom. rewrite !(nth_indep (map (fun i => obj (ind i)) l) [] (obj (ind 0))) by (now rewrite map_length). rewrite !(map_nth (fun i => obj (ind i)) l 0). tauto. }
    split.
    - intros (p & Hp & <-). apply (first_front _ n HF HR HM) in Hp as [Hp HQ]. rewrite map_length in *. split; [now apply nth_In|]. intros j Hj. apply (In_nth _ _ 0) in Hj as (q & Hq & <-). rewrite <- HD by auto. auto.
    - intros [Hi HQ]. apply (In_nth _ _ 0) in Hi as (p & Hp & <-). exists p. split; auto. apply (first_front _ n HF HR HM). rewrite map_length. split; auto. intros q Hq. rewrite HD by auto. apply HQ. now apply nth_In.
  Qed.

  (** positions selected from the infeasible individuals *)
  Let sub_F := map (fun i => [cv (ind i); fv (ind i)]) infe.
  Let cvs := map (fun i => cv (ind i)) infe.
  Let sel := fun (front : list nat) k => firstn k (gather 0 front (asort (gather f_nan cvs front))).
  Lemma sub_rows : rect 2 sub_F /\ mat_ok sub_F.
  Proof.
    split; apply Forall_forall; intros r Hr; apply in_map_iff in Hr as (i & <- & Hi); [reflexivity|]. pose proof (Hpop i (infe_below i Hi)) as (_ & _ & H3 & H4 & _).
    repeat constructor; auto. now apply fle_nonnan_r in H3.
  Qed.
  Lemma sel_perm front : Permutation (gather 0 front (asort (gather f_nan cvs front))) front.
  Proof. apply P_Survival.gather_perm. destruct (Hasort (gather f_nan cvs front)) as [H _]. now rewrite length_gather in H. Qed.
  Lemma sel_sel_ok : sel_ok sel (fun _ => True).
  Proof.
    intros front k _ Hk HN. unfold sel. pose proof (sel_perm front) as HP. split; [apply NoDup_firstn, (Permutation_NoDup (Permutation_sym HP)), HN|].
    split; [intros i Hi; apply firstn_In in Hi; now apply (Permutation_in _ HP)|]. rewrite firstn_length, (Permutation_length HP). lia.
  Qed.
  Lemma fill_ca_eq r out : forall s, fold_left (fill_ca asort cvs r) out s = fold_left (fill_step r sel) out s.
  Proof.
    induction out as [|f out IH]; intros s; [reflexivity|]. cbn [fold_left]. rewrite IH. f_equal. unfold fill_ca, fill_step, sel. destruct (Nat.leb_spec (length s + length f) r), (Nat.ltb_spec r (length s + length f)); try lia; reflexivity.
  Qed.
  Lemma ca_few_spec r : 0 < r <= length infe -> let l := ca_few d cv fv nds asort pop r infe in
    NoDup l /\ incl l infe /\ length l = r /\
    (forall i j, In i l -> In j infe -> ~ In j l -> ~ dominates [cv (ind j); fv (ind j)] [cv (ind i); fv (ind i)]).
  Proof.
    intros Hr l. unfold l, ca_few. cbv zeta. fold cvs sub_F. rewrite fill_ca_eq.
    destruct sub_rows as [HR HM]. assert (HL : length sub_F = length infe) by apply map_length. assert (HF : sub_F <> []) by (intros C; rewrite C in HL; simpl in HL; lia).
    destruct (Hnds2 sub_F r HF HR HM) as (full & HP & HS).
    destruct (fill_spec _ _ r sel full _ (fun _ => True) HP HS ltac:(lia) sel_sel_ok (fun _ _ => Logic.I)) as [HSel _].
    pose proof (fill_ranks _ _ r sel full _ (fun _ => True) HP HS ltac:(lia) sel_sel_ok (fun _ _ => Logic.I)) as HRk. cbv zeta in HRk. set (got := fold_left (fill_step r sel) (nds sub_F r) []) in *. destruct HSel as (S1 & S2 & S3).
    split; [apply NoDup_gather; auto; [apply NoDup_where|intros i Hi; rewrite <- HL; auto]|].
    split; [intros i Hi; apply In_gather in Hi as (p & Hp & <-); apply nth_In; rewrite <- HL; auto|]. split; [now rewrite length_gather|].
    intros i j Hi Hj Hnj HD. apply In_gather in Hi as (p & Hp & <-). apply (In_nth _ _ 0) in Hj as (q & Hq & <-).
    assert (Hnq : ~ In q got) by (intros C; apply Hnj, In_gather; eauto).
    assert (HDpq : row_dom sub_F q p).
    { unfold row_dom, sub_F. specialize (S2 p Hp). rewrite HL in S2. rewrite !(nth_indep (map _ infe) [] [cv (ind 0); fv (ind 0)]) by (now rewrite map_length). rewrite !(map_nth (fun i => [cv (ind i); fv (ind i)]) infe 0). exact HD. }
    destruct HP as (HPP & HPne & HPk).
    assert (HIn : forall t, t < length sub_F -> exists k, In t (nth k full [])).
    { intros t Ht. assert (HC : In t (concat full)) by (eapply Permutation_in; [apply Permutation_sym, HPP|apply in_seq; lia]). apply in_concat in HC as (f & Hf & Ht'). apply (In_nth _ _ []) in Hf as (k & _ & <-). eauto. }
    destruct (HIn p (S2 p Hp)) as (kp & Hkp). destruct (HIn q ltac:(lia)) as (kq & Hkq). destruct (HRk p q kp kq Hp Hnq Hkp Hkq) as [HK _].
    apply (HPk kp p (nth_In_lt _ _ _ Hkp)) in Hkp as (_ & _ & HX). apply (HX q ltac:(lia)); auto. intros (k' & Hk' & Hq').
    enough (k' = kq) by lia. eapply (concat_NoDup_nth full k' kq q); eauto. eapply Permutation_NoDup; [apply Permutation_sym, HPP|apply seq_NoDup].
  Qed.

  (** the candidates when there are too many feasible individuals *)
  Let J n := gather 0 fe (concat (nds (map (fun i => obj (ind i)) fe) n)).
  Lemma J_spec n : 0 < n <= length fe -> NoDup (J n) /\ (forall i, In i (J n) <-> candidate d obj pop fe n i) /\ incl (J n) fe /\ n <= length (J n).
  Proof.
    intros Hn. destruct (obj_rows fe fe_below) as [HR HM]. set (F := map (fun i => obj (ind i)) fe) in *. assert (HL : length F = length fe) by apply map_length.
    assert (HF : F <> []) by (intros C; rewrite C in HL; simpl in HL; lia). destruct (Hnds F n HF HR HM) as (full & HP & HS).
    pose proof HS as (Hpre & Hne & Hend & Hlt). pose proof (stopped_firstn _ _ _ HS) as Eo. unfold J. fold F. set (out := nds F n) in *.
    pose proof HP as (HPP & HPne & HPk). pose proof (perm_seq_NoDup _ _ HPP) as HND.
    assert (Hout : forall p, In p (concat out) -> p < length fe).
    { intros p Hp. rewrite <- HL. assert (In p (concat full)) by (destruct Hpre as [r ->]; rewrite concat_app; apply in_app_iff; auto). eapply Permutation_in in H; [|exact HPP]. apply in_seq in H. lia. }
    assert (HNo : NoDup (concat out)) by (destruct Hpre as [r E]; rewrite E, concat_app in HND; apply NoDup_app_iff in HND; tauto).
    split; [apply NoDup_gather; auto; apply NoDup_where|]. split; [|split].
    - intros i. rewrite In_gather. split.
      + intros (p & Hp & <-). apply in_concat in Hp as (f & Hf & Hp). apply (In_nth _ _ []) in Hf as (r & Hr & <-). exists full, r, p. rewrite <- HL. split; [exact HP|]. split; [rewrite (prefix_nth out full r Hpre Hr); exact Hp|]. split; auto.
        destruct r as [|r]; [cbn [firstn concat length]; lia|]. destruct Hpre as [rest ->]. rewrite firstn_app. replace (S r - length out) with 0 by lia. rewrite firstn_O, app_nil_r. apply Hlt. lia.
      + intros (full' & r & p & HP' & Hp & <- & Hc). exists p. split; auto.
        rewrite <- HL in HP'.
        assert (EF : length full' = length full /\ forall k, Permutation (nth k full' []) (nth k full [])) .
        { destruct (peeling_unique _ _ _ _ HP' HP) as [U1 U2]. split; auto. intros k. apply NoDup_Permutation; [apply NoDup_nth_concat, (perm_seq_NoDup _ _ (proj1 HP'))|apply NoDup_nth_concat, HND|apply U2]. }
        destruct EF as [EFl EF].
        assert (Hp' : In p (nth r full [])) by (eapply Permutation_in; [apply EF|exact Hp]).
        assert (Hc' : length (concat (firstn r full)) < n).
        { erewrite <- Permutation_length; [exact Hc|]. clear - EFl EF. revert full EFl EF. revert r. induction full' as [|a l IH]; intros r full EL E; destruct full as [|b full]; try discriminate; [reflexivity|]. destruct r; [reflexivity|]. cbn [firstn concat]. apply Permutation_app; [exact (E 0)|]. apply IH; [simpl in EL; lia|intros k; exact (E (S k))]. }
        destruct (le_lt_dec (length out) r) as [Hr|Hr].
        * exfalso. pose proof (nth_In_lt _ _ _ Hp') as Hrl. destruct Hend as [E|Hend]; [rewrite E in Hr; lia|].
          assert (HH : length (concat (firstn (length out) full)) <= length (concat (firstn r full))).
          { replace (firstn r full) with (firstn (length out) (firstn r full) ++ skipn (length out) (firstn r full)) by apply firstn_skipn. rewrite firstn_firstn, Nat.min_l by lia. rewrite concat_app, app_length. lia. }
          rewrite <- Eo in HH. lia.
        * apply in_concat. exists (nth r out []). split; [now apply nth_In|]. now rewrite <- (prefix_nth out full r Hpre Hr).
    - intros i Hi. apply In_gather in Hi as (p & Hp & <-). apply nth_In. auto.
    - rewrite length_gather. destruct Hend as [->|Hend]; auto. rewrite (Permutation_length HPP), seq_length. lia.
  Qed.
  (** the three cases *)
  Lemma ca_cases n swap : 0 < n <= length pop -> let ca := fst (upd_ca n swap) in
    (length fe <= n /\ exists l, ca = fe ++ l /\ NoDup l /\ incl l infe /\ length l = n - length fe /\ (forall i j, In i l -> In j infe -> ~ In j l -> ~ dominates [cv (ind j); fv (ind j)] [cv (ind i); fv (ind i)])) \/
    (n < length fe /\ trunc (length (J n) - n) (J n) ca).
  Proof.
    intros Hn. unfold update_ca. cbv zeta. fold fe infe. fold (J n). destruct (Nat.eqb_spec (length fe) n) as [E|E].
    - left. split; [lia|]. exists []. cbn [fst length]. rewrite app_nil_r. split; auto. split; [constructor|]. split; [apply incl_nil_l|]. split; [lia|]. intros i j [].
    - destruct (Nat.ltb_spec (length fe) n) as [L|L].
      + left. split; [lia|]. cbn [fst].
        assert (HT : length fe + length infe = length pop).
        { rewrite <- app_length. rewrite <- (seq_length (length pop) 0) at 1. apply Permutation_length, NoDup_Permutation; [|apply seq_NoDup|].
          - apply NoDup_app_iff. split; [apply NoDup_where|]. split; [apply NoDup_where|]. intros x H1 H2. apply fe_In in H1. apply infe_In in H2. tauto.
          - intros x. rewrite in_app_iff, in_seq, fe_In, infe_In. destruct (feqb (cv (ind x)) f_zero); intuition (try lia; try congruence). }
        destruct (ca_few_spec (n - length fe)) as (F1 & F2 & F3 & F4); [lia|]. eexists. split; [reflexivity|]. auto.
      + right. split; [lia|]. cbn [fst]. destruct (J_spec n ltac:(lia)) as (J1 & J2 & J3 & J4). destruct (Nat.ltb_spec n (length (J n))).
        * apply ca_drop_trunc; [lia|auto| |apply incl_refl|lia|lia]. intros i Hi. apply fe_below, J3, Hi.
        * replace (length (J n) - n) with 0 by lia. constructor.
  Qed.
End CA.

Section Thms.
  Context {A : Type} (d : A) (obj : A -> list flt) (cv : A -> flt) (niche : A -> nat) (fv : A -> flt) (dist : A -> A -> flt).
  Variables (nds : fltmat -> nat -> list (list nat)) (asort : list flt -> list nat) (pop : list A) (m n : nat) (swap : nat -> nat -> bool).
  Notation ind i := (nth i pop d).
  Notation feasible i := (feqb (cv (ind i)) f_zero = true).
  Notation ca := (fst (update_ca d obj cv niche fv dist nds asort pop n swap)).
  Notation opt := (snd (update_ca d obj cv niche fv dist nds asort pop n swap)).
  Notation feas := (filter (fun i => feqb (cv (ind i)) f_zero) (seq 0 (length pop))).

  (** C83: the convergence archive holds exactly n different individuals; an infeasible one only if no feasible one is left out, and no infeasible one left out is at least as good in violation and fitness and better in one *)
  Theorem C83_ca : (forall i, i < length pop -> ctaea_ind_ok m obj cv fv (ind i)) -> (forall a b, fltb (dist a b) f_inf = true) -> nds_ok m nds -> nds_ok 2 nds -> asort_ok asort -> 0 < n <= length pop ->
    S_Survival.selects (length pop) n ca /\
    (forall i j, In i ca -> j < length pop -> ~ In j ca -> feasible j -> feasible i) /\
    (forall i j, In i ca -> j < length pop -> ~ In j ca -> ~ feasible i -> ~ dominates [cv (ind j); fv (ind j)] [cv (ind i); fv (ind i)]).
  Proof.
    intros Hpop Hdist Hnds Hnds2 Has Hn. set (fe := where_ (fun i => feqb (cv (ind i)) f_zero) (length pop)).
    destruct (ca_cases d obj cv niche fv dist nds asort pop m Hpop Hdist Hnds Hnds2 Has n swap Hn) as [(L & l & E & F1 & F2 & F3 & F4)|(L & HT)]; fold fe in L.
    - fold fe in E. rewrite E. split; [split; [|split]|split].
      + apply NoDup_app_iff. split; [apply NoDup_where|]. split; auto. intros x H1 H2. apply F2 in H2. eapply infe_In in H2; eauto. apply In_where in H1. tauto.
      + intros i Hi. apply in_app_iff in Hi as [Hi|Hi]; [apply In_where in Hi; tauto|]. apply F2 in Hi. eapply infe_In in Hi; eauto. tauto.
      + rewrite app_length, F3. fold fe. lia.
      + intros i j _ Hj Hnj Hf. destruct Hnj. apply in_app_iff. left. apply In_where. auto.
      + intros i j Hi Hj Hnj Hf. apply F4.
        * apply in_app_iff in Hi as [Hi|Hi]; auto. apply In_where in Hi. tauto.
        * eapply infe_In; eauto. split; auto. intros C. apply Hnj, in_app_iff. left. apply In_where. auto.
        * intros C. apply Hnj, in_app_iff. auto.
    - destruct (J_spec d obj cv niche fv nds asort pop m Hpop Hnds n) as (J1 & J2 & J3 & J4); [fold fe; lia|].
      destruct (trunc_basic d niche fv dist pop _ _ _ HT J1) as (T1 & T2 & T3).
      assert (HI : forall i, In i ca -> i < length pop /\ feasible i) by (intros i Hi; apply T2, J3, In_where in Hi; auto).
      split; [split; [auto|split; [intros i Hi; apply HI, Hi|lia]]|]. split; [intros i j Hi _ _ _; apply HI, Hi|]. intros i j Hi _ _ Hf. destruct (Hf (proj2 (HI i Hi))).
  Qed.
  (** C83: with more than n feasible individuals, those of the fronts needed are the candidates; they are removed one by one, each from a most crowded niche, ... *)
  Theorem C83_truncation : (forall i, i < length pop -> ctaea_ind_ok m obj cv fv (ind i)) -> (forall a b, fltb (dist a b) f_inf = true) -> nds_ok m nds -> nds_ok 2 nds -> asort_ok asort -> 0 < n < length feas ->
    exists J, NoDup J /\ (forall i, In i J <-> candidate d obj pop feas n i) /\ trunc d niche fv dist pop (length J - n) J ca.
  Proof.
    intros Hpop Hdist Hnds Hnds2 Has Hn.
    assert (HL : length feas <= length pop) by (rewrite <- (seq_length (length pop) 0) at 2; apply filter_length_le).
    destruct (ca_cases d obj cv niche fv dist nds asort pop m Hpop Hdist Hnds Hnds2 Has n swap ltac:(lia)) as [(L & _)|(L & HT)]; [unfold where_ in L; lia|].
    destruct (J_spec d obj cv niche fv nds asort pop m Hpop Hnds n) as (J1 & J2 & J3 & J4); [unfold where_; lia|]. eexists. split; [exact J1|]. split; [exact J2|exact HT].
  Qed.
  (** ... so that a niche which lost a candidate has at most one member less than any other niche, ... *)
  Theorem C83_balanced : (forall i, i < length pop -> ctaea_ind_ok m obj cv fv (ind i)) -> (forall a b, fltb (dist a b) f_inf = true) -> nds_ok m nds -> nds_ok 2 nds -> asort_ok asort -> 0 < n < length feas ->
    forall i k', candidate d obj pop feas n i -> ~ In i ca -> in_niche d niche pop ca k' <= S (in_niche d niche pop ca (niche (ind i))).
  Proof.
    intros Hpop Hdist Hnds Hnds2 Has Hn i k' Hi Hni. destruct C83_truncation as (J & J1 & J2 & HT); auto.
    apply (trunc_even d niche fv dist pop J _ _ _ HT J1); [intros a b Ha Hb; contradiction|now apply J2|auto].
  Qed.
  (** ... and no occupied niche gets empty if there are at most n of them *)
  Theorem C83_niches : (forall i, i < length pop -> ctaea_ind_ok m obj cv fv (ind i)) -> (forall a b, fltb (dist a b) f_inf = true) -> nds_ok m nds -> nds_ok 2 nds -> asort_ok asort -> 0 < n < length feas ->
    forall niches, NoDup niches -> length niches <= n -> (forall i, candidate d obj pop feas n i -> In (niche (ind i)) niches) -> forall i, candidate d obj pop feas n i -> exists j, In j ca /\ niche (ind j) = niche (ind i).
  Proof.
    intros Hpop Hdist Hnds Hnds2 Has Hn niches HNi HLn HIn i Hi. destruct C83_truncation as (J & J1 & J2 & HT); auto.
    destruct (trunc_basic d niche fv dist pop _ _ _ HT J1) as (T1 & T2 & T3).
    assert (HL : length feas <= length pop) by (rewrite <- (seq_length (length pop) 0) at 2; apply filter_length_le).
    destruct C83_ca as ((_ & _ & HLen) & _); auto; [lia|]. set (c := ca) in *.
    destruct (Nat.eq_dec (in_niche d niche pop c (niche (ind i))) 0) as [E|E].
    - exfalso. assert (Hni : ~ In i c). { intros C. unfold in_niche in E. apply length_zero_iff_nil in E. assert (HC : In i (filter (fun j => niche (ind j) =? niche (ind i)) c)) by (apply filter_In; split; [auto|apply Nat.eqb_refl]). rewrite E in HC. destruct HC. }
      assert (HB : forall k', in_niche d niche pop c k' <= 1) by (intros k'; pose proof (C83_balanced Hpop Hdist Hnds Hnds2 Has Hn i k' Hi Hni) as HB; unfold c in *; lia).
      (* the niches of the members are pairwise different and avoid that of i *)
      assert (HND : NoDup (map (fun j => niche (ind j)) c)).
      { clear - T1 HB. induction c as [|a l IH]; [constructor|]. inversion T1 as [|? ? Ha T1']; subst. cbn [map]. constructor.
        - intros C. apply in_map_iff in C as (b & E & Hb). specialize (HB (niche (ind a))). unfold in_niche in HB. cbn [filter] in HB. rewrite Nat.eqb_refl in HB. cbn [length] in HB.
          assert (HC : In b (filter (fun j => niche (ind j) =? niche (ind a)) l)) by (apply filter_In; split; [auto|now apply Nat.eqb_eq]). destruct (filter _ l); [destruct HC|simpl in HB; lia].
        - apply IH; auto. intros k'. specialize (HB k'). unfold in_niche in *. cbn [filter] in HB. destruct (niche (ind a) =? k'); simpl in HB; lia. }
      assert (HLe : length (niche (ind i) :: map (fun j => niche (ind j)) c) <= length niches).
      { apply NoDup_incl_length.
        - constructor; auto. intros C. apply in_map_iff in C as (b & Eb & Hb). unfold in_niche in E. apply length_zero_iff_nil in E. assert (HC : In b (filter (fun j => niche (ind j) =? niche (ind i)) c)) by (apply filter_In; split; [auto|now apply Nat.eqb_eq]). rewrite E in HC. destruct HC.
        - intros k [<-|Hk]; [auto|]. apply in_map_iff in Hk as (b & <- & Hb). apply HIn, J2, T2, Hb. }
      cbn [length] in HLe. rewrite map_length in HLe. lia.
    - unfold in_niche in E. destruct (filter (fun j => niche (ind j) =? niche (ind i)) c) as [|j l] eqn:E'; [simpl in E; lia|]. exists j. assert (Hj : In j (j :: l)) by (left; auto). rewrite <- E' in Hj. apply filter_In in Hj as [Hj1 Hj2]. split; auto. now apply Nat.eqb_eq.
  Qed.
  (** C83: the individuals reported as best: with at most n feasible ones those of the archive which no member of the archive dominates - feasible or not; else those which no feasible individual dominates *)
  Theorem C83_opt : (forall i, i < length pop -> ctaea_ind_ok m obj cv fv (ind i)) -> (forall a b, fltb (dist a b) f_inf = true) -> nds_ok m nds -> nds_ok 2 nds -> asort_ok asort -> 0 < n <= length pop ->
    (length feas <= n -> forall i, In i opt <-> In i ca /\ forall j, In j ca -> ~ dominates (obj (ind j)) (obj (ind i))) /\
    (n < length feas -> forall i, In i opt <-> In i ca /\ forall j, j < length pop -> feasible j -> ~ dominates (obj (ind j)) (obj (ind i))).
  Proof.
    intros Hpop Hdist Hnds Hnds2 Has Hn. destruct (C83_ca Hpop Hdist Hnds Hnds2 Has Hn) as ((S1 & S2 & S3) & HF & _). change feas with (where_ (fun i => feqb (cv (ind i)) f_zero) (length pop)).
    assert (Hne : ca <> []) by (intros C; rewrite C in S3; simpl in S3; lia). revert S1 S2 S3 Hne.
    unfold update_ca. cbv zeta. set (fe := where_ (fun i => feqb (cv (ind i)) f_zero) (length pop)). intros S1 S2 S3 Hne. split; intros HL.
    - destruct (Nat.eqb_spec (length fe) n) as [E|E]; [cbn [fst snd] in *; apply (front_of d obj cv niche fv nds pop m Hpop Hnds); auto|].
      destruct (Nat.ltb_spec (length fe) n) as [L|L]; [|lia]. cbn [fst snd] in *. apply (front_of d obj cv niche fv nds pop m Hpop Hnds); auto.
    - destruct (Nat.eqb_spec (length fe) n) as [E|E]; [lia|]. destruct (Nat.ltb_spec (length fe) n) as [L|L]; [lia|]. cbn [fst snd] in *. intros i. rewrite filter_In.
      assert (Hfe : fe <> []) by (intros C; rewrite C in HL; simpl in HL; lia).
      rewrite existsb_exists. setoid_rewrite (front_of d obj cv niche fv nds pop m Hpop Hnds fe n Hfe (NoDup_where _ _) (fe_below d cv niche pop)). split.
      + intros (H1 & x & (H2 & H3) & H4). apply Nat.eqb_eq in H4. subst x. split; auto. intros j Hj Hf. apply H3. apply In_where. auto.
      + intros (H1 & H2). split; auto. exists i. split; [|apply Nat.eqb_refl]. split; [|intros j Hj; apply In_where in Hj; apply H2; tauto].
        assert (HJ : incl (fst (update_ca d obj cv niche fv dist nds asort pop n swap)) fe).
        { destruct (ca_cases d obj cv niche fv dist nds asort pop m Hpop Hdist Hnds Hnds2 Has n swap Hn) as [(L' & _)|(L' & HT)]; [fold fe in L'; lia|].
          destruct (J_spec d obj cv niche fv nds asort pop m Hpop Hnds n) as (J1 & J2 & J3 & J4); [fold fe; lia|]. destruct (trunc_basic d niche fv dist pop _ _ _ HT J1) as (T1 & T2 & T3). intros z Hz. apply J3, T2, Hz. }
        apply HJ. unfold update_ca. cbv zeta. fold fe. destruct (Nat.eqb_spec (length fe) n) as [E'|E']; [lia|]. destruct (Nat.ltb_spec (length fe) n) as [L'|L']; [lia|]. exact H1.
  Qed.
End Thms.
