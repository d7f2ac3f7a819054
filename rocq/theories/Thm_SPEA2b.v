(** * C81, continued: with two objectives the truncation of SPEA2 keeps the boundary solutions *)
From Coq Require Import List Arith Bool ZArith QArith Lqa Lia Permutation.
From Verif Require Import Flt ListAux NpSort M_Dominator M_Survival M_SMS M_SPEA2 S_Pareto S_Survival S_SPEA2 Thm_SMS Thm_SPEA2.
Import ListNotations.
Local Open Scope nat_scope.

Lemma insert_le l : dsorted l -> forall x, (forall y, In y l -> dle x y) -> oinsert x l = x :: l.
Proof. intros _ x H. destruct l as [|y l]; cbn [oinsert]; auto. destruct (olt y x) eqn:E; auto. apply olt_iff in E. exfalso. apply E, H. cbn; auto. Qed.
Lemma insert_mono a : dsorted a -> forall b x y, dsorted b -> Forall2 dle a b -> dle x y -> Forall2 dle (oinsert x a) (oinsert y b).
Proof.
  induction 1 as [|u a Hu HS IH]; intros b x y Hb HF Hxy; inversion HF as [|? w ? b' Huw HF']; subst; cbn [oinsert]; [constructor; auto|].
  inversion Hb as [|? ? Hw Hb']; subst. destruct (olt u x) eqn:E1, (olt w y) eqn:E2.
  - constructor; auto.
  - apply olt_iff in E1. apply olt_false in E2. constructor; [destruct (dle_total u y); auto; exfalso; apply E1; eapply dle_trans; eauto|]. rewrite <- (insert_le b' Hb' w Hw). apply IH; auto. eapply dle_trans; eauto.
  - apply olt_false in E1. apply olt_iff in E2. constructor; [eapply dle_trans; eauto|]. rewrite <- (insert_le a HS u Hu). apply IH; auto. eapply dle_trans; [exact Huw|]. destruct (dle_total w y); [auto|contradiction].
  - constructor; auto.
Qed.
Lemma osort_mono a b : Forall2 dle a b -> Forall2 dle (osort a) (osort b).
Proof. induction 1 as [|x y a b Hxy H IH]; cbn [osort fold_right]; [constructor|]. apply insert_mono; auto; apply osort_sorted. Qed.
Definition osum (l : list (option Q)) : Q := fold_right (fun x s => ((match x with None => 0 | Some q => q end) + s)%Q) 0%Q l.
Lemma osum_perm a b : Permutation a b -> (osum a == osum b)%Q.
Proof. induction 1; cbn [osum fold_right] in *; unfold osum in *; lra. Qed.
Lemma osum_deq a b : Forall2 deq a b -> (osum a == osum b)%Q.
Proof. induction 1 as [|x y a b [H1 H2] H IH]; cbn [osum fold_right]; [reflexivity|]. fold (osum a) (osum b). destruct x, y; cbn in H1, H2; try contradiction; lra. Qed.
Lemma le_dlex a b : Forall2 dle a b -> ~ Forall2 deq a b -> dlex a b.
Proof.
  induction 1 as [|x y a b Hxy H IH]; intros HN; [exfalso; apply HN; constructor|]. destruct (dle_dec y x) as [L|L]; [|apply dlex_here; exact L].
  apply dlex_next; [split; auto|]. apply IH. intros C. apply HN. constructor; [split; auto|auto].
Qed.

Section Two.
  Variables (X : nat -> Q * Q) (dist : nat -> nat -> option Q).
  Hypothesis HE : euclidean X dist.
  Lemma dist_le i j k l : i <> j -> k <> l -> (d2 X i j <= d2 X k l)%Q -> dle (dist i j) (dist k l).
  Proof. intros H1 H2 H. destruct (HE i j k l H1 H2) as (d & d' & -> & -> & E). apply E, H. Qed.
  Lemma dist_lt i j k l : i <> j -> k <> l -> (d2 X i j < d2 X k l)%Q -> exists d d', dist i j = Some d /\ dist k l = Some d' /\ (d < d')%Q.
  Proof. intros H1 H2 H. destruct (HE k l i j H2 H1) as (d' & d & E1 & E2 & E). exists d, d'. repeat split; auto. destruct (Qlt_le_dec d d') as [|L]; auto. apply E in L. lra. Qed.
  Lemma d2_sym i j : (d2 X i j == d2 X j i)%Q.
  Proof. unfold d2. ring. Qed.
  (** the solution to be removed is not alone in being best in the first objective *)
  Lemma keep_first J : NoDup J -> mutually X J -> 3 <= length J -> let c := nth (candidate dist J) J 0 in exists s, In s J /\ s <> c /\ (fst (X s) <= fst (X c))%Q.
  Proof.
    intros HN HM HL c. assert (HJ : J <> []) by (intros ->; cbn in HL; lia). destruct (candidate_spec dist J HJ) as [Hk HC]. fold c in HC. assert (Hc : In c J) by (apply nth_In; auto).
    pose proof (delete_perm J (candidate dist J) 0 Hk) as HP. fold c in HP. set (J' := delete_at J (candidate dist J)) in *. assert (LJ : length J = S (length J')) by (rewrite (Permutation_length HP); reflexivity).
    assert (HNc : NoDup (c :: J')) by (apply (Permutation_NoDup HP HN)).
    (* the best of the others *)
    assert (Hmin : forall l : list nat, l <> [] -> exists x, In x l /\ forall y, In y l -> (fst (X x) <= fst (X y))%Q).
    { clear. induction l as [|a l IH]; [congruence|]. intros _. destruct l as [|b l]; [exists a; split; [cbn; auto|intros y [<-|[]]; lra]|]. destruct IH as (x & Hx & Hm); [discriminate|].
      destruct (Qlt_le_dec (fst (X a)) (fst (X x))) as [L|L]; [exists a; split; [cbn; auto|intros y [<-|Hy]; [lra|specialize (Hm y Hy); lra]]|exists x; split; [right; auto|intros y [<-|Hy]; auto]]. }
    destruct (Hmin J') as (x & Hx & Hxm); [intros E; rewrite E in LJ; cbn in LJ; lia|].
    assert (Hxc : x <> c) by (intros ->; inversion HNc; auto). assert (HxJ : In x J) by (eapply Permutation_in; [symmetry; exact HP|cbn; auto]).
    destruct (Qlt_le_dec (fst (X c)) (fst (X x))) as [L|L]; [|exists x; auto]. exfalso.
    apply in_split in Hx as (R1 & R2 & ER). set (R := R1 ++ R2). assert (HPx : Permutation J (c :: x :: R)) by (rewrite HP, ER; apply perm_skip; symmetry; apply Permutation_middle).
    assert (HNR : NoDup (c :: x :: R)) by (apply (Permutation_NoDup HPx HN)). assert (HRn : R <> []) by (intros E; apply Permutation_length in HPx; rewrite E in HPx; cbn in HPx; lia).
    assert (HR : forall y, In y R -> In y J /\ y <> c /\ y <> x /\ (fst (X x) <= fst (X y))%Q).
    { intros y Hy. assert (In y J') by (rewrite ER; apply in_app_or in Hy; apply in_or_app; cbn; tauto). inversion HNR as [|? ? N1 N2]; subst. inversion N2 as [|? ? N3 N4]; subst.
      split; [eapply Permutation_in; [symmetry; exact HP|cbn; auto]|]. split; [intros ->; apply N1; cbn; auto|]. split; [intros ->; auto|auto]. }
    (* distances to the others are smaller for x *)
    assert (Hd : forall y, In y R -> (d2 X x y < d2 X c y)%Q).
    { intros y Hy. destruct (HR y Hy) as (Hy1 & _ & _ & Hy2). destruct (HM x y HxJ Hy1 Hy2) as [B1 _]. destruct (HM c x Hc HxJ ltac:(lra)) as [_ B2]. specialize (B2 L). unfold d2.
      pose (a := (fst (X y) - fst (X x))%Q). pose (b := (fst (X x) - fst (X c))%Q). pose (p := (snd (X x) - snd (X y))%Q). pose (q := (snd (X c) - snd (X x))%Q).
      assert (Ha : (0 <= a)%Q) by (unfold a; lra). assert (Hb : (0 < b)%Q) by (unfold b; lra). assert (Hp : (0 <= p)%Q) by (unfold p; lra). assert (Hq : (0 < q)%Q) by (unfold q; lra).
      assert (E : ((fst (X c) - fst (X y)) * (fst (X c) - fst (X y)) + (snd (X c) - snd (X y)) * (snd (X c) - snd (X y)) == ((fst (X x) - fst (X y)) * (fst (X x) - fst (X y)) + (snd (X x) - snd (X y)) * (snd (X x) - snd (X y))) + (2 * (a * b) + b * b + 2 * (p * q) + q * q))%Q) by (unfold a, b, p, q; ring).
      rewrite E. assert (P1 : (0 <= a * b)%Q) by (apply Qmult_le_0_compat; lra). assert (P2 : (0 <= p * q)%Q) by (apply Qmult_le_0_compat; lra). assert (P3 : (0 < b * b)%Q) by (apply Qle_lt_trans with (0 * b)%Q; [lra|apply Qmult_lt_compat_r; auto]). assert (P4 : (0 <= q * q)%Q) by (apply Qmult_le_0_compat; lra). lra. }
    set (rx := dist x c :: None :: map (dist x) R). set (rc := dist c x :: None :: map (dist c) R).
    assert (E1 : forall z, ~ In z R -> map (fun j => if z =? j then None else dist z j) R = map (dist z) R) by (intros z Hz; apply map_ext_in; intros j Hj; destruct (Nat.eqb_spec z j); [subst; contradiction|auto]).
    inversion HNR as [|? ? N1 N2]; subst. inversion N2 as [|? ? N3 N4]; subst.
    assert (Dx : distances dist J x (osort rx)).
    { split; [|apply dsorted_nth, osort_sorted]. rewrite osort_perm, HPx. cbn [map]. rewrite Nat.eqb_refl. destruct (Nat.eqb_spec x c); [contradiction|]. rewrite E1 by auto. reflexivity. }
    assert (Dc : distances dist J c (osort rc)).
    { split; [|apply dsorted_nth, osort_sorted]. rewrite osort_perm, HPx. cbn [map]. rewrite Nat.eqb_refl. destruct (Nat.eqb_spec c x); [congruence|]. rewrite E1 by (intros C; apply N1; cbn; auto). apply perm_swap. }
    refine (HC x _ _ HxJ Dc Dx _). apply le_dlex.
    - apply osort_mono. unfold rx, rc. constructor; [apply dist_le; auto; rewrite d2_sym; lra|]. constructor; [exact Logic.I|]. clear - Hd HR HE. assert (G : forall l, incl l R -> Forall2 dle (map (dist x) l) (map (dist c) l)).
      { induction l as [|y l IH]; intros HI; cbn [map]; constructor; [|apply IH; intros z Hz; apply HI; cbn; auto]. destruct (HR y ltac:(apply HI; cbn; auto)) as (_ & A & B & _). apply dist_le; auto. apply Qlt_le_weak, Hd, HI. cbn; auto. }
      apply G, incl_refl.
    - intros C. apply osum_deq in C. rewrite (osum_perm _ _ (osort_perm rx)), (osum_perm _ _ (osort_perm rc)) in C. unfold rx, rc in C. cbn [osum fold_right] in C.
      assert (Exc : (match dist x c with None => 0 | Some q => q end == match dist c x with None => 0 | Some q => q end)%Q).
      { destruct (HE x c c x Hxc ltac:(auto)) as (e & e' & F1 & F2 & F3). destruct (HE c x x c ltac:(auto) Hxc) as (g & g' & G1 & G2 & G3).
        assert (L1 : (g <= g')%Q) by (apply G3; pose proof (d2_sym c x); lra). assert (L2 : (e <= e')%Q) by (apply F3; pose proof (d2_sym c x); lra).
        rewrite F2 in G1. rewrite F1 in G2. injection G1 as <-. injection G2 as <-. rewrite F1, F2. lra. }
      assert (SS : forall l, incl l R -> l <> [] -> (osum (map (dist x) l) < osum (map (dist c) l))%Q).
      { clear - Hd HR HE. induction l as [|y l IH]; intros HI HN; [congruence|]. destruct (HR y ltac:(apply HI; cbn; auto)) as (_ & A & B & _).
        destruct (dist_lt x y c y ltac:(auto) ltac:(auto)) as (d & d' & E1 & E2 & Hlt); [apply Hd, HI; cbn; auto|]. cbn [map osum fold_right]. fold (osum (map (dist x) l)) (osum (map (dist c) l)). rewrite E1, E2.
        destruct l as [|y' l']; [cbn [map osum fold_right]; lra|]. specialize (IH ltac:(intros z Hz; apply HI; cbn in *; auto) ltac:(discriminate)). lra. }
      specialize (SS R ltac:(apply incl_refl) HRn). fold (osum (map (dist x) R)) (osum (map (dist c) R)) in C. lra.
  Qed.
  Lemma spea_first r : forall J, NoDup J -> mutually X J -> r + 2 <= length J -> forall e, In e J -> exists s, In s (spea_drop dist r J) /\ (fst (X s) <= fst (X e))%Q.
  Proof.
    induction r as [|r IH]; intros J HN HM HL e He; cbn [spea_drop]; [exists e; split; auto; lra|].
    assert (HJ : J <> []) by (intros ->; cbn in HL; lia). destruct (candidate_spec dist J HJ) as [Hk _]. pose proof (delete_perm J (candidate dist J) 0 Hk) as HP.
    set (c := nth (candidate dist J) J 0) in *. set (J' := delete_at J (candidate dist J)) in *. assert (LJ : length J = S (length J')) by (rewrite (Permutation_length HP); reflexivity).
    pose proof (Permutation_NoDup HP HN) as HNc. inversion HNc as [|? ? N1 N2]; subst. assert (HI : forall y, In y J' -> In y J) by (intros y Hy; eapply Permutation_in; [symmetry; exact HP|cbn; auto]).
    assert (HM' : mutually X J') by (intros i j Hi Hj; apply HM; auto). destruct (keep_first J HN HM ltac:(lia)) as (s & Hs & Hsc & Hle). fold c in Hsc, Hle.
    assert (Hs' : In s J') by (apply (Permutation_in _ HP) in Hs as [E|E]; auto; congruence).
    apply (Permutation_in _ HP) in He as [<-|He].
    - destruct (IH J' N2 HM' ltac:(lia) s Hs') as (t & Ht & Hl). exists t. split; auto. lra.
    - apply IH; auto. lia.
  Qed.
End Two.
(** With two objectives the truncation never loses the best value of an objective *)
Theorem C81_boundary : forall X dist r J, euclidean X dist -> NoDup J -> mutually X J -> r + 2 <= length J -> forall e, In e J ->
  (exists s, In s (spea_drop dist r J) /\ (fst (X s) <= fst (X e))%Q) /\ (exists s, In s (spea_drop dist r J) /\ (snd (X s) <= snd (X e))%Q).
Proof.
  intros X dist r J HE HN HM HL e He. split; [now apply (spea_first X dist HE r J)|].
  destruct (spea_first (fun i => (snd (X i), fst (X i))) dist) with (r := r) (J := J) (e := e) as (s & H1 & H2); auto; [| |exists s; auto].
  - intros i j k l Hi Hk. destruct (HE i j k l Hi Hk) as (d & d' & E1 & E2 & E). exists d, d'. repeat split; auto; intros H; [apply E in H|apply E]; unfold d2 in *; cbn [fst snd] in *; lra.
  - intros i j Hi Hj H. cbn [fst snd] in *. split; [destruct (Qlt_le_dec (fst (X i)) (fst (X j))) as [L|L]; auto; destruct (HM i j Hi Hj ltac:(lra)) as [_ B]; specialize (B L); lra|].
    intros H'. destruct (Qlt_le_dec (fst (X j)) (fst (X i))) as [L|L]; auto. destruct (HM i j Hi Hj L) as [B _]. lra.
Qed.
(** ... with three objectives it can: here point 1 alone is best in the first objective, no point dominates another, and point 1 is removed *)
Definition pts3 : list (list Q) := [[2; 0; 3]; [1; 2; 2]; [3; 3; 0]]%Q.
Definition sq (a b : list Q) : Q := fold_right Qplus 0%Q (map2 (fun x y => ((x - y) * (x - y))%Q) a b).
Definition dist3 (i j : nat) : option Q := Some (sq (nth i pts3 []) (nth j pts3 [])).
Theorem C81_boundary_refuted : spea_drop dist3 1 [0; 1; 2] = [0; 2] /\ (forall i, i < 3 -> i <> 1 -> (nth 0 (nth 1 pts3 []) 0 < nth 0 (nth i pts3 []) 0)%Q) /\
  forall i j, i < 3 -> j < 3 -> i <> j -> exists k, k < 3 /\ (nth k (nth i pts3 []) 0 < nth k (nth j pts3 []) 0)%Q.
Proof.
  split; [vm_compute; reflexivity|]. split.
  - intros i Hi Hn. assert (E : i = 0 \/ i = 2) by lia. destruct E as [->| ->]; reflexivity.
  - intros i j Hi Hj Hn. destruct i as [|[|[|i]]], j as [|[|[|j]]]; try lia; try congruence.
    + exists 1; split; [lia|reflexivity]. + exists 0; split; [lia|reflexivity]. + exists 0; split; [lia|reflexivity]. + exists 0; split; [lia|reflexivity]. + exists 2; split; [lia|reflexivity]. + exists 2; split; [lia|reflexivity].
Qed.
(** the hypotheses of C81_boundary and of C81_selection are met *)
Definition X81 (i : nat) : Q * Q := nth i [(0, 4); (1, 3); (3, 1); (4, 0)]%Q (inject_Z (Z.of_nat i), 0%Q).
Example C81_boundary_meets : euclidean X81 (fun i j => Some (d2 X81 i j)) /\ mutually X81 [0; 1; 2; 3] /\ NoDup [0; 1; 2; 3] /\ spea_drop (fun i j => Some (d2 X81 i j)) 2 [0; 1; 2; 3] = [0; 3].
Proof.
  split; [intros i j k l _ _; exists (d2 X81 i j), (d2 X81 k l); repeat split; auto|]. split.
  - intros i j Hi Hj. cbn [In] in Hi, Hj. decompose [or] Hi; decompose [or] Hj; subst; try contradiction; unfold X81; cbn [nth fst snd]; intros H; (split; [lra|intros H'; lra]).
  - split; [repeat constructor; cbn; lia|vm_compute; reflexivity].
Qed.
Definition F81 : list (list flt) := map (map fz) [[0; 4]; [1; 3]; [3; 1]; [4; 0]; [4; 4]; [5; 5]; [2; 4]]%Z.
Definition dist81 (i j : nat) : option Q := Some (d2 (fun k => nth k [(0, 4); (1, 3); (3, 1); (4, 0); (4, 4); (5, 5); (2, 4)]%Q (0%Q, 0%Q)) i j).
Example C81_meets : rect 2 F81 /\ mat_ok F81 /\ (forall i j x, dist81 i j = Some x -> (0 <= x)%Q) /\ sort_ok (argsort qlt 0%Q) /\
  spea2_do dist81 (argsort qlt 0%Q) F81 6 = [0; 1; 2; 3; 6; 4] /\ spea2_do dist81 (argsort qlt 0%Q) F81 2 = [0; 3].
Proof.
  split; [repeat constructor|]. split; [repeat constructor|]. split; [|split; [|split; vm_compute; reflexivity]].
  - intros i j x [= <-]. unfold d2. match goal with |- (0 <= ?a * ?a + ?b * ?b)%Q => generalize a b end. intros a b. nra.
  - intros keys. apply argsort_is_argsort.
    + intros a b H. apply not_true_iff_false. intros H'. assert (E1 : ~ (b <= a)%Q) by (intros C; apply qlt_false in C; congruence). assert (E2 : ~ (a <= b)%Q) by (intros C; apply qlt_false in C; congruence). lra.
    + intros a b c _ _ _ H1 H2. apply qlt_false in H1, H2. apply qlt_false. lra.
Qed.
