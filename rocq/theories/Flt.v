(** * Floating point numbers as they occur in numpy arrays.

    A numpy [float64] is modelled by the standard library's IEEE-754 data type
    [SpecFloat.spec_float] (signed zeros, infinities, NaN, finite numbers), with the IEEE
    comparisons [SFltb], [SFleb], [SFeqb] (every comparison with NaN is false).
    Nothing is idealised here: all code in /repo that only compares floats is
    modelled exactly. *)
From Coq Require Import ZArith List Lia Bool.
From Coq Require Import Floats.SpecFloat.
Import ListNotations.

Definition flt : Type := spec_float.

Declare Scope flt_scope.
Delimit Scope flt_scope with flt.

Definition fltb (x y : flt) : bool := SFltb x y.
Definition fleb (x y : flt) : bool := SFleb x y.
Definition feqb (x y : flt) : bool := SFeqb x y.
Definition isnan (x : flt) : bool := match x with S754_nan => true | _ => false end.

Notation "x <? y" := (fltb x y) : flt_scope.
Notation "x <=? y" := (fleb x y) : flt_scope.
Notation "x =? y" := (feqb x y) : flt_scope.

Definition f_nan : flt := S754_nan.
Definition f_inf : flt := S754_infinity false.
Definition f_ninf : flt := S754_infinity true.
Definition f_zero : flt := S754_zero false.

(** An order-preserving integer key (used in proofs only). *)
Definition key (x : flt) : Z * Z * Z :=
  match x with
  | S754_nan => (0, 0, 0)%Z
  | S754_zero _ => (0, 0, 0)%Z
  | S754_infinity false => (2, 0, 0)%Z
  | S754_infinity true => (-2, 0, 0)%Z
  | S754_finite false m e => (1, e, Zpos m)%Z
  | S754_finite true m e => (-1, - e, Zneg m)%Z
  end.

Definition klt (a b : Z * Z * Z) : Prop :=
  let '(a1, a2, a3) := a in let '(b1, b2, b3) := b in
  (a1 < b1 \/ a1 = b1 /\ (a2 < b2 \/ a2 = b2 /\ a3 < b3))%Z.

Definition keq (a b : Z * Z * Z) : Prop :=
  let '(a1, a2, a3) := a in let '(b1, b2, b3) := b in
  (a1 = b1 /\ a2 = b2 /\ a3 = b3)%Z.

Lemma fltb_key x y :
  fltb x y = true <-> isnan x = false /\ isnan y = false /\ klt (key x) (key y).
Proof.
  unfold fltb, SFltb, SFcompare, klt, key.
  destruct x as [[]|[]| |[] m1 e1], y as [[]|[]| |[] m2 e2]; simpl;
    try (split; [discriminate | lia]); try (split; [lia | reflexivity]);
    try (split; [discriminate | intros (? & ? & ?); discriminate]).
  - destruct (Z.compare_spec e1 e2);
      [rewrite Pos.compare_cont_spec; destruct (Pos.compare_spec m1 m2) | |]; simpl;
      (split; [intros; try discriminate; lia | intros; try reflexivity; lia]).
  - destruct (Z.compare_spec e1 e2);
      [rewrite Pos.compare_cont_spec; destruct (Pos.compare_spec m1 m2) | |]; simpl;
      (split; [intros; try discriminate; lia | intros; try reflexivity; lia]).
Qed.

Lemma feqb_key x y :
  feqb x y = true <-> isnan x = false /\ isnan y = false /\ keq (key x) (key y).
Proof.
  unfold feqb, SFeqb, SFcompare, keq, key.
  destruct x as [[]|[]| |[] m1 e1], y as [[]|[]| |[] m2 e2]; simpl;
    try (split; [discriminate | lia]); try (split; [lia | reflexivity]);
    try (split; [discriminate | intros (? & ? & ?); discriminate]).
  - destruct (Z.compare_spec e1 e2);
      [rewrite Pos.compare_cont_spec; destruct (Pos.compare_spec m1 m2) | |]; simpl;
      (split; [intros; try discriminate; lia | intros; try reflexivity; lia]).
  - destruct (Z.compare_spec e1 e2);
      [rewrite Pos.compare_cont_spec; destruct (Pos.compare_spec m1 m2) | |]; simpl;
      (split; [intros; try discriminate; lia | intros; try reflexivity; lia]).
Qed.

Lemma fleb_lt_eq x y : fleb x y = fltb x y || feqb x y.
Proof. unfold fleb, fltb, feqb, SFleb, SFltb, SFeqb. now destruct (SFcompare x y) as [[]|]. Qed.

Lemma fleb_key x y :
  fleb x y = true <-> isnan x = false /\ isnan y = false /\ ~ klt (key y) (key x).
Proof.
  rewrite fleb_lt_eq, orb_true_iff, fltb_key, feqb_key.
  destruct (key x) as [[x1 x2] x3], (key y) as [[y1 y2] y3]; simpl.
  destruct (isnan x), (isnan y); simpl; try lia; intuition (try discriminate; try lia).
Qed.

(** Order facts.  The first block holds for all floats, NaN included. *)
Lemma flt_irrefl x : fltb x x = false.
Proof.
  destruct (fltb x x) eqn:E; [|reflexivity]. apply fltb_key in E.
  destruct (key x) as [[a b] c]; simpl in *; lia.
Qed.

Lemma flt_trans x y z : fltb x y = true -> fltb y z = true -> fltb x z = true.
Proof.
  rewrite !fltb_key. destruct (key x) as [[? ?] ?], (key y) as [[? ?] ?], (key z) as [[? ?] ?]; simpl.
  intuition lia.
Qed.

Lemma flt_asym x y : fltb x y = true -> fltb y x = false.
Proof.
  intros H. destruct (fltb y x) eqn:E; [|reflexivity].
  rewrite <- (flt_irrefl x). symmetry. eapply flt_trans; eauto.
Qed.

Lemma flt_le x y : fltb x y = true -> fleb x y = true.
Proof. intros H. now rewrite fleb_lt_eq, H. Qed.

Lemma fle_trans x y z : fleb x y = true -> fleb y z = true -> fleb x z = true.
Proof.
  rewrite !fleb_key. destruct (key x) as [[? ?] ?], (key y) as [[? ?] ?], (key z) as [[? ?] ?]; simpl.
  intuition lia.
Qed.

Lemma flt_le_trans x y z : fltb x y = true -> fleb y z = true -> fltb x z = true.
Proof.
  rewrite !fltb_key, !fleb_key. destruct (key x) as [[? ?] ?], (key y) as [[? ?] ?], (key z) as [[? ?] ?]; simpl.
  intuition lia.
Qed.

Lemma fle_lt_trans x y z : fleb x y = true -> fltb y z = true -> fltb x z = true.
Proof.
  rewrite !fltb_key, !fleb_key. destruct (key x) as [[? ?] ?], (key y) as [[? ?] ?], (key z) as [[? ?] ?]; simpl.
  intuition lia.
Qed.

Lemma fle_not_lt x y : fleb x y = true -> fltb y x = false.
Proof.
  intros H. destruct (fltb y x) eqn:E; [|reflexivity].
  rewrite fleb_key in H; rewrite fltb_key in E. tauto.
Qed.

Lemma fle_antisym x y : fleb x y = true -> fleb y x = true -> feqb x y = true.
Proof.
  rewrite !fleb_key, feqb_key. destruct (key x) as [[? ?] ?], (key y) as [[? ?] ?]; simpl.
  intuition lia.
Qed.

Lemma feq_sym x y : feqb x y = feqb y x.
Proof.
  apply eq_true_iff_eq. rewrite !feqb_key.
  destruct (key x) as [[? ?] ?], (key y) as [[? ?] ?]; simpl. intuition lia.
Qed.

Lemma feq_le x y : feqb x y = true -> fleb x y = true.
Proof. intros H. rewrite fleb_lt_eq, H. apply orb_true_r. Qed.

Lemma feq_trans x y z : feqb x y = true -> feqb y z = true -> feqb x z = true.
Proof.
  rewrite !feqb_key. destruct (key x) as [[? ?] ?], (key y) as [[? ?] ?], (key z) as [[? ?] ?]; simpl.
  intuition lia.
Qed.

Lemma flt_nonnan_l x y : fltb x y = true -> isnan x = false.
Proof. rewrite fltb_key. tauto. Qed.
Lemma flt_nonnan_r x y : fltb x y = true -> isnan y = false.
Proof. rewrite fltb_key. tauto. Qed.
Lemma fle_nonnan_l x y : fleb x y = true -> isnan x = false.
Proof. rewrite fleb_key. tauto. Qed.
Lemma fle_nonnan_r x y : fleb x y = true -> isnan y = false.
Proof. rewrite fleb_key. tauto. Qed.

(** The second block needs the absence of NaN. *)
Lemma fle_refl x : isnan x = false -> fleb x x = true.
Proof. rewrite fleb_key. destruct (key x) as [[? ?] ?]; simpl. intuition lia. Qed.

Lemma feq_refl x : isnan x = false -> feqb x x = true.
Proof. rewrite feqb_key. destruct (key x) as [[? ?] ?]; simpl. intuition lia. Qed.

Lemma nlt_le x y : isnan x = false -> isnan y = false -> fltb x y = false -> fleb y x = true.
Proof.
  intros Hx Hy H. apply not_true_iff_false in H. rewrite fltb_key in H. rewrite fleb_key. tauto.
Qed.

Lemma fle_iff_nlt x y : isnan x = false -> isnan y = false -> fleb x y = negb (fltb y x).
Proof.
  intros Hx Hy. destruct (fltb y x) eqn:E; simpl.
  - destruct (fleb x y) eqn:E2; [|reflexivity]. apply fle_not_lt in E2. congruence.
  - now apply nlt_le.
Qed.

Lemma flt_total x y : isnan x = false -> isnan y = false ->
  fltb x y = true \/ feqb x y = true \/ fltb y x = true.
Proof.
  intros Hx Hy. rewrite !fltb_key, feqb_key.
  destruct (key x) as [[a b] c], (key y) as [[a' b'] c']; simpl.
  assert (H : ((a < a' \/ a = a' /\ (b < b' \/ b = b' /\ c < c')) \/ (a = a' /\ b = b' /\ c = c')
           \/ (a' < a \/ a' = a /\ (b' < b \/ b' = b /\ c' < c)))%Z) by lia.
  tauto.
Qed.

(** No NaN in a vector / matrix. *)
Definition vec_ok (v : list flt) : Prop := Forall (fun x => isnan x = false) v.
Definition mat_ok (F : list (list flt)) : Prop := Forall vec_ok F.
(** all rows have length [m] *)
Definition rect (m : nat) (F : list (list flt)) : Prop := Forall (fun r => length r = m) F.

(** small exactly representable integers, for examples *)
Definition fz (z : Z) : flt :=
  match z with
  | Z0 => S754_zero false
  | Zpos p => binary_normalize 53 1024 (Zpos p) 0 false
  | Zneg p => binary_normalize 53 1024 (Zneg p) 0 true
  end.
