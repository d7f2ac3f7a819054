(** * Specification side of DIRECT: boxes *)
From Coq Require Import List Arith QArith.
Import ListNotations.
Local Open Scope Q_scope.

(** a box: centre, lower and upper corner *)
Definition box : Type := list Q * list Q * list Q.
Definition centre (b : box) := fst (fst b).
Definition low (b : box) := snd (fst b).
Definition high (b : box) := snd b.
Definition within (m : nat) (lo up p : list Q) : Prop := length p = m /\ forall j, (j < m)%nat -> nth j lo 0 <= nth j p 0 <= nth j up 0.
(** a box with positive sides inside [lo, up], and its centre *)
Definition good_box (m : nat) (lo up : list Q) (b : box) : Prop :=
  within m lo up (low b) /\ within m lo up (high b) /\ length (centre b) = m /\
  forall j, (j < m)%nat -> nth j (low b) 0 < nth j (high b) 0 /\ nth j (centre b) 0 == (nth j (low b) 0 + nth j (high b) 0) / 2.
(** no point is strictly inside both *)
Definition no_overlap (m : nat) (a b : box) : Prop :=
  forall p, ~ ((forall j, (j < m)%nat -> nth j (low a) 0 < nth j p 0 < nth j (high a) 0) /\ (forall j, (j < m)%nat -> nth j (low b) 0 < nth j p 0 < nth j (high b) 0)).
(** the boxes tile [lo, up] *)
Definition tiles (m : nat) (lo up : list Q) (bs : list box) : Prop :=
  Forall (good_box m lo up) bs /\
  (forall p, within m lo up p -> exists b, In b bs /\ within m (low b) (high b) p) /\
  (forall i j d, (i < j < length bs)%nat -> no_overlap m (nth i bs d) (nth j bs d)).
(** sides that are 3^-e of the domain, exponents differing by at most one *)
Definition cube_like (m : nat) (lo up : list Q) (b : box) : Prop :=
  exists e : nat -> nat, (forall i j, (i < m)%nat -> (j < m)%nat -> (e i <= e j + 1)%nat) /\
    forall j, (j < m)%nat -> (nth j (high b) 0 - nth j (low b) 0) * (3 ^ Z.of_nat (e j)) == nth j up 0 - nth j lo 0.
(** dominance of rows (smaller is better), and the set of non-dominated rows *)
Definition row_dominates (m : nat) (a b : list Q) : Prop := (forall j, (j < m)%nat -> nth j a 0 <= nth j b 0) /\ exists j, (j < m)%nat /\ nth j a 0 < nth j b 0.
Definition is_front (m : nat) (rows : list (list Q)) (J : list nat) : Prop :=
  NoDup J /\ forall i, In i J <-> (i < length rows)%nat /\ forall r, In r rows -> ~ row_dominates m r (nth i rows []).
