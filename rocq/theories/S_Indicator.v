(** * Specification side of the indicators *)
From Coq Require Import List Reals.
Import ListNotations.
Local Open Scope R_scope.

Definition weakly_better (m : nat) (a b : list R) : Prop := forall j, (j < m)%nat -> nth j a 0 <= nth j b 0.
Definition same_point (m : nat) (a b : list R) : Prop := forall j, (j < m)%nat -> nth j a 0 = nth j b 0.
(** a non-empty set of points with [m] coordinates *)
Definition points (m : nat) (X : list (list R)) : Prop := X <> [] /\ forall r, In r X -> length r = m.
(** the mean, over the elements of [X], of the smallest [d x y] with [y] in [Y] *)
Definition mean_of_smallest {A B} (d : A -> B -> R) (X : list A) (Y : list B) (v : R) : Prop :=
  exists l, Forall2 (fun x s => (exists y, In y Y /\ s = d x y) /\ forall y, In y Y -> s <= d x y) X l /\ v * INR (length X) = fold_right Rplus 0 l.
(** Euclidean distance of the differences [delta j / s j], j < m *)
Fixpoint sum_to (m : nat) (f : nat -> R) : R := match m with O => 0 | S m => sum_to m f + f m end.
Definition dist2 (m : nat) (s delta : nat -> R) : R := sqrt (sum_to m (fun j => (delta j / s j) ^ 2)).
