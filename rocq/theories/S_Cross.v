(** * Specification vocabulary for crossovers *)
From Coq Require Import List Arith.
Import ListNotations.

(** two children of equal length carrying at every position the genes of the two parents, swapped exactly on [S] *)
Definition swapped {A} (d : A) (p0 p1 c0 c1 : list A) (S : nat -> Prop) : Prop :=
  length c0 = length p0 /\ length c1 = length p0 /\
  forall i, i < length p0 ->
    (S i -> nth i c0 d = nth i p1 d /\ nth i c1 d = nth i p0 d) /\
    (~ S i -> nth i c0 d = nth i p0 d /\ nth i c1 d = nth i p1 d).

(** counts of two values differ by at most one *)
Definition balanced (m : nat) (l : list nat) : Prop :=
  forall i j, i < m -> j < m -> count_occ Nat.eq_dec l i <= count_occ Nat.eq_dec l j + 1.
