(** * Specification vocabulary for reference directions (C46, C55). *)
From Coq Require Import List Arith ZArith QArith.
Import ListNotations.

(** a point of the unit simplex in [n] dimensions *)
Definition on_simplex (n : nat) (x : list Q) : Prop :=
  length x = n /\ Forall (fun v => 0 <= v /\ v <= 1)%Q x /\ (fold_right Qplus 0 x == 1)%Q.
(** ... whose coordinates are multiples of 1/p *)
Definition grid_point (n p : nat) (x : list Q) : Prop :=
  on_simplex n x /\ Forall (fun v => exists i : nat, v == inject_Z (Z.of_nat i) / inject_Z (Z.of_nat p))%Q x.
Definition same_point (x y : list Q) : Prop := Forall2 Qeq x y.
