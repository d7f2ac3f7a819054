(** * Specification of the crowding distance, independent of the model *)
From Coq Require Import List Arith QArith.
From Verif Require Import M_Crowding.
Import ListNotations.

Definition is_min_of (l : list Q) (x : Q) : Prop := In x l /\ forall y, In y l -> (x <= y)%Q.
Definition is_max_of (l : list Q) (x : Q) : Prop := In x l /\ forall y, In y l -> (y <= x)%Q.
(** the next smaller and next larger value among [l] *)
Definition pred_in (l : list Q) (v p : Q) : Prop := In p l /\ (p < v)%Q /\ forall y, In y l -> (y < v)%Q -> (y <= p)%Q.
Definition succ_in (l : list Q) (v s : Q) : Prop := In s l /\ (v < s)%Q /\ forall y, In y l -> (v < y)%Q -> (s <= y)%Q.
Definition distinct (l : list Q) : Prop := forall i j : nat, (i < length l)%nat -> (j < length l)%nat -> nth i l 0 == nth j l 0 -> i = j.
Definition xeq (a b : xq) : Prop := match a, b with Fin a, Fin b => a == b | PInf, PInf => True | _, _ => False end.
(** contribution of one objective with (all) values [l] to the point with value [v]: infinite at the extremes, else the gap between the neighbours
    relative to the range *)
Definition side (l : list Q) (v : Q) (c : xq) : Prop :=
  ((is_min_of l v \/ is_max_of l v) -> c = PInf) /\
  (~ is_min_of l v -> ~ is_max_of l v -> exists p s lo hi q, pred_in l v p /\ succ_in l v s /\ is_min_of l lo /\ is_max_of l hi /\ c = Fin q /\ q == (s - p) / (hi - lo)).
(** the mean of [m] contributions *)
Fixpoint total (c : list xq) : option Q := match c with [] => Some 0 | Fin q :: c => option_map (Qplus q) (total c) | PInf :: _ => None end.
Definition mean_of (c : list xq) (x : xq) : Prop := match total c with None => x = PInf | Some t => exists q, x = Fin q /\ q == t / inject_Z (Z.of_nat (length c)) end.
