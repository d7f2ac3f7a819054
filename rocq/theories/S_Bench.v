(** * Specification side of the benchmark problems: optima and Pareto fronts *)
From Coq Require Import Reals List.
Import ListNotations.
Local Open Scope R_scope.

(** all coordinates between the bounds *)
Definition in_box (box : R * R) (x : list R) : Prop := Forall (fun xi => fst box <= xi <= snd box) x.
(** [v] is the minimum of [f] over the points of dimension [n], and [s] (inside the box) is the only point of that value *)
Definition unique_minimum (n : nat) (box : R * R) (f : list R -> R) (v : R) (s : list R) : Prop :=
  length s = n /\ in_box box s /\ forall x, length x = n -> v <= f x /\ (f x = v <-> x = s).
(** [p] dominates [q] *)
Definition pareto_dom (p q : list R) : Prop :=
  length p = length q /\ (forall i, (i < length q)%nat -> nth i p 0 <= nth i q 0) /\ exists i, (i < length q)%nat /\ nth i p 0 < nth i q 0.
(** no admissible point has objective values that dominate [p] *)
Definition unbeaten (dom : list R -> Prop) (F : list R -> list R) (p : list R) : Prop := forall x, dom x -> ~ pareto_dom (F x) p.
Definition attained (dom : list R -> Prop) (F : list R -> list R) (p : list R) : Prop := exists x, dom x /\ F x = p.
(** a reported Pareto front: every point is the value of an admissible point and unbeaten *)
Definition front_ok (dom : list R -> Prop) (F : list R -> list R) (pf : list (list R)) : Prop :=
  forall p, In p pf -> attained dom F p /\ unbeaten dom F p.
(** [p] is at least as good as [q] in every objective *)
Definition weakly_dom (p q : list R) : Prop := length p = length q /\ forall i, (i < length q)%nat -> nth i p 0 <= nth i q 0.
(** points of dimension n in the box *)
Definition box_dom (n : nat) (box : R * R) (x : list R) : Prop := length x = n /\ in_box box x.
