(** * Specification for parent selection (C29, C30). *)
From Coq Require Import List Arith.
From Verif Require Import Flt S_Pareto M_Selection.
Import ListNotations.

Definition infeasible (x : tind) : Prop := fltb f_zero (t_cv x) = true.
(** if one of the two is infeasible the smaller violation wins, otherwise [R] decides *)
Definition cv_first (R : tind -> tind -> Prop) (x y : tind) : Prop :=
  ((infeasible x \/ infeasible y) /\ fltb (t_cv x) (t_cv y) = true) \/ (~ infeasible x /\ ~ infeasible y /\ R x y).
(** [R], and [S] where [R] does not decide *)
Definition then_ (R S : tind -> tind -> Prop) (x y : tind) : Prop := R x y \/ (~ R x y /\ ~ R y x /\ S x y).
Definition less (f : tind -> flt) (x y : tind) : Prop := fltb (f x) (f y) = true.
Definition more (f : tind -> flt) (x y : tind) : Prop := fltb (f y) (f x) = true.
Definition dom (x y : tind) : Prop := dominates (t_F x) (t_F y).
Definition never (x y : tind) : Prop := False.
(** U-NSGA-III: only solutions of the same niche are compared, by rank, then by distance to the niche *)
Definition same_niche_better (x y : tind) : Prop :=
  t_niche x = t_niche y /\
  ((feqb (t_rank x) (t_rank y) = false /\ less t_rank x y) \/ (feqb (t_rank x) (t_rank y) = true /\ less t_dist x y)).
(** C-TAEA: a feasible solution beats an infeasible one; two feasible ones are compared by dominance *)
Definition ctaea_better (x y : tind) : Prop :=
  (fleb (t_cv x) f_zero = true /\ fleb (t_cv y) f_zero = false) \/
  (fleb (t_cv x) f_zero = true /\ fleb (t_cv y) f_zero = true /\ dom x y).

(** [t] implements the preference: it always returns a competitor, and one that is strictly preferred to the other wins *)
Definition implements (t : (nat -> tind) -> nat -> nat -> bool -> bool -> option nat) (better : tind -> tind -> Prop) (ok : tind -> tind -> Prop) : Prop :=
  forall pop a b c1 c2, ok (pop a) (pop b) ->
  exists w, t pop a b c1 c2 = Some w /\ (w = a \/ w = b) /\
    (better (pop a) (pop b) -> w = a) /\ (better (pop b) (pop a) -> w = b).
Definition any (x y : tind) : Prop := True.
(** objective vectors of the same length, without NaN *)
Definition comparable (x y : tind) : Prop :=
  length (t_F x) = length (t_F y) /\ Forall (fun v => isnan v = false) (t_F x) /\ Forall (fun v => isnan v = false) (t_F y).
