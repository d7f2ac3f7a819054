(** * Specification vocabulary for optimum, result, archive, elitism (C39-C42). *)
From Coq Require Import List Arith Bool Permutation Relations.
From Verif Require Import Flt S_Pareto S_Survival.
Import ListNotations.

Section S.
  Context {A : Type}.
  Variables (obj : A -> list flt) (cv : A -> flt) (feas : A -> bool).
  (** feasible beats infeasible; among feasible ones Pareto dominance (for one objective: the smaller value); among infeasible ones
      the smaller violation *)
  Definition better_than (a b : A) : Prop :=
    (feas a = true /\ feas b = false) \/
    (feas a = true /\ feas b = true /\ dominates (obj a) (obj b)) \/
    (feas a = false /\ feas b = false /\ fltb (cv a) (cv b) = true).
  (** a member of the list beaten by no other member *)
  Definition best (l : list A) (x : A) : Prop := In x l /\ forall y, In y l -> ~ better_than y x.
  (** [m] objective values, none of them NaN, and a violation that is not NaN *)
  Definition ind_ok (m : nat) (a : A) : Prop := row_ok m (obj a) /\ isnan (cv a) = false.
End S.

(** contract of a truncation to [k]: it keeps exactly [k] of the given solutions *)
Definition trunc_ok {A} (trunc : list A -> nat -> list A) : Prop :=
  forall l k, k <= length l -> length (trunc l k) = k /\ exists rest, Permutation l (trunc l k ++ rest).
