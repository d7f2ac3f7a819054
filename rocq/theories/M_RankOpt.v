(** * Model of /repo/pymoo/algorithms/moo/nsga2.py:123-127 [NSGA2._set_optimum] (the same lines in age.py; used by NSGA-II, R-NSGA-II, NSDE, NSDE-R, Omni-optimizer)
      after a survival with ranks, for any subclass [_do] of [Survival]; [rank0] says which solutions it gave rank 0 to. *)
From Coq Require Import List Arith Bool.
From Verif Require Import Flt ListAux M_NDS M_Survival M_Optimum M_AGE.
Import ListNotations.
Local Open Scope nat_scope.

Section RankOpt.
  Context {A : Type}.
  Variables (d : A) (cv : A -> flt) (feas : A -> bool) (asort : list flt -> list nat).
  (** [_do] on a population, and the positions of the solutions it gave rank 0 to *)
  Variables (inner : list A -> nat -> list nat) (rank0 : list A -> nat -> nat -> bool).
  (** the attribute "rank" = 0 after [Survival.do]: with constraints [_do] only sees the feasible solutions; an infeasible one has no rank *)
  Definition attr_rank0 (hc : bool) (n : nat) (pop : list A) (i : nat) : bool :=
    if hc then
      let fe := fst (split_by_feasibility d cv feas asort pop) in
      feas (nth i pop d) && rank0 (gather d pop fe) (Nat.min (length fe) (Nat.min n (length pop))) (place i fe)
    else rank0 pop (Nat.min n (length pop)) i.
  (** nsga2.py:123-127: positions, in the merged population [pop], of the reported solutions *)
  Definition rank_optimum (hc : bool) (n : nat) (pop : list A) : list nat :=
    let S := survival_do d cv feas asort inner true hc (Some n) pop in
    if existsb (fun i => feas (nth i pop d)) S then filter (attr_rank0 hc n pop) S
    else [nth (np_argmin (map (fun i => cv (nth i pop d)) S)) S 0].
End RankOpt.

(** RankAndCrowding._do: rank attribute 0 *)
Definition rac_rank0 {A} (obj : A -> list flt) (dsort : list flt -> list nat) (nds : fltmat -> nat -> list (list nat)) (crowding : fltmat -> nat -> list flt) (pop : list A) (n i : nat) : bool :=
  match nth i (rs_rank (rac_do nds crowding dsort (map obj pop) n)) None with Some 0 => true | _ => false end.
