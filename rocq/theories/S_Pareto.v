(** * Specification: Pareto dominance, constrained dominance, non-dominated peeling.
    Independent of the model. *)
From Coq Require Import List Arith Permutation.
From Verif Require Import Flt.
Import ListNotations.

(** [a] is no worse than [b] in every objective and better in one (minimisation). *)
Definition dominates (a b : list flt) : Prop :=
  Forall2 (fun x y => fleb x y = true) a b /\
  exists k x y, nth_error a k = Some x /\ nth_error b k = Some y /\ fltb x y = true.

(** less violation wins; on equal violation the objectives decide *)
Definition constr_dominates (cva : flt) (a : list flt) (cvb : flt) (b : list flt) : Prop :=
  fltb cva cvb = true \/ (feqb cva cvb = true /\ dominates a b).

(** row [i] of [F] dominates row [j] *)
Definition row_dom (F : list (list flt)) (i j : nat) : Prop := dominates (nth i F []) (nth j F []).

(** [i] was assigned to one of the first [k] fronts *)
Definition in_earlier (fronts : list (list nat)) (k i : nat) : Prop := exists k', k' < k /\ In i (nth k' fronts []).

(** The non-dominated peeling of the points [0..n-1]: every point occurs exactly once, no front is empty,
    and front [k] holds exactly the points which, after removal of the earlier fronts, are dominated by
    none of the points still there. *)
Definition is_peeling (n : nat) (dom : nat -> nat -> Prop) (fronts : list (list nat)) : Prop :=
  Permutation (concat fronts) (seq 0 n) /\
  (forall k, k < length fronts -> nth k fronts [] <> []) /\
  (forall k i, k < length fronts ->
     (In i (nth k fronts []) <->
      i < n /\ ~ in_earlier fronts k i /\
      forall j, j < n -> ~ in_earlier fronts k j -> ~ dom j i)).
