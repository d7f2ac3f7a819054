(** * Model of wolfe_line_search, /repo/pymoo/algorithms/soo/univariate/wolfe.py:101-161 (the class WolfeSearch, lines 12-98, is the same code on a
    LineSearchProblem).  Exact real arithmetic.  [phi a] is the objective at sol.X + a * direction, [dphi a] the product of its gradient
    with the direction (both at a = 0 for the starting point). *)
From Coq Require Import List Reals.
Local Open Scope R_scope.

Section Wolfe.
  Variables (phi dphi : R -> R) (c1 c2 : R).
  (** lines 110-129: the loop has no bound (max_iter is not used); None: it did not return within [fuel] rounds *)
  Fixpoint zoom (fuel : nat) (lo hi : R) : option R :=
    match fuel with
    | O => None
    | S fuel =>
        let a := (hi + lo) / 2 in
        if (if Rgt_dec (phi a) (phi 0 + c1 * a * dphi 0) then true else if Rgt_dec (phi a) (phi lo) then true else false)
        then zoom fuel lo a
        else if Rle_dec (Rabs (dphi a)) (- c2 * dphi 0) then Some a
        else let hi := if Rge_dec (dphi a * (hi - lo)) 0 then lo else hi in zoom fuel a hi
    end.
  (** what the caller gets: an evaluated point, a point that was not evaluated, or nothing within the fuel *)
  Inductive outcome := Evaluated (a : R) | NotEvaluated (a : R) | StillRunning.
  Definition zoomed (o : option R) : outcome := match o with Some a => Evaluated a | None => StillRunning end.
  (** lines 131-161; [n] iterations are left, [first]: i = 1 *)
  Fixpoint wolfe_go (fuel n : nat) (first : bool) (last cur : R) : outcome :=
    match n with
    | O => NotEvaluated cur
    | S n =>
        if (if Rgt_dec (phi cur) (phi 0 + c1 * dphi 0) then true else if first then false else if Rge_dec (phi last) (phi cur) then true else false)
        then zoomed (zoom fuel last cur)
        else if Rle_dec (Rabs (dphi cur)) (- c2 * dphi 0) then Evaluated cur
        else if Rge_dec (dphi cur) 0 then zoomed (zoom fuel cur last)
        else wolfe_go fuel n false cur (2 * cur)
    end.
  Definition wolfe_line_search (fuel max_iter : nat) : outcome := wolfe_go fuel max_iter true 0 1.
End Wolfe.
