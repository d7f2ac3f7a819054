(** * Model of the univariate searches: /repo/pymoo/algorithms/base/bracket.py, /repo/pymoo/algorithms/soo/univariate/golden.py and quadr_interp.py.
    Exact real arithmetic; the objective is a function on the reals; an evaluated individual is a pair of X[0] and F[0]. *)
From Coq Require Import List Reals.
Import ListNotations.
Local Open Scope R_scope.

Record pt := { px : R; pf : R }.
Definition ev (f : R -> R) (x : R) : pt := {| px := x; pf := f x |}.

(** bracket.py:10-17 and 19-40: the values given to the constructor are overwritten in [_setup] by those given to setup(); missing ones are
    the bounds of the problem; None: an assertion fails *)
Definition bracket_ends (ctor_a ctor_b setup_a setup_b xl xu : option R) : option (R * R) :=
  let first (o p : option R) := match o with Some _ => o | None => p end in
  let a := setup_a in let b := setup_b in
  match first a xl, first b xu with
  | Some a, Some b => if Rle_dec a b then Some (a, b) else None
  | _, _ => None
  end.

(** ** golden.py *)
Definition quad := (pt * pt * pt * pt)%type.
Definition golden_ratio : R := (sqrt 5 - 1) / 2.
(** lines 14-29 *)
Definition golden_init (f : R -> R) (a b : R) : quad :=
  let r := golden_ratio in (ev f a, ev f (b - r * (b - a)), ev f (a + r * (b - a)), ev f b).
(** lines 31-62 *)
Definition golden_step (f : R -> R) (s : quad) : quad :=
  let '(a, c, d, b) := s in
  let r := golden_ratio in
  if Rlt_dec (pf c) (pf d) then
    let b := d in let d := c in
    let c := ev f (px b - r * (px b - px a)) in (a, c, d, b)
  else
    let a := c in let c := d in
    let d := ev f (px a + r * (px b - px a)) in (a, c, d, b).
Fixpoint golden_run (f : R -> R) (k : nat) (s : quad) : quad := match k with O => s | S k => golden_step f (golden_run f k s) end.

(** ** quadr_interp.py *)
(** lines 8-12 *)
Definition quadr_interp_equ (xa fa xb fb xc fc : R) : R :=
  let g1 := (fc - fa) / (xc - xa) in
  let g2 := ((fb - fc) / (xb - xc) - g1) * (xb - xa) in
  0.5 * ((xa - xb) - g1 / g2).
(** lines 33-43: the population a, b, c *)
Definition quadr_init (f : R -> R) (a b : R) : pt * pt * pt := (ev f a, ev f b, ev f ((b - a) / 2)).
(** lines 45-79 *)
Definition quadr_step (f : R -> R) (s : pt * pt * pt) : pt * pt * pt :=
  let '(a, b, c) := s in
  if (if Rle_dec (pf a) (pf c) then true else if Rle_dec (pf b) (pf c) then true else false) then
    let '(a, b) := if Rle_dec (pf a) (pf b) then (c, b) else (a, c) in
    (a, b, ev f ((px b - px a) / 2))
  else
    let d := ev f (quadr_interp_equ (px a) (pf a) (px b) (pf b) (px c) (pf c)) in
    let '(c, d) := if Rlt_dec (px d) (px c) then (d, c) else (c, d) in
    if Rle_dec (pf c) (pf d) then (a, d, c) else (c, b, d).
