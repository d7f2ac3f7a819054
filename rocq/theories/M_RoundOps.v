(** * Scaling a random number into a box in rounded arithmetic (binary64 with unbounded exponent range upwards):
    /repo/pymoo/operators/sampling/rnd.py:25-28 and 51-54 ([X = xl + (xu - xl) * X]).  Every operation rounds to nearest, ties to even. *)
From Coq Require Import Reals.
From Flocq Require Import Core.
Local Open Scope R_scope.

Definition fexp64 : Z -> Z := FLT_exp (-1074) 53.
Definition is_b64 (x : R) : Prop := generic_format radix2 fexp64 x.
Definition rnd64 (x : R) : R := round radix2 fexp64 ZnearestE x.
Definition sample64 (xl xu r : R) : R := rnd64 (xl + rnd64 (rnd64 (xu - xl) * r)).
