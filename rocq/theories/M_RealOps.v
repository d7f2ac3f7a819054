(** * The arithmetic of SBX and polynomial mutation in exact real arithmetic (no rounding):
    /repo/pymoo/operators/crossover/sbx.py:47-75, /repo/pymoo/operators/mutation/pm.py:47-80.
    [np_power] is numpy's power on non-negative bases with positive or negative real exponent (0 for base 0). *)
From Coq Require Import Reals.
Local Open Scope R_scope.

Definition np_power (x y : R) : R := if Req_EM_T x 0 then 0 else Rpower x y.

Definition calc_betaq_R (rand eta beta : R) : R :=
  let alpha := 2 - np_power beta (- (eta + 1)) in
  if Rle_dec rand (1 / alpha) then np_power (rand * alpha) (1 / (eta + 1))
  else np_power (1 / (2 - rand * alpha)) (1 / (eta + 1)).
(** the two values c1 (next to the smaller parent) and c2 *)
Definition sbx_c1_R (y1 y2 xl eta rand : R) : R :=
  let delta := y2 - y1 in
  1 / 2 * ((y1 + y2) - calc_betaq_R rand eta (1 + 2 * (y1 - xl) / delta) * delta).
Definition sbx_c2_R (y1 y2 xu eta rand : R) : R :=
  let delta := y2 - y1 in
  1 / 2 * ((y1 + y2) + calc_betaq_R rand eta (1 + 2 * (xu - y2) / delta) * delta).

Definition mut_pm_R (x xl xu eta rand : R) : R :=
  let delta1 := (x - xl) / (xu - xl) in
  let delta2 := (xu - x) / (xu - xl) in
  let mut_pow := 1 / (eta + 1) in
  let deltaq :=
    if Rle_dec rand (1 / 2) then
      np_power (2 * rand + (1 - 2 * rand) * np_power (1 - delta1) (eta + 1)) mut_pow - 1
    else
      1 - np_power (2 * (1 - rand) + 2 * (rand - 1 / 2) * np_power (1 - delta2) (eta + 1)) mut_pow in
  x + deltaq * (xu - xl).
