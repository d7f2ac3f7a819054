(** * The association of NSGA-III in exact real arithmetic: /repo/pymoo/algorithms/moo/nsga3.py:264-277 and
    /repo/pymoo/functions/standard/calc_perpendicular_distance.py:16-24.  (Rounding errors are not modelled.) *)
From Coq Require Import List Reals.
From Verif Require Import ListAux.
Import ListNotations.
Local Open Scope R_scope.

Definition rsum (l : list R) : R := fold_right Rplus 0 l.
Definition dot (u v : list R) : R := rsum (map2 Rmult u v).
(** np.linalg.norm *)
Definition norm (u : list R) : R := sqrt (rsum (map (fun x => x * x) u)).
(** calc_perpendicular_distance.py:19-23 for one point [v] and one direction [u] *)
Definition perp_distance (v u : list R) : R :=
  let norm_u := norm u in
  let scalar_proj := dot v u / norm_u in
  let proj := map (fun x => scalar_proj * x / norm_u) u in
  norm (map2 Rminus proj v).
(** nsga3.py:265-271 for one row of objectives *)
Definition normalise_row (eps : R) (ideal nadir f : list R) : list R :=
  let utopian := map (fun x => x - eps) ideal in
  let denom := map (fun d => if Req_EM_T d 0 then / 10 ^ 12 else d) (map2 Rminus nadir utopian) in
  map2 Rdiv (map2 Rminus f utopian) denom.
(** np.argmin *)
Fixpoint argminR_from (best : R) (bi i : nat) (l : list R) : nat :=
  match l with [] => bi | x :: l => if Rlt_dec x best then argminR_from x i (S i) l else argminR_from best bi (S i) l end.
Definition argminR (l : list R) : nat := match l with [] => 0%nat | x :: l => argminR_from x 0 1 l end.
(** nsga3.py:264-277 for one individual: its niche and the distance to it *)
Definition associate (eps : R) (dirs : list (list R)) (ideal nadir f : list R) : nat * R :=
  let row := map (perp_distance (normalise_row eps ideal nadir f)) dirs in
  (argminR row, nth (argminR row) row 0).
