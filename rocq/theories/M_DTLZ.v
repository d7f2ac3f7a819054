(** * Model of the DTLZ problems: /repo/pymoo/problems/many/dtlz.py, one row of x at a time, in exact real arithmetic.
    The fronts of DTLZ5-7 for three objectives are files (Remote) and are not modelled; DTLZ7's random draws and
    the reference directions are arguments (without reference directions get_ref_dirs raises for more than three objectives). *)
From Coq Require Import Reals List.
From Verif Require Import ListAux M_NSGA3R M_Bench M_ZDT.
Import ListNotations.
Local Open Scope R_scope.

(** lines 29-30: k = n_var - n_obj + 1; lines 44-53 (g1) and 55-64 (g2) of the last k variables *)
Definition g1 (k : nat) (xm : list R) : R := 100 * (INR k + rsum (map (fun v => (v - 1/2)^2 - cos (20 * PI * (v - 1/2))) xm)).
Definition g2 (xm : list R) : R := rsum (map (fun v => (v - 1/2)^2) xm).
(** the common shape of lines 80-92 and 130-139: for i = 0, ..., n_obj - 1: r * prod(c[: len - i]) and, for i > 0, times s[len - i] *)
Definition obj_rows (n_obj : nat) (r : R) (c s : list R) : list R :=
  map (fun i => let f := r * rprod (firstn (length c - i) c) in match i with O => f | _ => f * nth (length c - i) s 0 end) (seq 0 n_obj).
(** lines 66-92: obj_func, alpha a positive integer *)
Definition angle (alpha : nat) (v : R) : R := v ^ alpha * PI / 2.
Definition obj_func (n_obj alpha : nat) (x_ : list R) (g : R) : list R :=
  obj_rows n_obj (1 + g) (map (fun v => cos (angle alpha v)) x_) (map (fun v => sin (angle alpha v)) x_).
(** X_, X_M = x[:, : n_obj - 1], x[:, n_obj - 1 :] *)
Definition x_dir (n_obj : nat) (x : list R) : list R := firstn (n_obj - 1) x.
Definition x_dist (n_obj : nat) (x : list R) : list R := skipn (n_obj - 1) x.
(** DTLZ1, lines 120-152 *)
Definition dtlz1 (n_var n_obj : nat) (x : list R) : list R :=
  obj_rows n_obj (1/2 * (1 + g1 (n_var + 1 - n_obj) (x_dist n_obj x))) (x_dir n_obj x) (map (fun v => 1 - v) (x_dir n_obj x)).
Definition dtlz1_front (ref_dirs : list (list R)) : list (list R) := map (map (fun v => 1/2 * v)) ref_dirs.
(** DTLZ2-4 *)
Definition dtlz2 (n_obj : nat) (x : list R) : list R := obj_func n_obj 1 (x_dir n_obj x) (g2 (x_dist n_obj x)).
Definition dtlz3 (n_var n_obj : nat) (x : list R) : list R := obj_func n_obj 1 (x_dir n_obj x) (g1 (n_var + 1 - n_obj) (x_dist n_obj x)).
Definition dtlz4 (n_obj alpha : nat) (x : list R) : list R := obj_func n_obj alpha (x_dir n_obj x) (g2 (x_dist n_obj x)).
(** generic_sphere *)
Definition norm2 (v : list R) : R := sqrt (rsum (map (fun a => a^2) v)).
Definition generic_sphere (ref_dirs : list (list R)) : list (list R) := map (fun d => map (fun v => v / norm2 d) d) ref_dirs.
(** DTLZ5, DTLZ6: theta = 1 / (2 (1 + g)) (1 + 2 g X_), the first column replaced by x[:, 0] *)
Definition theta_ (g : R) (x_ : list R) : list R :=
  match x_ with [] => [] | a :: l => a :: map (fun v => 1 / (2 * (1 + g)) * (1 + 2 * g * v)) l end.
Definition dtlz5 (n_obj : nat) (x : list R) : list R := let g := g2 (x_dist n_obj x) in obj_func n_obj 1 (theta_ g (x_dir n_obj x)) g.
(** v ** 0.1 *)
Definition root10 (v : R) : R := if Req_EM_T v 0 then 0 else Rpower v (1/10).
Definition g6 (xm : list R) : R := rsum (map root10 xm).
Definition dtlz6 (n_obj : nat) (x : list R) : list R := let g := g6 (x_dist n_obj x) in obj_func n_obj 1 (theta_ g (x_dir n_obj x)) g.
(** the curve of DTLZ5 and DTLZ6 (n_obj <> 3) *)
Definition curve_point (n_obj : nat) (t : R) : list R :=
  let thetas := t :: repeat (PI / 4) (n_obj - 2) in
  map (fun i => let f := rprod (firstn (n_obj - 1 - i) (map cos thetas)) in match i with O => f | _ => f * nth (n_obj - 1 - i) (map sin thetas) 0 end) (seq 0 n_obj).
Definition dtlz5_front (n_obj n_points : nat) : list (list R) := map (curve_point n_obj) (linspace 0 (PI / 2) n_points).
(** DTLZ7: x[:, -k:] is the whole row for k = 0; the model takes k >= 1 *)
Definition dtlz7 (n_var n_obj : nat) (x : list R) : list R :=
  let k := (n_var + 1 - n_obj)%nat in
  let f := x_dir n_obj x in
  let g := 1 + 9 / INR k * rsum (skipn (length x - k) x) in
  let h := INR n_obj - rsum (map (fun v => v / (1 + g) * (1 + sin (3 * PI * v))) f) in
  f ++ [(1 + g) * h].
(** the front of DTLZ7 for n_obj <> 3; [draws] are the rows of the generator, numbers in [0, 1) *)
Definition dtlz7_front (n_obj : nat) (draws : list (list R)) : list (list R) :=
  map (fun d => d ++ [2 * INR n_obj - rsum (map (fun v => v * (1 + sin (3 * PI * v))) d)])
      (filter (fun d => if Rle_dec 0 (2 * INR n_obj - rsum (map (fun v => v * (1 + sin (3 * PI * v))) d)) then true else false) draws).
(** InvertedDTLZ1._evaluate *)
Definition inverted_dtlz1 (n_var n_obj : nat) (x : list R) : list R :=
  map (fun f => 1/2 * (1 + g1 (n_var + 1 - n_obj) (x_dist n_obj x)) - f) (dtlz1 n_var n_obj x).
(** ScaledProblem: objective i times scale_factor ** i *)
Definition scale_row (s : R) (f : list R) : list R := map2 Rmult f (map (fun i => s ^ i) (seq 0 (length f))).
Definition scaled (s : R) (F : list R -> list R) (x : list R) : list R := scale_row s (F x).
Definition scaled_front (s : R) (pf : list (list R)) : list (list R) := map (scale_row s) pf.
(** ConvexProblem: power 4, the last objective power 2 *)
Definition convex_row (f : list R) : list R := map (fun i => if Nat.eqb (S i) (length f) then (nth i f 0)^2 else (nth i f 0)^4) (seq 0 (length f)).
Definition convex (F : list R -> list R) (x : list R) : list R := convex_row (F x).
Definition convex_front (pf : list (list R)) : list (list R) := map convex_row pf.
