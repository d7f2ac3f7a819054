(** * Model of the constrained DTLZ problems: /repo/pymoo/problems/many/cdtlz.py and dcdtlz.py, one row at a time, in exact
    real arithmetic. The reference directions are an argument (without them get_ref_dirs is asked, which raises for more
    than three objectives). *)
From Coq Require Import Reals List.
From Verif Require Import ListAux M_NSGA3R M_Bench M_DTLZ.
Import ListNotations.
Local Open Scope R_scope.

(** cdtlz.py lines 230-240, constraint_c1_linear: -(1 - f[-1] / 0.6 - sum(f[:-1] / 0.5)) *)
Definition constraint_c1_linear (f : list R) : R := - (1 - last f 0 / (6/10) - rsum (map (fun v => v / (5/10)) (removelast f))).
(** cdtlz.py lines 243-256, constraint_c1_spherical *)
Definition sum2 (f : list R) : R := rsum (map (fun v => v^2) f).
Definition constraint_c1_spherical (f : list R) (r : R) : R := - (sum2 f - 16) * (sum2 f - r^2).
(** cdtlz.py lines 259-281, constraint_c2: the running minimum starts at infinity, here None *)
Definition c2_term (f : list R) (r : R) (i : nat) : R := (nth i f 0 - 1)^2 + (sum2 f - (nth i f 0)^2) - r^2.
Definition min_inf (t : R) (v : option R) : option R := match v with None => Some t | Some u => Some (Rmin t u) end.
Definition constraint_c2 (f : list R) (r : R) : R :=
  let n_obj := length f in
  let v1 := fold_left (fun v i => min_inf (c2_term f r i) v) (seq 0 n_obj) None in
  let a := 1 / sqrt (INR n_obj) in
  let v2 := rsum (map (fun v => (v - a)^2) f) - r^2 in
  match v1 with None => v2 | Some u => Rmin u v2 end.
(** cdtlz.py lines 284-318, constraint_c3_linear and constraint_c3_spherical: one column per objective *)
Definition constraint_c3_linear (f : list R) : list R := map (fun i => 1 - nth i f 0 / (5/10) - (rsum f - nth i f 0)) (seq 0 (length f)).
Definition constraint_c3_spherical (f : list R) : list R := map (fun i => 1 - (nth i f 0)^2 / 4 - (sum2 f - (nth i f 0)^2)) (seq 0 (length f)).

(** cdtlz.py lines 9-47, C1DTLZ1: the objectives, constraint and front (those of DTLZ1) *)
Definition c1dtlz1_G (n_var n_obj : nat) (x : list R) : list R := [constraint_c1_linear (dtlz1 n_var n_obj x)].
(** cdtlz.py lines 50-99, C1DTLZ3: the default radius *)
Definition c1dtlz3_r (n_obj : nat) : R := if Nat.ltb n_obj 5 then 9 else if (Nat.leb 5 n_obj && Nat.leb n_obj 12)%bool then 125/10 else 15.
Definition c1dtlz3_G (n_var n_obj : nat) (r : R) (x : list R) : list R := [constraint_c1_spherical (dtlz3 n_var n_obj x) r].
(** cdtlz.py lines 102-154, C2DTLZ2: the default radius, the constraint and the filtered front *)
Definition c2dtlz2_r (n_obj : nat) : R := if Nat.eqb n_obj 2 then 2/10 else if Nat.eqb n_obj 3 then 4/10 else 5/10.
Definition c2dtlz2_G (n_obj : nat) (r : R) (x : list R) : list R := [constraint_c2 (dtlz2 n_obj x) r].
Definition c2dtlz2_front (r : R) (ref_dirs : list (list R)) : list (list R) :=
  filter (fun f => if Rle_dec (constraint_c2 f r) 0 then true else false) (generic_sphere ref_dirs).
(** cdtlz.py lines 157-180, C3DTLZ1: no front of its own *)
Definition c3dtlz1_G (n_var n_obj : nat) (x : list R) : list R := constraint_c3_linear (dtlz1 n_var n_obj x).
(** cdtlz.py lines 183-227, C3DTLZ4: DTLZ4 with its exponent (100 unless given); the front is scaled by a = sqrt(sum f^2 - 3/4 max f^2) *)
Definition c3dtlz4_G (n_obj alpha : nat) (x : list R) : list R := constraint_c3_spherical (dtlz4 n_obj alpha x).
Definition c3dtlz4_a (f : list R) : R := let q := map (fun v => v^2) f in sqrt (rsum q - 3/4 * fold_right Rmax (hd 0 q) (tl q)).
Definition c3dtlz4_front (ref_dirs : list (list R)) : list (list R) := map (fun f => map (fun v => v / c3dtlz4_a f) f) (generic_sphere ref_dirs).

(** dcdtlz.py lines 8-52, the constraints *)
Definition constraint_dc1 (x : list R) : R := 95/100 - cos (5 * PI * nth 0 x 0).
Definition constraints_dc2 (gx : R) : list R := [9/10 - cos (gx / 100 * PI * 3); 9/10 - exp (- gx / 100)].
Definition constraints_dc3 (x_ : list R) (gx : R) : list R := (5/10 - cos (5 * PI * gx)) :: map (fun v => 5/10 - cos (5 * PI * v)) x_.
(** dcdtlz.py lines 55-106, DC1DTLZ1, DC1DTLZ3: the objectives and fronts of DTLZ1 and DTLZ3 *)
Definition dc1_G (x : list R) : list R := [constraint_dc1 x].
(** dcdtlz.py lines 109-222, DC2DTLZ1, DC2DTLZ3, DC3DTLZ1, DC3DTLZ3: the same, and the constraints see g *)
Definition dc2_G (n_var n_obj : nat) (x : list R) : list R := constraints_dc2 (g1 (n_var + 1 - n_obj) (x_dist n_obj x)).
Definition dc3_G (n_var n_obj : nat) (x : list R) : list R := constraints_dc3 (x_dir n_obj x) (g1 (n_var + 1 - n_obj) (x_dist n_obj x)).
