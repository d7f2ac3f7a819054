(** * Model of the dynamic test problems DF1-DF14: /repo/pymoo/problems/dynamic/df.py, at the time [t] (self.time), in exact real arithmetic; one row of X at a
    time except for DF12, whose evaluation mixes the rows.  Powers have non-negative bases and positive exponents.  The fronts of DF9, DF12 and DF13 are thinned by get_PF
    (lines 436-450) to the non-dominated ones of the points listed here. *)
From Coq Require Import Reals List Arith.
From Verif Require Import ListAux M_NSGA3R M_RealOps M_ZDT.
Import ListNotations.
Local Open Scope R_scope.

(** np.floor; int() of a number that is not negative *)
Definition floorR (r : R) : R := IZR (Int_part r).
Definition floorN (r : R) : nat := Z.to_nat (Int_part r).
Definition square (v : R) : R := v ^ 2.
Definition x_ (i : nat) (x : list R) : R := nth i x 0.

(** ** bounds: lines 11-12 and the constructors: the first [k] variables in [l1, u1], the others in [l, u] *)
Definition df_dom (n k : nat) (l1 u1 l u : R) (x : list R) : Prop :=
  length x = n /\ (forall i, (i < n)%nat -> (i < k)%nat -> l1 <= x_ i x <= u1) /\ (forall i, (i < n)%nat -> (k <= i)%nat -> l <= x_ i x <= u).

(** lines 19-29, 31-36 *)
Definition df1_G (t : R) : R := Rabs (sin (0.5 * PI * t)).
Definition df1_H (t : R) : R := 0.75 * sin (0.5 * PI * t) + 1.25.
Definition df1 (t : R) (x : list R) : list R :=
  let g := 1 + rsum (map (fun v => square (v - df1_G t)) (skipn 1 x)) in
  [x_ 0 x; g * (1 - np_power (x_ 0 x / g) (df1_H t))].
Definition df1_front (t : R) (n : nat) : list (list R) := map (fun f => [f; 1 - np_power f (df1_H t)]) (linspace 0 1 n).
(** lines 40-53, 55-57 *)
Definition df2_r (t : R) (n : nat) : nat := floorN (INR (n - 1) * df1_G t).
Definition df2 (t : R) (n : nat) (x : list R) : list R :=
  let r := df2_r t n in
  let g := 1 + rsum (map (fun k => square (x_ k x - df1_G t)) (filter (fun k => negb (k =? r)%nat) (seq 0 n))) in
  [x_ r x; g * (1 - np_power (x_ r x / g) 0.5)].
Definition df2_front (n : nat) : list (list R) := map (fun f => [f; 1 - sqrt f]) (linspace 0 1 n).
(** lines 66-74, 76-85 *)
Definition df3_G (t : R) : R := sin (0.5 * PI * t).
Definition df3_H (t : R) : R := df3_G t + 1.5.
Definition df3 (t : R) (x : list R) : list R :=
  let g := 1 + rsum (map (fun v => square (v - df3_G t - np_power (x_ 0 x) (df3_H t))) (skipn 1 x)) in
  [x_ 0 x; g * (1 - np_power (x_ 0 x / g) (df3_H t))].
Definition df3_front (t : R) (n : nat) : list (list R) := map (fun s => [s; 1 * (1 - np_power (s / 1) (df3_H t))]) (linspace 0 1 n).
(** lines 94-108, 110-119 *)
Definition df4_a (t : R) : R := sin (0.5 * PI * t).
Definition df4_b (t : R) : R := 1 + Rabs (cos (0.5 * PI * t)).
Definition df4_H (t : R) : R := 1.5 + df4_a t.
Definition df4_c (t : R) : R := Rmax (Rabs (df4_a t)) (df4_a t + df4_b t).
Definition df4 (t : R) (n : nat) (x : list R) : list R :=
  let g := 1 + rsum (map (fun i => square (x_ i x - (df4_a t * square (x_ 0 x / df4_c t) / INR (i + 1)))) (seq 1 (n - 1))) in
  [g * np_power (Rabs (x_ 0 x - df4_a t)) (df4_H t); g * np_power (Rabs (x_ 0 x - df4_a t - df4_b t)) (df4_H t)].
Definition df4_front (t : R) (n : nat) : list (list R) :=
  map (fun s => [np_power (Rabs (s - df4_a t)) (df4_H t); np_power (Rabs (s - df4_a t - df4_b t)) (df4_H t)]) (linspace (df4_a t) (df4_a t + df4_b t) n).
(** lines 128-135, 137-143 *)
Definition df5_w (t : R) : R := floorR (10 * df3_G t).
Definition df5_h1 (t s : R) : R := s + 0.02 * sin (df5_w t * PI * s).
Definition df5_h2 (t s : R) : R := 1 - s + 0.02 * sin (df5_w t * PI * s).
Definition df5 (t : R) (x : list R) : list R :=
  let g := 1 + rsum (map (fun v => square (v - df3_G t)) (skipn 1 x)) in [g * df5_h1 t (x_ 0 x); g * df5_h2 t (x_ 0 x)].
Definition df5_front (t : R) (n : nat) : list (list R) := map (fun s => [df5_h1 t s; df5_h2 t s]) (linspace 0 1 n).
(** lines 152-161, 163-170 *)
Definition df6_a (t : R) : R := 0.2 + 2.8 * Rabs (df3_G t).
Definition wave (s : R) : R := s + 0.1 * sin (3 * PI * s).
Definition wave' (s : R) : R := 1 - s + 0.1 * sin (3 * PI * s).
Definition df6 (t : R) (x : list R) : list R :=
  let g := 1 + rsum (map (fun v => let y := v - df3_G t in Rabs (df3_G t) * square y - 10 * cos (2 * PI * y) + 10) (skipn 1 x)) in
  [g * np_power (wave (x_ 0 x)) (df6_a t); g * np_power (wave' (x_ 0 x)) (df6_a t)].
Definition df6_front (t : R) (n : nat) : list (list R) := map (fun s => [np_power (wave s) (df6_a t); np_power (wave' s) (df6_a t)]) (linspace 0 1 n).
(** lines 179-186, 188-194 (the order of the rows is left out) *)
Definition df7 (t : R) (x : list R) : list R :=
  let a := 5 * cos (0.5 * PI * t) in
  let g := 1 + rsum (map (fun v => square (v - 1 / (1 + exp (a * (x_ 0 x - 2.5))))) (skipn 1 x)) in
  [g * (1 + t) / x_ 0 x; g * x_ 0 x / (1 + t)].
Definition df7_front (t : R) (n : nat) : list (list R) := map (fun s => [(1 + t) / s; s / (1 + t)]) (linspace 1 4 n).
(** lines 203-212, 214-221 *)
Definition df8_a (t : R) : R := 2.25 + 2 * cos (2 * PI * t).
Definition df8 (t : R) (x : list R) : list R :=
  let G := df3_G t in
  let tmp := G * sin (4 * PI * x_ 0 x) / (1 + Rabs G) in
  let g := 1 + rsum (map (fun v => square (v - tmp)) (skipn 1 x)) in
  [g * wave (x_ 0 x); g * np_power (wave' (x_ 0 x)) (df8_a t)].
Definition df8_front (t : R) (n : nat) : list (list R) := map (fun s => [wave s; np_power (wave' s) (df8_a t)]) (linspace 0 1 n).
(** lines 230-240, 242-250 *)
Definition df9_N (t : R) : R := 1 + floorR (10 * Rabs (sin (0.5 * PI * t))).
Definition df9_m (t s : R) : R := Rmax 0 ((0.1 + 0.5 / df9_N t) * sin (2 * df9_N t * PI * s)).
Definition df9 (t : R) (n : nat) (x : list R) : list R :=
  let g := 1 + rsum (map (fun i => square (x_ i x - cos (4 * t + x_ 0 x + x_ (i - 1) x))) (seq 1 (n - 1))) in
  [g * (x_ 0 x + df9_m t (x_ 0 x)); g * (1 - x_ 0 x + df9_m t (x_ 0 x))].
Definition df9_curve (t s : R) : list R := [s + df9_m t s; 1 - s + df9_m t s].
(** lines 260-278, 280-289 *)
Definition df10_H (t : R) : R := 2.25 + 2 * cos (0.5 * PI * t).
Definition df10 (t : R) (x : list R) : list R :=
  let x0 := x_ 0 x in let x1 := x_ 1 x in
  let tmp := sin (4 * PI * (x0 + x1)) / (1 + Rabs (df3_G t)) in
  let g := 1 + rsum (map (fun v => square (v - tmp)) (skipn 2 x)) in
  [g * np_power (sin (0.5 * PI * x0)) (df10_H t); g * np_power (sin (0.5 * PI * x1) * cos (0.5 * PI * x0)) (df10_H t); g * np_power (cos (0.5 * PI * x1) * cos (0.5 * PI * x0)) (df10_H t)].
Definition df10_point (t a b : R) : list R :=
  [1 * np_power (sin (0.5 * PI * a)) (df10_H t); 1 * np_power (sin (0.5 * PI * b)) (df10_H t) * np_power (cos (0.5 * PI * a)) (df10_H t); 1 * np_power (cos (0.5 * PI * b)) (df10_H t) * np_power (cos (0.5 * PI * a)) (df10_H t)].
(** lines 297-306, 308-319 *)
Definition df11_y (t v : R) : R := PI * df1_G t / 6 + (PI / 2 - PI * df1_G t / 3) * v.
Definition df11 (t : R) (x : list R) : list R :=
  let g := 1 + df1_G t + rsum (map (fun v => square (v - 0.5 * df1_G t * x_ 0 x)) (skipn 2 x)) in
  let y0 := df11_y t (x_ 0 x) in let y1 := df11_y t (x_ 1 x) in
  [g * sin y0; g * sin y1 * cos y0; g * cos y1 * cos y0].
Definition df11_point (t a b : R) : list R :=
  [(1 + df1_G t) * sin (df11_y t a); (1 + df1_G t) * sin (df11_y t b) * cos (df11_y t a); (1 + df1_G t) * cos (df11_y t b) * cos (df11_y t a)].
(** lines 329-342: np.prod(tmp2) has no axis - one number for all the rows together *)
Definition df12_term (t v : R) : R := Rabs (sin (floorR (10 * sin (PI * t) * (2 * v - 1)) * PI / 2)).
Definition df12_row (t p : R) (x : list R) : list R :=
  let g := 1 + rsum (map (fun v => square (v - sin (t * x_ 0 x))) (skipn 2 x)) + p in
  [g * cos (0.5 * PI * x_ 1 x) * cos (0.5 * PI * x_ 0 x); g * sin (0.5 * PI * x_ 1 x) * cos (0.5 * PI * x_ 0 x); g * sin (0.5 * PI * x_ 0 x)].
Definition df12 (t : R) (X : list (list R)) : list (list R) :=
  let p := fold_right Rmult 1 (flat_map (fun x => [df12_term t (x_ 0 x); df12_term t (x_ 1 x)]) X) in map (df12_row t p) X.
(** lines 366-382, 384-399 *)
Definition df13_p (t : R) : R := floorR (6 * df3_G t).
Definition df13_f3 (t a b : R) : R :=
  sin (0.5 * PI * a) ^ 2 + sin (0.5 * PI * a) * cos (df13_p t * PI * a) ^ 2 + sin (0.5 * PI * b) ^ 2 + sin (0.5 * PI * b) * cos (df13_p t * PI * b) ^ 2.
Definition df13 (t : R) (x : list R) : list R :=
  let g := 1 + rsum (map (fun v => square (v - df3_G t)) (skipn 2 x)) in
  [g * cos (0.5 * PI * x_ 0 x) ^ 2; g * cos (0.5 * PI * x_ 1 x) ^ 2; g * df13_f3 t (x_ 0 x) (x_ 1 x)].
Definition df13_point (t a b : R) : list R := [cos (0.5 * PI * a) ^ 2; cos (0.5 * PI * b) ^ 2; df13_f3 t a b].
(** lines 409-422, 424-433 *)
Definition wave6 (s : R) : R := s + 0.05 * sin (6 * PI * s).
Definition wave6' (s : R) : R := 1 - s + 0.05 * sin (6 * PI * s).
Definition df14_y (t v : R) : R := 0.5 + df3_G t * (v - 0.5).
Definition df14 (t : R) (x : list R) : list R :=
  let g := 1 + rsum (map (fun v => square (v - df3_G t)) (skipn 2 x)) in
  let y := df14_y t (x_ 0 x) in
  [g * wave6' y; g * wave6' (x_ 1 x) * wave6 y; g * wave6 (x_ 1 x) * wave6 y].
Definition df14_point (t a b : R) : list R := let y := df14_y t a in [wave6' y; wave6' b * wave6 y; wave6 b * wave6 y].
