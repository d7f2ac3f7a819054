(** * Model of benchmark problems with analytically reported optima: /repo/pymoo/problems/multi/{bnh,srn,sympart,omnitest,mw}.py and
    /repo/pymoo/problems/single/{cantilevered_beam,pressure_vessel}.py, one row at a time, in exact real arithmetic. *)
From Coq Require Import Reals List.
From Verif Require Import ListAux M_NSGA3R M_Bench M_ZDT M_DTLZ.
Import ListNotations.
Local Open Scope R_scope.

(** bnh.py, lines 15-38 *)
Definition at_ (i : nat) (x : list R) : R := nth i x 0.
Definition bnh (x : list R) : list R := let a := at_ 0 x in let b := at_ 1 x in [4 * a^2 + 4 * b^2; (a - 5)^2 + (b - 5)^2].
Definition bnh_g (x : list R) : list R := let a := at_ 0 x in let b := at_ 1 x in
  [1/25 * ((a - 5)^2 + b^2 - 25); -1 / (77/10) * ((a - 8)^2 + (b + 3)^2 - 77/10)].
Definition bnh_dom (x : list R) : Prop := length x = 2%nat /\ 0 <= at_ 0 x <= 5 /\ 0 <= at_ 1 x <= 3.
Definition bnh_set (n : nat) : list (list R) := map (fun t => [t; if Rle_dec 3 t then 3 else t]) (linspace 0 5 n).
Definition bnh_front (n : nat) : list (list R) := map bnh (bnh_set n).
(** srn.py *)
Definition srn (x : list R) : list R := let a := at_ 0 x in let b := at_ 1 x in [2 + (a - 2)^2 + (b - 1)^2; 9 * a - (b - 1)^2].
Definition srn_g (x : list R) : list R := let a := at_ 0 x in let b := at_ 1 x in [a^2 + b^2 - 225; a - 3 * b + 10].
Definition srn_set (n : nat) : list (list R) := map (fun t => [-5/2; t]) (linspace (5/2) (147902/10000) n).
Definition srn_front (n : nat) : list (list R) := map srn (srn_set n).
(** sympart.py: [ceil] is np.ceil, [sgn] is np.sign; w is the angle (0: not rotated) *)
Definition sgn (v : R) : R := if Rlt_dec v 0 then -1 else if Rlt_dec 0 v then 1 else 0.
Definition ceil (v : R) : R := - IZR (Int_part (- v)).
Definition tile (v : R) : R := sgn v * Rmin (Rabs v) 1.
Definition unrotate (w : R) (x : list R) : R * R :=
  if Req_EM_T w 0 then (at_ 0 x, at_ 1 x) else (cos w * at_ 0 x + sin w * at_ 1 x, - sin w * at_ 0 x + cos w * at_ 1 x).
Definition sympart (a b c w : R) (x : list R) : list R :=
  let X1 := fst (unrotate w x) in let X2 := snd (unrotate w x) in
  let t1 := tile (sgn X1 * ceil ((Rabs X1 - a - c / 2) / (2 * a + c))) in
  let t2 := tile (sgn X2 * ceil ((Rabs X2 - b / 2) / b)) in
  let p1 := X1 - t1 * c in let p2 := X2 - t2 * b in
  [(p1 + a)^2 + p2^2; (p1 - a)^2 + p2^2].
Definition sympart_box (b c : R) : R * R := (-10 * Rmax b c, 10 * Rmax b c).
Definition rotate2 (w : R) (x : list R) : list R :=
  if Req_EM_T w 0 then x else [cos w * at_ 0 x + - sin w * at_ 1 x; sin w * at_ 0 x + cos w * at_ 1 x].
Definition sympart_set (a b c w : R) (n : nat) : list (list R) :=
  map (rotate2 w) (flat_map (fun row => flat_map (fun col => map (fun t => [t; col * b]) (linspace (row * c - a) (row * c + a) (n / 9))) [1; 0; -1]) [-1; 0; 1]).
(** omnitest.py; the order of the 3^n combinations (meshgrid) is not modelled *)
Definition omni (x : list R) : list R := [rsum (map (fun v => sin (PI * v)) x); rsum (map (fun v => cos (PI * v)) x)].
Fixpoint combos (n : nat) : list (list nat) := match n with O => [[]] | S m => flat_map (fun c => map (fun i => i :: c) [0; 1; 2]%nat) (combos m) end.
Definition omni_set (n n_points : nat) : list (list R) :=
  let h := (n_points / 3 ^ n)%nat in
  let candidates := map (fun m => linspace (2 * INR m + 1) (2 * INR m + 3/2) h) (seq 0 3) in
  flat_map (fun c => map (fun j => map (fun m => nth j (nth m candidates []) 0) c) (seq 0 h)) (combos n).
(** mw.py: the distance functions; [numbered_from k l] pairs the entries of l with k, k + 1, ... *)
Definition numbered_from (k : nat) (l : list R) : list (R * R) := combine (map INR (seq k (length l))) l.
Definition mw_g1 (n_var n_obj : nat) (x : list R) : R :=
  1 + rsum (map (fun iv => let z := snd iv ^ (n_var - n_obj) in 1 - exp (-10 * (z - 1/2 - fst iv / (2 * INR n_var)) * (z - 1/2 - fst iv / (2 * INR n_var)))) (numbered_from (n_obj - 1) (x_dist n_obj x))).
Definition mw_g2 (n_var n_obj : nat) (x : list R) : R :=
  1 + rsum (map (fun iv => let z := 1 - exp (-10 * (snd iv - fst iv / INR n_var) * (snd iv - fst iv / INR n_var)) in
                           1/10 / INR n_var * z * z + 3/2 - 3/2 * cos (2 * PI * z)) (numbered_from (n_obj - 1) (x_dist n_obj x))).
Definition LA1 (A B : R) (D : nat) (t : R) : R := A * (sin (B * PI * t)) ^ D.
Definition mw1 (n_var : nat) (x : list R) : list R := let g := mw_g1 n_var 2 x in let f0 := at_ 0 x in [f0; g * (1 - 85/100 * f0 / g)].
Definition mw1_g (f : list R) : R := at_ 0 f + at_ 1 f - 1 - LA1 (1/2) 2 8 (sqrt 2 * at_ 1 f - sqrt 2 * at_ 0 f).
Definition mw1_front (f0s : list R) : list (list R) :=
  filter (fun f => if Rle_dec 0 (1 - at_ 0 f - at_ 1 f + 1/2 * (sin (2 * PI * (sqrt 2 * at_ 1 f - sqrt 2 * at_ 0 f)))^8) then true else false) (map (fun t => [t; 1 - 85/100 * t]) f0s).
Definition mw2 (n_var : nat) (x : list R) : list R := let g := mw_g2 n_var 2 x in let f0 := at_ 0 x in [f0; g * (1 - f0 / g)].
Definition mw2_g (f : list R) : R := at_ 0 f + at_ 1 f - 1 - LA1 (1/2) 3 8 (sqrt 2 * at_ 1 f - sqrt 2 * at_ 0 f).
Definition mw2_front (f0s : list R) : list (list R) := map (fun t => [t; 1 - t]) f0s.
(** MW4, MW8: the reversed slices and cumulative products are the rows of [obj_rows] *)
Definition mw4 (n_var n_obj : nat) (x : list R) : list R := obj_rows n_obj (mw_g1 n_var n_obj x) (map (fun v => 1 - v) (x_dir n_obj x)) (x_dir n_obj x).
Definition mw4_g (f : list R) : R := rsum f - 1 - LA1 (4/10) (5/2) 8 (last f 0 - rsum (removelast f)).
Definition mw4_front (dirs : list (list R)) : list (list R) :=
  filter (fun f => if Rle_dec 0 (1 + 4/10 * (sin (5/2 * PI * (last f 0 - rsum (removelast f))))^8 - rsum f) then true else false) dirs.
Definition mw8 (n_var n_obj : nat) (x : list R) : list R :=
  obj_rows n_obj (mw_g2 n_var n_obj x) (map (fun v => cos (1/2 * PI * v)) (x_dir n_obj x)) (map (fun v => sin (1/2 * PI * v)) (x_dir n_obj x)).
Definition sqsum (f : list R) : R := rsum (map (fun a => a^2) f).
Definition mw8_bound (s : R) : R := 5/4 - 1/2 * (sin (6 * asin s))^2.
Definition mw8_g (f : list R) : R := sqsum f - mw8_bound (last f 0 / sqrt (sqsum f)) * mw8_bound (last f 0 / sqrt (sqsum f)).
Definition mw8_front (dirs : list (list R)) : list (list R) :=
  filter (fun f => if Rle_dec 0 (mw8_bound (last f 0) ^ 2 - sqsum f) then true else false) (map (fun d => map (fun v => v / sqrt (sqsum d)) d) dirs).
(** cantilevered_beam.py, pressure_vessel.py: objective, constraints, reported optimum *)
Definition beam_I (b1 h1 b2 H : R) : R := 1/12 * b2 * (H - 2 * h1)^3 + 2 * (1/12 * b1 * h1^3 + b1 * h1 * (H - h1)^2 / 4).
Definition beam_f (b1 h1 b2 H : R) : R := (2 * h1 * b1 + (H - 2 * h1) * b2) * 36.
Definition beam_g1 (b1 h1 b2 H : R) : R := (1000 * 36 * H / (2 * beam_I b1 h1 b2 H) - 5000) / 5000.
Definition beam_g2 (b1 h1 b2 H : R) : R := (1000 * 36^3 / (3 * 10000000 * beam_I b1 h1 b2 H) - 1/10) / (1/10).
Definition beam_front : R := 927693/10000.
Definition beam_set : R * R * R * R := (94846/10000, 1/10, 1/10, 7).
Definition vessel_f (x1 x2 r L : R) : R := let d1 := x1 * (625/10000) in let d2 := x2 * (625/10000) in
  6224/10000 * d1 * r * L + 17781/10000 * d2 * r^2 + 31661/10000 * d1^2 * L + 1984/100 * d1^2 * r.
Definition vessel_g (x1 x2 r L : R) : list R := let d1 := x1 * (625/10000) in let d2 := x2 * (625/10000) in
  [(- d1 + 193/10000 * r) / 3; (- d2 + 954/100000 * r) / 3; (- PI * r^2 * L - 4 * PI / 3 * r^3 + 1296000) / 1296000; (L - 240) / 240].
Definition vessel_front : R := 58853/10.
Definition vessel_set : R * R * R * R := (13, 7, 420984456/10000000, 1766366/10000).
