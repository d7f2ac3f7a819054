(** * Model of the WFG problems: /repo/pymoo/problems/many/wfg.py, one row of X at a time, in exact real arithmetic.  l = n_var - k (the default); arrays of one
    value per row are single reals here.  Powers have non-negative bases (0 to a positive power is 0).  The random draws are arguments. *)
From Coq Require Import Reals List Arith.
From Verif Require Import ListAux M_NSGA3R M_Bench M_RealOps M_DTLZ M_DF.
Import ListNotations.
Local Open Scope R_scope.

Record params := { n_obj : nat; n_var : nat; k_pos : nat }.
(** lines 44-46: the bounds of variable i (from 0) are 0 and 2 (i + 1); 51: S *)
Definition xu (i : nat) : R := 2 * INR (i + 1).
Definition S_ (m : nat) : list R := map (fun i => 2 * INR (i + 1)) (seq 0 m).
(** lines 65-83 and 216-225, 284-293, 678-688: the accepted parameters; [even] for WFG2 and WFG3.  The code also accepts l = 0 (a mean over no variable), excluded here. *)
Definition valid_params (even : bool) (p : params) : Prop :=
  (2 <= n_obj p)%nat /\ (k_pos p mod (n_obj p - 1) = 0)%nat /\ (4 <= k_pos p)%nat /\ (k_pos p < n_var p)%nat /\ (even = true -> Nat.even (n_var p - k_pos p) = true).
(** x[:, a:b] *)
Definition slice {A} (a b : nat) (x : list A) : list A := firstn (b - a) (skipn a x).
Definition mean (y : list R) : R := rsum y / INR (length y).

(** ** lines 691-703: values within 1e-10 of [0, 1] *)
Definition correct_to_01 (v : R) : R :=
  let eps := 1 / 10000000000 in
  let v := if Rlt_dec v 0 then (if Rle_dec (0 - eps) v then 0 else v) else v in
  if Rlt_dec 1 v then (if Rle_dec v (1 + eps) then 1 else v) else v.

(** ** transformations: lines 534-536 *)
Definition shift_linear (v shift : R) : R := correct_to_01 (Rabs (v - shift) / Rabs (floorR (shift - v) + shift)).
(** lines 539-544 and (the same formula) 577-582 *)
Definition deceptive (y A B C : R) : R :=
  let tmp1 := floorR (y - A + B) * (1 - C + (A - B) / B) / (A - B) in
  let tmp2 := floorR (A + B - y) * (1 - C + (1 - A - B) / B) / (1 - A - B) in
  correct_to_01 (1 + (Rabs (y - A) - B) * (tmp1 + tmp2 + 1 / B)).
(** lines 547-552 *)
Definition multi_modal (y A B C : R) : R :=
  let tmp1 := Rabs (y - C) / (2 * (floorR (C - y) + C)) in
  let tmp2 := (4 * A + 2) * PI * (0.5 - tmp1) in
  correct_to_01 ((1 + cos tmp2 + 4 * B * tmp1 ^ 2) / (B + 2)).
(** lines 555-562 *)
Definition bias_flat (y a b c : R) : R :=
  correct_to_01 (a + Rmin 0 (floorR (y - b)) * (a * (b - y) / b) - Rmin 0 (floorR (c - y)) * ((1 - a) * (y - c) / (1 - c))).
(** lines 565-567 *)
Definition bias_poly (y alpha : R) : R := correct_to_01 (np_power y alpha).
(** lines 570-574; the arguments given by WFG8 are the defaults *)
Definition dep_exponent (y_deg : R) : R :=
  let A := 0.98 / 49.98 in let B := 0.02 in let C := 50 in
  let aux := A - (1 - 2 * y_deg) * Rabs (floorR (0.5 - y_deg) + A) in B + (C - B) * aux.
Definition param_dependent (y y_deg : R) : R := correct_to_01 (np_power y (dep_exponent y_deg)).

(** ** reductions: lines 590-592, 595-597, 600-613 *)
Definition weighted_sum (y w : list R) : R := correct_to_01 (rsum (map2 Rmult y w) / rsum w).
Definition weighted_sum_uniform (y : list R) : R := correct_to_01 (mean y).
Definition non_sep (y : list R) (A : nat) : R :=
  let m := length y in
  let val := INR ((A + 1) / 2) in
  let num := rsum (map (fun j => nth j y 0 + rsum (map (fun k => Rabs (nth j y 0 - nth ((1 + j + k) mod m) y 0)) (seq 0 (A - 1)))) (seq 0 m)) in
  let denom := INR m * val * (1 + 2 * INR A - 2 * val) / INR A in
  correct_to_01 (num / denom).

(** ** shapes: lines 621-632, 634-645, 647-658; m from 1 *)
Definition shape (f g : R -> R) (x : list R) (m : nat) : R :=
  let M := length x in
  correct_to_01 (if (m =? 1)%nat then rprod (map f (firstn M x))
                 else if ((1 <? m) && (m <=? M))%nat%bool then rprod (map f (firstn (M - m + 1) x)) * g (nth (M - m + 1) x 0)
                 else g (nth 0 x 0)).
Definition shape_concave := shape (fun v => sin (0.5 * v * PI)) (fun v => cos (0.5 * v * PI)).
Definition shape_convex := shape (fun v => 1 - cos (0.5 * v * PI)) (fun v => 1 - sin (0.5 * v * PI)).
Definition shape_linear := shape (fun v => v) (fun v => 1 - v).
(** lines 660-664, 667-670 *)
Definition shape_mixed (x A alpha : R) : R := let aux := 2 * A * PI in correct_to_01 (np_power (1 - x - cos (aux * x + 0.5 * PI) / aux) alpha).
Definition shape_disconnected (x alpha beta A : R) : R := let aux := cos (A * PI * np_power x beta) in correct_to_01 (1 - np_power x alpha * aux ^ 2).

(** ** lines 85-91 [_post], 93-95 [_calculate] *)
Definition post (t a : list R) : list R :=
  let tM := last t 0 in map (fun i => Rmax tM (nth i a 0) * (nth i t 0 - 0.5) + 0.5) (seq 0 (length t - 1)) ++ [tM].
Definition calculate (x s h : list R) : list R := map2 (fun sm hm => last x 0 + sm * hm) s h.
(** x[:, i : (j * gap)] for the position groups, m from 1 to n_obj - 1 *)
Definition groups (p : params) (x : list R) : list (list R) :=
  let gap := (k_pos p / (n_obj p - 1))%nat in map (fun m => slice ((m - 1) * gap) (m * gap) x) (seq 1 (n_obj p - 1)).

(** ** WFG1: lines 161-164, 167-170, 173-176, 179-190 *)
Definition w1_t1 (k : nat) (x : list R) : list R := firstn k x ++ map (fun v => shift_linear v 0.35) (skipn k x).
Definition w1_t2 (k : nat) (x : list R) : list R := firstn k x ++ map (fun v => bias_flat v 0.8 0.75 0.85) (skipn k x).
Definition w1_t3 (x : list R) : list R := map (fun v => bias_poly v 0.02) x.
Definition w1_t4 (p : params) (x : list R) : list R :=
  let w := map (fun i => 2 * INR (i + 1)) (seq 0 (n_var p)) in
  map2 weighted_sum (groups p x) (groups p w) ++ [weighted_sum (skipn (k_pos p) x) (skipn (k_pos p) w)].
(** ** WFG2: lines 227-242, 244-253 *)
Definition w2_t2 (k : nat) (x : list R) : list R :=
  let ind := (k + (length x - k) / 2)%nat in
  firstn k x ++ map (fun i => non_sep (slice (k + 2 * (i - k) - 2) (k + 2 * (i - k)) x) 2) (seq (k + 1) (ind - k)).
Definition w2_t3 (p : params) (x : list R) : list R :=
  let ind := (k_pos p + (n_var p - k_pos p) / 2)%nat in
  map weighted_sum_uniform (groups p x) ++ [weighted_sum_uniform (slice (k_pos p) ind x)].
(** ** WFG4: lines 316-319, 321-327; WFG5: 349-352 *)
Definition w4_t1 (x : list R) : list R := map (fun v => multi_modal v 30 10 0.35) x.
Definition w4_t2 (p : params) (x : list R) : list R := map weighted_sum_uniform (groups p x) ++ [weighted_sum_uniform (skipn (k_pos p) x)].
Definition w5_t1 (x : list R) : list R := map (fun v => deceptive v 0.35 0.001 0.05) x.
(** ** WFG6: lines 374-380 (and WFG9.t3, 487-493) *)
Definition w6_t2 (p : params) (x : list R) : list R :=
  map (fun y => non_sep y (k_pos p / (n_obj p - 1))) (groups p x) ++ [non_sep (skipn (k_pos p) x) (n_var p - k_pos p)].
(** ** WFG7: lines 402-408 (the entries to the right of i are still unchanged at step i); WFG9.t1, lines 471-478, with n - 1 steps *)
Fixpoint w7_t1 (k : nat) (x : list R) : list R :=
  match k, x with S k, v :: r => param_dependent v (weighted_sum_uniform r) :: w7_t1 k r | _, _ => x end.
(** ** WFG8: lines 431-438, 443: the distance variables are replaced *)
Definition w8_t1 (k : nat) (x : list R) : list R :=
  firstn k x ++ map (fun i => param_dependent (nth i x 0) (weighted_sum_uniform (firstn i x))) (seq k (length x - k)).
(** ** WFG9: lines 480-485 *)
Definition w9_t2 (k : nat) (x : list R) : list R :=
  map (fun v => deceptive v 0.35 0.001 0.05) (firstn k x) ++ map (fun v => multi_modal v 30 95 0.35) (skipn k x).

Inductive wfg := W1 | W2 | W3 | W4 | W5 | W6 | W7 | W8 | W9.
(** line 52 and 282: A *)
Definition A_ (w : wfg) (m : nat) : list R := match w with W3 => 1 :: repeat 0 (m - 2) | _ => repeat 1 (m - 1) end.
(** the transformed vector of y = x / xu before _post: lines 194-198, 257-260, 297-300, 331-333, 356-358, 384-386, 412-415, 442-445, 497-500 *)
Definition transformed (w : wfg) (p : params) (y : list R) : list R :=
  let k := k_pos p in
  match w with
  | W1 => w1_t4 p (w1_t3 (w1_t2 k (w1_t1 k y)))
  | W2 | W3 => w2_t3 p (w2_t2 k (w1_t1 k y))
  | W4 => w4_t2 p (w4_t1 y)
  | W5 => w4_t2 p (w5_t1 y)
  | W6 => w6_t2 p (w1_t1 k y)
  | W7 => w4_t2 p (w1_t1 k (w7_t1 k y))
  | W8 => w4_t2 p (w1_t1 k (w8_t1 k y))
  | W9 => w6_t2 p (w9_t2 k (w7_t1 (n_var p - 1) y))
  end.
(** the shape vector: lines 202-203, 263-264, 303, 336, 361, 389, 418, 448, 502 *)
Definition shapes (w : wfg) (m : nat) (z : list R) : list R :=
  match w with
  | W1 => map (fun i => shape_convex z (i + 1)) (seq 0 (m - 1)) ++ [shape_mixed (nth 0 z 0) 5 1]
  | W2 => map (fun i => shape_convex z (i + 1)) (seq 0 (m - 1)) ++ [shape_disconnected (nth 0 z 0) 1 1 5]
  | W3 => map (fun i => shape_linear z (i + 1)) (seq 0 m)
  | _ => map (fun i => shape_concave z (i + 1)) (seq 0 m)
  end.
(** _evaluate; WFG9 does not call _post *)
Definition normalized (x : list R) : list R := map2 (fun i v => v / xu i) (seq 0 (length x)) x.
Definition after_post (w : wfg) (p : params) (y : list R) : list R :=
  let t := transformed w p y in match w with W9 => t | _ => post t (A_ w (n_obj p)) end.
Definition evaluate (w : wfg) (p : params) (x : list R) : list R :=
  let y := after_post w p (normalized x) in calculate y (S_ (n_obj p)) (shapes w (n_obj p) (removelast y)).

(** ** reported Pareto sets: lines 102-106 [_positional_to_optimal], 452-465 (WFG8), 506-520 (WFG9); K: the position parameters *)
Definition denormalized (y : list R) : list R := map2 (fun i v => v * xu i) (seq 0 (length y)) y.
Fixpoint w8_extend (l : nat) (K : list R) : list R :=
  match l with
  | O => K
  | S l => let u := rsum K / INR (length K) in
           let tmp1 := Rabs (floorR (0.5 - u) + 0.98 / 49.98) in
           let tmp2 := 0.02 + 49.98 * (0.98 / 49.98 - (1 - 2 * u) * tmp1) in
           w8_extend l (K ++ [np_power 0.35 (/ tmp2)])
  end.
(** from the last variable (0.35) to variable k; the entries to the right of i are final at step i *)
Fixpoint w9_suffix (l : nat) : list R :=
  match l with
  | O => []
  | S O => [0.35]
  | S l => let s := w9_suffix l in np_power 0.35 (/ (0.02 + 1.96 * (rsum s / INR (length s)))) :: s
  end.
Definition optimal_y (w : wfg) (p : params) (K : list R) : list R :=
  let l := (n_var p - k_pos p)%nat in
  match w with W8 => w8_extend l K | W9 => K ++ w9_suffix l | _ => K ++ repeat 0.35 l end.
Definition positional_to_optimal (w : wfg) (p : params) (K : list R) : list R := denormalized (optimal_y w p K).
(** lines 98-100, 207-210 *)
Definition rand_optimal_position (w : wfg) (draw : list R) : list R := match w with W1 => map (fun v => np_power v 50) draw | _ => draw end.
(** lines 108-113: all 0/1 vectors (the order is that of the subsets of positions set to 0; any order here) *)
Fixpoint bits (k : nat) : list (list R) := match k with O => [[]] | S k => map (cons 1) (bits k) ++ map (cons 0) (bits k) end.
(** lines 119-123: a negative number of interior points is a ValueError (None) *)
Definition pareto_set (w : wfg) (p : params) (n_points : nat) (draws : list (list R)) : option (list (list R)) :=
  let extremes := map (positional_to_optimal w p) (bits (k_pos p)) in
  if (n_points <? length extremes)%nat then None
  else Some (extremes ++ map (fun d => positional_to_optimal w p (rand_optimal_position w d)) (firstn (n_points - length extremes) draws)).
(** lines 125-155: [rounds]: for every iteration the draws and the rows kept; the final sorting is not modelled.  522-526: WFG9 *)
Definition front_rounds (w : wfg) (p : params) (rounds : list (list (list R) * list nat)) : list (list R) :=
  fold_left (fun pf r => gather [] (pf ++ map (fun d => evaluate w p (positional_to_optimal w p (rand_optimal_position w d))) (fst r)) (snd r))
            rounds (map (fun K => evaluate w p (positional_to_optimal w p K)) (bits (k_pos p))).
Definition w9_front (m : nat) (ref_dirs : list (list R)) : list (list R) := map (fun d => map2 Rmult d (S_ m)) (generic_sphere ref_dirs).
