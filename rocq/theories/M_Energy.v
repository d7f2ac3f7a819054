(** * Model of /repo/pymoo/util/ref_dirs/energy.py [RieszEnergyReferenceDirectionFactory._step/_solve], ref_dirs/optimizer.py [Adam] and
    ref_dirs/misc.py (projections) over the real numbers: no rounding *)
From Coq Require Import List Arith Bool Reals.
From Verif Require Import ListAux M_NSGA3R.
Import ListNotations.
Local Open Scope R_scope.

(** the arrays X, optimizer.m_t and optimizer.v_t have the same shape (the scalars 0 at the start are broadcast): they are kept as one array of
    cells; the mask [freeze] is kept with the rows *)
Record cell := { c_x : R; c_m : R; c_v : R }.
Record row := { frozen : bool; cells : list cell }.
Definition coords (r : row) : list R := map c_x (cells r).
Definition points (X : list row) : list (list R) := map coords X.
Definition make_row (f : bool) (x : list R) : row := {| frozen := f; cells := map (fun v => {| c_x := v; c_m := 0; c_v := 0 |}) x |}.
Definition fresh (r : row) : row := make_row (frozen r) (coords r).
Definition set_x (c : cell) (v : R) : cell := {| c_x := v; c_m := c_m c; c_v := c_v c |}.
Definition with_coords (r : row) (x : list R) : row := {| frozen := frozen r; cells := map2 set_x (cells r) x |}.

(** ** energy.py:292-321 [calc_potential_energy_with_grad]; [d] a natural number (the default is 2 * n_dim) *)
Definition eps_dist (d : nat) : R := Rpower 10 (-320 / (INR d + 2)).
Definition dist (d : nat) (a b : list R) : R := let D := norm (map2 Rminus a b) in if Rlt_dec D (eps_dist d) then eps_dist d else D.
(** the sum over the pairs i < j *)
Fixpoint energy_sum (d : nat) (X : list (list R)) : R :=
  match X with [] => 0 | a :: X => rsum (map (fun b => 1 / dist d a b ^ d) X) + energy_sum d X end.
Fixpoint n_pairs (n : nat) : nat := match n with O => O | S n => n + n_pairs n end.
Definition log_energy (d : nat) (X : list (list R)) : R := - ln (INR (n_pairs (length X))) + ln (energy_sum d X).
(** the row of the gradient that belongs to the point [a] of [X].  The distance of a point to itself is infinite in the code and its term is 0 / inf = 0;
    here the term is 0 / eps ^ (d + 2) = 0 *)
Definition gradient (d : nat) (X : list (list R)) (a : list R) : list R :=
  map (fun k => rsum (map (fun b => (- INR d * (nth k a 0 - nth k b 0)) / dist d a b ^ (d + 2)) X) / energy_sum d X) (seq 0 (length a)).

(** ** misc.py:47-57 [project_onto_sum_equals_zero_plane], 34-44 [project_onto_sum_equals_one_plane]: n / |n| occurs twice, the root cancels *)
Definition project_zero (y : list R) : list R := map (fun v => v - rsum y / INR (length y)) y.
(** misc.py:96-122 [project_onto_unit_simplex_recursive] for one row; None: np.eye(0)[0] raises *)
Definition negative (x : list R) : bool := existsb (fun v => if Rlt_dec v 0 then true else false) x.
Definition clip (x : list R) : list R := map (fun v => if Rlt_dec v 0 then 0 else v) x.
Definition positive (v : R) : bool := if Rlt_dec 0 v then true else false.
Definition simplex_step (x : list R) : option (list R) :=
  let x := clip x in
  match filter positive x with
  | [] => None
  | sub => Some (map (fun v => if positive v then v - (rsum sub - 1) / INR (length sub) else v) x)
  end.
Fixpoint simplex_loop (fuel : nat) (x : list R) : option (list R) :=
  match fuel with
  | O => None
  | S fuel => match simplex_step x with None => None | Some x => if negative x then simplex_loop fuel x else Some x end
  end.
Definition project_simplex_row (x : list R) : option (list R) := if negative x then simplex_loop (S (length x)) x else Some x.

(** ** optimizer.py:107-132 [Adam._next] for one cell; [t] already increased; beta_1 = 0.9, beta_2 = 0.999, epsilon = 1e-8 *)
Definition adam_cell (alpha : R) (t : nat) (c : cell) (g : R) : cell :=
  let m := 9 / 10 * c_m c + (1 - 9 / 10) * g in
  let v := 999 / 1000 * c_v c + (1 - 999 / 1000) * (g * g) in
  {| c_x := c_x c - (alpha * (m / (1 - (9 / 10) ^ t))) / (sqrt (v / (1 - (999 / 1000) ^ t)) + 1 / 100000000); c_m := m; c_v := v |}.
Definition adam_row (alpha : R) (t : nat) (g : list R) (r : row) : row := {| frozen := frozen r; cells := map2 (adam_cell alpha t) (cells r) g |}.

Fixpoint all_rows (l : list (option row)) : option (list row) :=
  match l with [] => Some [] | Some r :: l => match all_rows l with None => None | Some l => Some (r :: l) end | None :: _ => None end.
Definition max_list (l : list R) (low : R) : R := fold_right Rmax low l.

(** the parameters of the factory, energy.py:20-59 *)
Record opts := { n_max_iter : nat; n_max_not_improved : nat; norm_gradients : bool; precision : R; restarts : bool; o_d : nat }.
Section Solve.
  Variable o : opts.
  (** energy.py:61-96 [_step]: the rows after the step (the objective value is [log_energy] of the rows before it) *)
  Definition row_gradient (X : list row) (r : row) : list R :=
    project_zero (let g := gradient (o_d o) (points X) (coords r) in if frozen r then map (fun _ => 0) g else g).
  Definition divisor (X : list row) : R := if norm_gradients o then max_list (map (fun r => norm (row_gradient X r)) X) (/ 10 ^ 24) else 1.
  Definition finish_row (r : row) : option row :=
    match (if frozen r then Some (coords r) else project_simplex_row (coords r)) with
    | None => None
    | Some x => Some (with_coords r (map (fun v => v / rsum x) x))
    end.
  Definition step (alpha : R) (t : nat) (X : list row) : option (list row) :=
    all_rows (map (fun r => finish_row (adam_row alpha t (map (fun g => g / divisor X) (row_gradient X r)) r)) X).
  (** energy.py:136: the average movement of the first n_points points *)
  Definition moved (n_points : nat) (X X' : list row) : R :=
    rsum (firstn n_points (map2 (fun r r' => rsum (map2 (fun a b => Rabs (a - b)) (coords r') (coords r)) / INR (length (coords r))) X X')) / INR n_points.
  Definition improves (e : R) (obj : option R) : bool := match obj with None => true | Some b => if Rlt_dec e b then true else false end.
  (** energy.py:125-155, the loop: X, the optimizer (alpha and t; the moments are in the rows), ret, obj (None: infinity) and n_not_improved.
      With fewer than two points the energy is NaN: nothing is stored and the loop ends.  None: an exception *)
  Fixpoint solve_loop (fuel : nat) (n_points : nat) (X : list row) (alpha : R) (t : nat) (ret : list row) (obj : option R) (bad : nat) : option (list row) :=
    match fuel with
    | O => Some ret
    | S fuel =>
        if (length X <? 2)%nat then Some ret
        else match step alpha (S t) X with
             | None => None
             | Some X' =>
                 let e := log_energy (o_d o) (points X) in
                 let '(ret, obj, bad) := if improves e obj then (X', Some e, O) else (ret, obj, S bad) in
                 if Rlt_dec (moved n_points X X') (precision o) then Some ret
                 else if restarts o && (n_max_not_improved o <? bad)%nat then solve_loop fuel n_points (map fresh ret) (alpha / 2) 0 ret obj 0
                 else solve_loop fuel n_points X' alpha (S t) ret obj bad
             end
    end.
  (** energy.py:98-157 [_solve] *)
  Definition edge (x : list R) : bool := existsb (fun v => if Rlt_dec v (/ 10 ^ 16) then true else false) x.
  Definition solve (X : list (list R)) (F : option (list (list R))) (freeze_edges : bool) : option (list (list R)) :=
    let rows := map (fun x => make_row (freeze_edges && edge x) x) X ++ match F with None => [] | Some F => map (make_row true) F end in
    if forallb frozen rows then Some (points rows)
    else match solve_loop (n_max_iter o) (length X) rows (5 / 1000) 0 rows None 0 with
         | None => None
         | Some ret => Some (firstn (length X) (points ret))
         end.
End Solve.
