(** * Model of parent selection: /repo/pymoo/operators/selection/{tournament,rnd,des}.py, the binary tournaments of the algorithms
    (/repo/pymoo/algorithms/moo/{nsga2,nsga3,unsga3,ctaea,sms,spea2}.py, soo/nonconvex/{ga,ga_niching}.py, operators/control.py) and
    [random_permutations] (/repo/pymoo/util/misc.py:107-129).
    Individuals are given by their index and a record of the values the comparisons read; a random choice [random_state.choice([a, b])]
    is an explicit boolean ([true] = b). *)
From Coq Require Import List Arith Bool ZArith.
From Verif Require Import Flt ListAux M_Dominator.
Import ListNotations.
Local Open Scope nat_scope.

Record tind := mkT {
  t_cv : flt; t_F : list flt; t_rank : flt; t_crowding : flt;          (* CV[0], F, rank, crowding *)
  t_fit : flt;                                                          (* SPEA_F / n_gen *)
  t_iter : flt; t_niche : nat; t_dist : flt }.                          (* iter, niche, dist_to_niche *)
Definition t_default : tind := mkT f_nan [] f_nan f_nan f_nan f_nan 0 f_nan.

(** tournament.py:73-123 [compare]; [None] = no decision *)
Definition compare_ (larger : bool) (a : nat) (a_val : flt) (b : nat) (b_val : flt) (return_random_if_equal : bool) (coin : bool) : option nat :=
  if larger then
    if fltb b_val a_val then Some a else if fltb a_val b_val then Some b
    else if return_random_if_equal then Some (if coin then b else a) else None
  else
    if fltb a_val b_val then Some a else if fltb b_val a_val then Some b
    else if return_random_if_equal then Some (if coin then b else a) else None.

(** the condition "at least one solution is infeasible" *)
Definition some_infeasible (x y : tind) : bool := fltb f_zero (t_cv x) || fltb f_zero (t_cv y).
Definition by_cv (pop : nat -> tind) (a b : nat) (coin : bool) : option nat := compare_ false a (t_cv (pop a)) b (t_cv (pop b)) true coin.

(** nsga2.py:24-76 [binary_tournament], one tournament (coins: one for each possible choice) *)
Definition binary_tournament (by_dom : bool) (pop : nat -> tind) (a b : nat) (c1 c2 : bool) : option nat :=
  if some_infeasible (pop a) (pop b) then by_cv pop a b c1
  else
    let s := if by_dom then
               let rel := get_relation (t_F (pop a)) (t_F (pop b)) None None in
               if Z.eqb rel 1 then Some a else if Z.eqb rel (-1) then Some b else None
             else compare_ false a (t_rank (pop a)) b (t_rank (pop b)) false c2 in
    match s with
    | Some w => Some w
    | None => compare_ true a (t_crowding (pop a)) b (t_crowding (pop b)) true c2
    end.
(** nsga3.py:28-48 [comp_by_cv_then_random] *)
Definition comp_by_cv_then_random (pop : nat -> tind) (a b : nat) (c1 c2 : bool) : option nat :=
  if some_infeasible (pop a) (pop b) then by_cv pop a b c1 else Some (if c2 then b else a).
(** ga.py:43-73 [comp_by_cv_and_fitness] (one objective: F has one entry) *)
Definition comp_by_cv_and_fitness (pop : nat -> tind) (a b : nat) (c1 c2 : bool) : option nat :=
  if some_infeasible (pop a) (pop b) then by_cv pop a b c1
  else compare_ false a (nth 0 (t_F (pop a)) f_nan) b (nth 0 (t_F (pop b)) f_nan) true c2.
(** ga_niching.py:63-95 [comp_by_cv_and_clearing_fitness] *)
Definition comp_by_cv_and_clearing_fitness (pop : nat -> tind) (a b : nat) (c1 c2 : bool) : option nat :=
  if some_infeasible (pop a) (pop b) then by_cv pop a b c1
  else match compare_ false a (t_iter (pop a)) b (t_iter (pop b)) false c2 with
       | Some w => Some w
       | None => compare_ false a (t_rank (pop a)) b (t_rank (pop b)) true c2
       end.
(** sms.py:92-134 [cv_and_dom_tournament] *)
Definition cv_and_dom_tournament (pop : nat -> tind) (a b : nat) (c1 c2 : bool) : option nat :=
  if some_infeasible (pop a) (pop b) then by_cv pop a b c1
  else
    let rel := get_relation (t_F (pop a)) (t_F (pop b)) None None in
    if Z.eqb rel 1 then Some a else if Z.eqb rel (-1) then Some b else Some (if c2 then b else a).
(** spea2.py:126-162 [spea_binary_tournament] *)
Definition spea_binary_tournament (pop : nat -> tind) (a b : nat) (c1 c2 : bool) : option nat :=
  if some_infeasible (pop a) (pop b) then by_cv pop a b c1
  else compare_ false a (t_fit (pop a)) b (t_fit (pop b)) true c2.
(** ctaea.py:31-52 [comp_by_cv_dom_then_random] *)
Definition comp_by_cv_dom_then_random (pop : nat -> tind) (a b : nat) (c1 c2 : bool) : option nat :=
  let fa := fleb (t_cv (pop a)) f_zero in let fb := fleb (t_cv (pop b)) f_zero in
  if fa && fb then
    let rel := get_relation (t_F (pop a)) (t_F (pop b)) None None in
    if Z.eqb rel 1 then Some a else if Z.eqb rel (-1) then Some b else Some (if c1 then b else a)
  else if fa then Some a else if fb then Some b else Some (if c2 then b else a).
(** unsga3.py:15-69 [comp_by_rank_and_ref_line_dist] *)
Definition comp_by_rank_and_ref_line_dist (pop : nat -> tind) (a b : nat) (c1 c2 : bool) : option nat :=
  let s :=
    if some_infeasible (pop a) (pop b) then by_cv pop a b c1
    else if t_niche (pop a) =? t_niche (pop b) then
      if negb (feqb (t_rank (pop a)) (t_rank (pop b))) then compare_ false a (t_rank (pop a)) b (t_rank (pop b)) false c2
      else compare_ false a (t_dist (pop a)) b (t_dist (pop b)) false c2
    else None in
  match s with Some w => Some w | None => Some (if c2 then b else a) end.
(** operators/control.py:128-150 [age_binary_tournament] *)
Definition age_binary_tournament (pop : nat -> tind) (a b : nat) (c1 c2 : bool) : option nat :=
  compare_ true a (t_fit (pop a)) b (t_fit (pop b)) true c2.

(** misc.py:107-129 [random_permutations(n, l)] with [perm k] the k-th drawn permutation *)
Definition random_permutations (n : nat) (perm : nat -> list nat) : list nat := concat (map perm (seq 0 n)).
(** math.ceil(n_random / len(pop)) *)
Definition ceil_div (a b : nat) : nat := (a + (b - 1)) / b.
(** tournament.py:41-70 [TournamentSelection._do] up to the comparison: the competitors, one row per tournament *)
Definition tournaments (n_pop n_select n_parents pressure : nat) (perm : nat -> list nat) : list (list nat) :=
  let n_random := n_select * n_parents * pressure in
  let P := firstn n_random (random_permutations (ceil_div n_random n_pop) perm) in
  reshape (n_select * n_parents) pressure P.
(** ... and the whole of it: [comp row] is the winner of a row *)
Definition tournament_selection (n_pop n_select n_parents pressure : nat) (perm : nat -> list nat) (comp : list nat -> nat) : list (list nat) :=
  reshape n_select n_parents (map comp (tournaments n_pop n_select n_parents pressure perm)).
(** rnd.py:12-24 [RandomSelection._do] *)
Definition random_selection (n_pop n_select n_parents : nat) (perm : nat -> list nat) : list (list nat) :=
  let n_random := n_select * n_parents in
  reshape n_select n_parents (firstn n_random (random_permutations (ceil_div n_random n_pop) perm)).

(** ** differential evolution *)
Definition memb (x : nat) (l : list nat) : bool := existsb (Nat.eqb x) l.
(** assign the values [vs], in order, at the positions where [mask] holds: [P[mask, j] = vs] *)
Fixpoint masked_assign (mask : list bool) (vs col : list nat) : list nat :=
  match mask, col with
  | true :: mask, c :: col => match vs with v :: vs => v :: masked_assign mask vs col | [] => c :: masked_assign mask [] col end
  | false :: mask, c :: col => c :: masked_assign mask vs col
  | _, _ => []
  end.
(** des.py:40-43 (and 52-55, 66-69, 79-82, 84-87): draw the column, redraw while some entry equals an entry of its row; [rows] are the
    columns to compare with (one list per row), [draw k] the k-th call of [choice] (its first entries are used).  None: fuel exhausted *)
Fixpoint reselect_loop (fuel : nat) (draw : nat -> list nat) (k : nat) (rows : list (list nat)) (col : list nat) : option (list nat) :=
  let mask := map2 memb col rows in
  if existsb (fun b => b) mask then
    match fuel with
    | O => None
    | S fuel => reselect_loop fuel draw (S k) rows (masked_assign mask (draw k) col)
    end
  else Some col.
Definition draw_column (fuel n_select : nat) (draw : nat -> list nat) (rows : list (list nat)) : option (list nat) :=
  reselect_loop fuel draw 1 rows (firstn n_select (draw 0)).
Definition add_column (rows : list (list nat)) (col : list nat) : list (list nat) := map2 (fun r c => r ++ [c]) rows col.
(** for j in range(first, n_parents): append such a column; [draws j] the draws of column j *)
Fixpoint fill_columns (fuel n_select : nat) (draws : nat -> nat -> list nat) (js : list nat) (rows : list (list nat)) : option (list (list nat)) :=
  match js with
  | [] => Some rows
  | j :: js => match draw_column fuel n_select (draws j) rows with
               | None => None
               | Some col => fill_columns fuel n_select draws js (add_column rows col)
               end
  end.
(** des.py:32-42, 44-55, 58-70, 72-88; [P[:, 0] = np.arange(n_pop)] needs n_select = n_pop *)
Definition des_rand (fuel n_pop n_parents : nat) (draws : nat -> nat -> list nat) : option (list (list nat)) :=
  fill_columns fuel n_pop draws (seq 1 (n_parents - 1)) (map (fun i => [i]) (seq 0 n_pop)).
Definition des_best (fuel n_pop n_parents : nat) (draws : nat -> nat -> list nat) : option (list (list nat)) :=
  fill_columns fuel n_pop draws (seq 2 (n_parents - 2)) (map (fun i => [i; 0]) (seq 0 n_pop)).
Definition des_current_to_best (fuel n_pop n_parents : nat) (draws : nat -> nat -> list nat) : option (list (list nat)) :=
  fill_columns fuel n_pop draws (seq 4 (n_parents - 4)) (map (fun i => [i; i; 0; i]) (seq 0 n_pop)).
Definition des_current_to_rand (fuel n_pop n_parents : nat) (draws : nat -> nat -> list nat) : option (list (list nat)) :=
  match draw_column fuel n_pop (draws 2) (map (fun i => [i; i; i]) (seq 0 n_pop)) with
  | None => None
  | Some col => fill_columns fuel n_pop draws (seq 4 (n_parents - 4)) (map2 (fun i c => [i; i; c; i]) (seq 0 n_pop) col)
  end.
(** des.py:92-98 [_ranks_from_pop]: missing ranks are replaced by the index *)
Definition ranks_from_pop (ranks : list (option nat)) : list nat :=
  map (fun i => match nth i ranks None with Some r => r | None => i end) (seq 0 (length ranks)).
(** des.py:101-111 [_rank_sort], one row (without the target) *)
Definition rank_sort_row (ranks : list nat) (row : list nat) : list nat :=
  let keys := map (fun i => nth i ranks 0) row in
  let S := gather 0 row (argsort Nat.ltb 0 keys) in
  let n_diffs := length row / 2 in
  fold_left (fun r j => upd (upd r (2 * j - 1) (nth j S 0)) (2 * j) (nth (length S - j) S 0)) (seq 1 n_diffs) (upd row 0 (nth 0 S 0)).
Definition des_ranked (fuel n_pop n_parents : nat) (draws : nat -> nat -> list nat) (ranks : list (option nat)) : option (list (list nat)) :=
  option_map (map (fun row => match row with [] => [] | t :: r => t :: rank_sort_row (ranks_from_pop ranks) r end))
    (des_rand fuel n_pop n_parents draws).

(** ** rnd.py:27-60 [fast_fill_random], one column: [D] are the columns the new one is compared with; returns the column and the remaining
    (last) [rem].  [draw k] is the k-th random vector.  The comparison looks at the rows [rem], but [np.where] returns positions
    relative to [rem]; the model keeps that. *)
Fixpoint fill_loop (attempts : nat) (draw : nat -> list nat) (k : nat) (D : list (list nat)) (rem : list nat) (col : list nat) : list nat * list nat :=
  match attempts with
  | O => (col, rem)
  | S attempts =>
      let vs := draw k in
      let col := fold_left (fun c p => upd c (nth p rem 0) (nth p vs 0)) (seq 0 (length rem)) col in
      let rem' := where_ (fun p => memb (nth (nth p rem 0) col 0) (nth (nth p rem 0) D [])) (length rem) in
      match rem' with [] => (col, []) | _ => fill_loop attempts draw (S k) D rem' col end
  end.
Definition fill_column (n_max_attempts : nat) (draw : nat -> list nat) (D : list (list nat)) (col : list nat) : list nat * list nat :=
  fill_loop n_max_attempts draw 0 D (seq 0 (length col)) col.
