(** * Model of /repo/pymoo/util/reference_direction.py: select_points_with_maximum_distance; /repo/pymoo/util/ref_dirs/incremental.py;
    /repo/pymoo/util/ref_dirs/misc.py: the projections.  Exact arithmetic. *)
From Coq Require Import List Arith Bool ZArith QArith.
From Verif Require Import M_RefDirs.
Import ListNotations.
Local Open Scope nat_scope.

(** position of the first maximum; None: argmax of an empty sequence *)
Fixpoint argmaxQ_from (best : Q) (bi i : nat) (l : list Q) : nat :=
  match l with [] => bi | x :: l => if Qle_bool x best then argmaxQ_from best bi (S i) l else argmaxQ_from x i (S i) l end.
Definition argmaxQ (l : list Q) : option nat := match l with [] => None | x :: l => Some (argmaxQ_from x 0 1 l) end.
Definition qmin (a b : Q) : Q := if Qle_bool a b then a else b.
Definition qmin_list (l : list Q) : Q := match l with [] => 0%Q | x :: l => fold_left qmin l x end.
Definition Qltb_ (a b : Q) : bool := negb (Qle_bool b a).

(** reference_direction.py:405-455 [select_points_with_maximum_distance]: [D] the distance matrix; the loop, [fuel] >= n_select - len(selected) *)
Fixpoint maxdist_go (fuel n_points n_select : nat) (D : nat -> nat -> Q) (dist : list Q) (selected not_selected : list nat) : option (list nat) :=
  if n_select <=? length selected then Some selected
  else match fuel with
       | 0 => None
       | S fuel =>
           match argmaxQ (map (fun i => nth i dist 0%Q) not_selected) with
           | None => None
           | Some k =>
               let sel := nth k not_selected 0 in
               let dist' := map (fun j => if Qltb_ (D sel j) (nth j dist 0%Q) then D sel j else nth j dist 0%Q) (seq 0 n_points) in
               (* [i for i, idx in enumerate(not_selected) if idx != index_in_not_selected] *)
               let not_selected' := map fst (filter (fun p => negb (snd p =? k)) (combine (seq 0 (length not_selected)) not_selected)) in
               maxdist_go fuel n_points n_select D dist' (selected ++ [sel]) not_selected'
           end
       end.
Definition select_maxdist (n_points n_select : nat) (D : nat -> nat -> Q) (selected : list nat) : option (list nat) :=
  let not_selected := filter (fun i => negb (existsb (Nat.eqb i) selected)) (seq 0 n_points) in
  let dist := map (fun i => qmin_list (map (D i) selected)) (seq 0 n_points) in
  maxdist_go (n_select - length selected) n_points n_select D dist selected not_selected.

(** ref_dirs/incremental.py:31-43 [incremental_lattice]: the rows are integers; [unq] = np.unique(axis=0) *)
Fixpoint add_at (k v : nat) (r : list nat) : list nat :=
  match r with [] => [] | x :: r => match k with 0 => (x + v) :: r | S k => x :: add_at k v r end end.
Definition lattice_edges (unq : list (list nat) -> list (list nat)) (n : nat) (edge : list (list nat)) : list (list nat) :=
  filter (existsb (Nat.eqb 0)) (unq (flat_map (fun k => map (add_at k n) edge) (seq 0 n))).
Fixpoint lattice (unq : list (list nat) -> list (list nat)) (n p : nat) : list (list nat) * list (list nat) :=
  match p with
  | 0 => ([repeat 0 n], [repeat 0 n])
  | S p => let '(W, edge) := lattice unq n p in let e := lattice_edges unq n edge in (map (map S) W ++ e, e)
  end.
Definition incremental_lattice (unq : list (list nat) -> list (list nat)) (p n : nat) : list (list Q) :=
  map (map (fun v => inject_Z (Z.of_nat v) / inject_Z (Z.of_nat (n * p)))%Q) (fst (lattice unq n p)).
(** ref_dirs/incremental.py:8-28 [check_n_points] (for n > 1): Some i for the result [i], None for a result of four numbers, i.e. the exception *)
Fixpoint check_go (unq : list (list nat) -> list (list nat)) (fuel n n_points i : nat) : option nat :=
  let L := length (fst (lattice unq n i)) in
  if n_points <=? L then (if L =? n_points then Some i else None)
  else match fuel with 0 => None | S fuel => check_go unq fuel n n_points (S i) end.

(** ref_dirs/misc.py:7-46 [project_onto_sum_equals_one_plane] in exact arithmetic: n / |n| appears twice, so the square root cancels;
    None: np.eye(0)[0] *)
Definition project_one (y : list Q) : list Q :=
  map (fun v => v - (fold_right Qplus 0%Q y - 1) / inject_Z (Z.of_nat (length y)))%Q y.
(** ref_dirs/misc.py:96-122 [project_onto_unit_simplex_recursive], the while loop for one row *)
Definition clip0 (x : list Q) : list Q := map (fun v => if Qltb_ v 0 then 0%Q else v) x.
Definition step_simplex (x : list Q) : option (list Q) :=
  let x := clip0 x in
  let sub := filter (Qltb_ 0) x in
  match sub with
  | [] => None
  | _ => Some (map (fun v => if Qltb_ 0 v then (v - (fold_right Qplus 0 sub - 1) / inject_Z (Z.of_nat (length sub)))%Q else v) x)
  end.
Fixpoint project_row (fuel : nat) (x : list Q) : option (list Q) :=
  match fuel with
  | 0 => None
  | S fuel => match step_simplex x with None => None | Some x' => if forallb (Qle_bool 0) x' then Some x' else project_row fuel x' end
  end.
Definition project_simplex (X : list (list Q)) : list (option (list Q)) :=
  map (fun x => if existsb (fun v => Qltb_ v 0) x then project_row (S (length x)) x else Some x) X.
