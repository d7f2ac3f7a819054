(** * Model of the reference direction generators: /repo/pymoo/util/reference_direction.py, /repo/pymoo/util/ref_dirs/das_dennis.py.
    Arithmetic is exact (rational).  A matrix is the list of its rows. *)
From Coq Require Import List Arith Bool ZArith QArith.
Import ListNotations.
Local Open Scope nat_scope.

(** scipy.special.binom on naturals (there: a float, turned into an int) *)
Fixpoint binom (n k : nat) : nat :=
  match k with 0 => 1 | S k' => match n with 0 => 0 | S n' => binom n' k' + binom n' k end end.
(** 1.0 * i / (1.0 * p) *)
Definition frac (p i : nat) : Q := (inject_Z (Z.of_nat i) / inject_Z (Z.of_nat p))%Q.

(** reference_direction.py:119-129 [get_number_of_uniform_points] *)
Definition n_uniform (p n : nat) : nat := binom (n + p - 1) p.

(** reference_direction.py:132-150 [get_partition_closest_to_points]; [fuel] bounds the while loop (None: not left within it) *)
Fixpoint closest_go (fuel n_points n p : nat) : option nat :=
  match fuel with
  | 0 => None
  | S fuel => if n_uniform p n <=? n_points then closest_go fuel n_points n (S p) else Some (p - 1)
  end.
Definition closest_partition (n_points n : nat) : option nat := if n =? 1 then Some 0 else closest_go (S n_points) n_points n 1.

(** reference_direction.py:172-194 [das_dennis_recursion]: [m] = len(ref_dir) - 1 - depth, [pre] = the first [depth] entries of ref_dir.
    Every recursive call gets its own copy of ref_dir *)
Fixpoint dd_rec (m : nat) (pre : list Q) (p beta : nat) : list (list Q) :=
  match m with
  | 0 => [pre ++ [frac p beta]]
  | S m => flat_map (fun i => dd_rec m (pre ++ [frac p i]) p (beta - i)) (seq 0 (S beta))
  end.
(** reference_direction.py:153-169 [das_dennis] *)
Definition das_dennis (p n : nat) : list (list Q) :=
  if p =? 0 then [repeat (frac n 1) n] else dd_rec (n - 1) [] p p.

(** reference_direction.py:392-402 [scale_reference_directions] *)
Definition scale_row (s : Q) (x : list Q) : list Q := map (fun v => v * s + (1 - s) / inject_Z (Z.of_nat (length x)))%Q x.
(** reference_direction.py:73-105 [ReferenceDirectionFactory.do] around [_do]; [lexsort = None] when switched off *)
Definition factory_do (n : nat) (raw : list (list Q)) (scaling : option Q) (lexsort : option (list (list Q) -> list nat)) : list (list Q) :=
  if n =? 1 then [[1%Q]]
  else
    let r := match scaling with None => raw | Some s => map (scale_row s) raw end in
    match lexsort with None => r | Some ls => map (fun i => nth i r []) (ls r) end.
(** reference_direction.py:197-256 [UniformReferenceDirectionFactory]: the number of partitions, None for the exceptions *)
Definition uniform_partitions (n : nat) (n_points n_partitions : option nat) : option nat :=
  match n_points with
  | Some np => match closest_partition np n with
               | None => None
               | Some p => if n_uniform p n =? np then Some p else None
               end
  | None => n_partitions
  end.

(** ref_dirs/das_dennis.py [DasDennis]: the stack of (point, beta), top first; [stack.pop()] takes the last appended.
    [emit] = the scaling of a finished point.  Result: the points given to [func], and the stack left *)
Definition dd_push (p : nat) (point : list Q) (beta : nat) : list (list Q * nat) :=
  rev (map (fun i => (point ++ [frac p i], beta - i)) (seq 0 (S beta))).
Fixpoint traverse (fuel p n : nat) (scaling : option Q) (n_points : option nat) (counter : nat) (stack : list (list Q * nat)) :
    list (list Q) * list (list Q * nat) :=
  match fuel with
  | 0 => ([], stack)
  | S fuel =>
      if match n_points with None => false | Some k => k <=? counter end then ([], stack)
      else
        match stack with
        | [] => ([], [])
        | (point, beta) :: stack =>
            if length point + 1 =? n then
              let pt := point ++ [frac p beta] in
              let pt := match scaling with None => pt | Some s => scale_row s pt end in
              let '(ret, st) := traverse fuel p n scaling n_points (S counter) stack in (pt :: ret, st)
            else traverse fuel p n scaling n_points counter (dd_push p point beta ++ stack)
        end
  end.
(** number of stack entries ever popped below an entry with [m] coordinates to go *)
Fixpoint dd_nodes (m beta : nat) : nat := match m with 0 => 1 | S m => S (list_sum (map (fun i => dd_nodes m (beta - i)) (seq 0 (S beta)))) end.
Definition stack_nodes (n : nat) (stack : list (list Q * nat)) : nat := list_sum (map (fun e => dd_nodes (n - 1 - length (fst e)) (snd e)) stack).
(** [next]: with zero partitions traverse returns without calling [func] *)
Definition dd_next (p n : nat) (scaling : option Q) (n_points : option nat) (stack : list (list Q * nat)) : list (list Q) * list (list Q * nat) :=
  if p =? 0 then ([], stack) else traverse (S (stack_nodes n stack)) p n scaling n_points 0 stack.
Definition dd_init (p : nat) : list (list Q * nat) := [([], p)].
Definition has_next (stack : list (list Q * nat)) : bool := 0 <? length stack.

(** reference_direction.py:354-389 [map_onto_unit_simplex], one row; "kraemer": [n] = number of columns; M = sys.maxsize *)
Definition qsum_ (l : list Q) : Q := fold_right Qplus 0%Q l.
Definition map_sum (r : list Q) : list Q := map (fun v => v / qsum_ r)%Q r.
Fixpoint diffs (l : list Q) : list Q := match l with a :: ((b :: _) as t) => (b - a)%Q :: diffs t | _ => [] end.
Definition map_kraemer (sort : list Q -> list Q) (M : Q) (r : list Q) : list Q :=
  let row := sort (0%Q :: map (fun v => v * M)%Q (firstn (length r - 1) r) ++ [M]) in
  map (fun v => v / M)%Q (diffs row).
