(** * Model of /repo/pymoo/operators/survival/rank_and_crowding/metrics.py: calc_crowding_distance and FunctionalDiversity.
    Finite objective values, exact arithmetic; +inf explicit. *)
From Coq Require Import List Arith Bool ZArith QArith.
From Verif Require Import ListAux M_Individual M_Survival M_RefDirs2.
Import ListNotations.
Local Open Scope nat_scope.

(** a non-negative number or +inf *)
Inductive xq := Fin (q : Q) | PInf.
Definition xadd (a b : xq) : xq := match a, b with Fin a, Fin b => Fin (a + b)%Q | _, _ => PInf end.
Definition xdiv (a : xq) (q : Q) : xq := match a with Fin a => Fin (a / q)%Q | PInf => PInf end.
Fixpoint index_of (i : nat) (l : list nat) : nat := match l with [] => 0 | x :: l => if x =? i then 0 else S (index_of i l) end.

(** metrics.py:85-118, one objective: [I0] the column of [I] (np.argsort, stable), [v] the column of the unsorted F.
    The column of norm is NaN if all values are equal, and then both distances are replaced by 0.
    [J = np.argsort(I, axis=0)] of a permutation is its inverse *)
Definition gap (s : list Q) (k : nat) : xq :=                        (* dist[k], 0 <= k <= n *)
  if (k =? 0) || (length s <=? k) then PInf else Fin (nth k s 0 - nth (k - 1) s 0)%Q.
Definition contribution (I0 : list nat) (v : list Q) (i : nat) : xq :=
  let s := gather 0%Q v I0 in
  let norm := (q_max_list s - qmin_list s)%Q in
  let k := index_of i I0 in
  if Qeq_bool norm 0 then Fin 0 else xadd (xdiv (gap s k) norm) (xdiv (gap s (S k)) norm).
Definition colF (j : nat) (F : list (list Q)) : list Q := map (fun r => nth j r 0%Q) F.
Definition calc_crowding_distance (asort : list Q -> list nat) (m : nat) (F : list (list Q)) : list xq :=
  map (fun i => xdiv (fold_right xadd (Fin 0) (map (fun j => contribution (asort (colF j F)) (colF j F) i) (seq 0 m))) (inject_Z (Z.of_nat m))) (seq 0 (length F)).

(** metrics.py:41-70 [FunctionalDiversity._do]: [dup] = find_duplicates(F, epsilon=1e-32); without filtering every point is unique *)
Definition functional_diversity (function : list (list Q) -> list xq) (filter_dup : bool) (dup : list (list Q) -> list bool) (F : list (list Q)) : list xq :=
  let n := length F in
  if n <=? 2 then repeat PInf n
  else
    let is_unique := if filter_dup then where_ (fun i => negb (nth i (dup F) false)) n else seq 0 n in
    let d := function (gather [] F is_unique) in
    fold_left (fun acc p => upd acc (fst p) (snd p)) (combine is_unique d) (repeat (Fin 0) n).
(** metrics.py:11-13 label "cd" *)
Definition cd (asort : list Q -> list nat) (m : nat) (F : list (list Q)) : list xq :=
  functional_diversity (calc_crowding_distance asort m) false (fun _ => []) F.
