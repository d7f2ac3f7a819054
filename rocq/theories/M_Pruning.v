(** * Model of the pruning crowding metrics: /repo/pymoo/functions/standard/mnn.py [calc_mnn, calc_2nn, calc_mnn_base], /repo/pymoo/functions/standard/pruning_cd.py [calc_pcd]
    and their wrapper metrics.py:73-82 [FuncionalDiversityMNN] (labels "mnn", "2nn", "pcd" of NSGA-II's and GDE3's survival).
    Finite objective values, exact arithmetic; +inf explicit ([PInf]), NaN is [None].  [nsort]: numpy's partition at the positions 1..M, whose values at these positions are those of the sorted row;
    [asort]: np.argsort(kind="mergesort"). *)
From Coq Require Import List Arith Bool ZArith QArith.
From Verif Require Import ListAux M_Individual M_Survival M_RefDirs2 M_Crowding.
Import ListNotations.
Local Open Scope nat_scope.

Definition xleb (a b : xq) : bool := match a, b with _, PInf => true | PInf, Fin _ => false | Fin a, Fin b => Qle_bool a b end.
(** np.argmin: the first position of the least value *)
Fixpoint xargmin_from (best : nat) (bv : xq) (k : nat) (l : list xq) : nat :=
  match l with [] => best | x :: l => if xleb bv x then xargmin_from best bv (S k) l else xargmin_from k x (S k) l end.
Definition xargmin (l : list xq) : nat := match l with [] => 0 | x :: l => xargmin_from 0 x 1 l end.

(** mnn.py:48-54 and pruning_cd.py:19-25: the number of rounds of the loop [while n_removed < n_remove - 1] *)
Definition clip_remove (N M : nat) (n_remove : Z) : Z :=
  if (n_remove <=? Z.of_nat N - Z.of_nat M)%Z then (if (n_remove <? 0)%Z then 0%Z else n_remove) else (Z.of_nat N - Z.of_nat M)%Z.
Definition rounds (N M : nat) (n_remove : Z) : nat := Z.to_nat (clip_remove N M n_remove - 1).

(** mnn.py:59-65: np.argmin / np.argmax of every column (first positions), normalised values *)
Definition first_pos (p : Q -> bool) (l : list Q) : nat := index_of 0 (map (fun v => if p v then 0 else 1) l).
Definition extremes (m : nat) (F : list (list Q)) : list nat :=
  map (fun j => first_pos (fun v => Qeq_bool v (qmin_list (colF j F))) (colF j F)) (seq 0 m) ++ map (fun j => first_pos (fun v => Qeq_bool v (q_max_list (colF j F))) (colF j F)) (seq 0 m).
Definition constant_col (j : nat) (F : list (list Q)) : bool := Qeq_bool (q_max_list (colF j F) - qmin_list (colF j F)) 0.
Definition normed (F : list (list Q)) (i j : nat) : Q := ((nth j (nth i F []) 0 - qmin_list (colF j F)) / (q_max_list (colF j F) - qmin_list (colF j F)))%Q.

(** d[H] = ...; d[extremes] = inf *)
Definition write (ext H : list nat) (score : nat -> xq) (d : list xq) : list xq :=
  fold_left (fun l i => upd l i PInf) ext (fold_left (fun l i => upd l i (score i)) H d).
(** the loop (mnn.py:78-95, pruning_cd.py:58-85): drop the remaining point with the least value, recompute the remaining ones *)
Fixpoint prune (score : list nat -> nat -> xq) (ext : list nat) (fuel : nat) (H : list nat) (d : list xq) : list xq :=
  match fuel with
  | 0 => d
  | S fuel =>
      let k := nth (xargmin (map (fun i => nth i d PInf) H)) H 0 in
      let H := filter (fun i => negb (i =? k)) H in
      prune score ext fuel H (write ext H (score H) d)
  end.
Definition pruned (score : list nat -> nat -> xq) (ext : list nat) (N fuel : nat) : list xq :=
  prune score ext fuel (seq 0 N) (write ext (seq 0 N) (score (seq 0 N)) (repeat PInf N)).

(** mnn.py:67-72, 88-93.  NaN is [None]: a constant objective is normalised to 0/0.  The rows of squareform(pdist(X)): 0 on the diagonal (sqdist F i i is 0), NaN elsewhere if an objective is constant; the columns of dropped
    points are inf; numpy's partition puts NaN last, products: NaN is absorbing, inf * 0 is NaN, np.argmin returns the first NaN if there is one *)
Definition sqdist (m : nat) (F : list (list Q)) (i j : nat) : Q := fold_right Qplus 0%Q (map (fun c => ((normed F i c - normed F j c) * (normed F i c - normed F j c))%Q) (seq 0 m)).
Definition has_constant (m : nat) (F : list (list Q)) : bool := existsb (fun j => constant_col j F) (seq 0 m).
Definition odist (m : nat) (F : list (list Q)) (i j : nat) : option xq := if has_constant m F then (if i =? j then Some (Fin 0) else None) else Some (Fin (sqdist m F i j)).
Definition odist_row (m : nat) (F : list (list Q)) (H : list nat) (i : nat) : list (option xq) := map (fun j => if existsb (Nat.eqb j) H then odist m F i j else Some PInf) (seq 0 (length F)).
Definition omul (a b : option xq) : option xq :=
  match a, b with
  | Some (Fin a), Some (Fin b) => Some (Fin (a * b)%Q)
  | Some PInf, Some PInf => Some PInf
  | Some PInf, Some (Fin q) | Some (Fin q), Some PInf => if Qeq_bool q 0 then None else Some PInf
  | _, _ => None
  end.
Definition oprod (l : list (option xq)) : option xq := fold_right omul (Some (Fin 1)) l.
Definition mnn_score (nsort : list (option xq) -> list (option xq)) (m nb : nat) (F : list (list Q)) (H : list nat) (i : nat) : option xq := oprod (firstn nb (skipn 1 (nsort (odist_row m F H i)))).
Definition is_nan (x : option xq) : bool := match x with None => true | Some _ => false end.
Definition unsome (x : option xq) : xq := match x with Some x => x | None => PInf end.
Fixpoint first_nan (l : list (option xq)) : nat := match l with [] => 0 | x :: l => if is_nan x then 0 else S (first_nan l) end.
Definition oargmin (l : list (option xq)) : nat := if existsb is_nan l then first_nan l else xargmin (map unsome l).
Definition owrite (ext H : list nat) (score : nat -> option xq) (d : list (option xq)) : list (option xq) :=
  fold_left (fun l i => upd l i (Some PInf)) ext (fold_left (fun l i => upd l i (score i)) H d).
Fixpoint oprune (score : list nat -> nat -> option xq) (ext : list nat) (fuel : nat) (H : list nat) (d : list (option xq)) : list (option xq) :=
  match fuel with
  | 0 => d
  | S fuel =>
      let k := nth (oargmin (map (fun i => nth i d None) H)) H 0 in
      let H := filter (fun i => negb (i =? k)) H in
      oprune score ext fuel H (owrite ext H (score H) d)
  end.
(** mnn.py:33-97 *)
Definition calc_mnn_base (nsort : list (option xq) -> list (option xq)) (m : nat) (n_remove : Z) (twonn : bool) (F : list (list Q)) : list (option xq) :=
  let N := length F in
  if N <=? m then repeat (Some PInf) N
  else
    let score := mnn_score nsort m (if twonn then 2 else m) F in
    oprune score (extremes m F) (rounds N m n_remove) (seq 0 N) (owrite (extremes m F) (seq 0 N) (score (seq 0 N)) (repeat None N)).

(** pruning_cd.py:41-56, 66-85: the gaps below and above in every sorted column of the remaining points; a constant column is NaN and the gaps are replaced by 0 *)
Definition pcd_col (asort : list Q -> list nat) (F : list (list Q)) (H : list nat) (i j : nat) : xq :=
  if constant_col j F then Fin 0
  else
    let v := map (fun h => normed F h j) H in
    let I0 := asort v in
    let s := gather 0%Q v I0 in
    let k := index_of (index_of i H) I0 in
    xadd (gap s k) (gap s (S k)).
Definition pcd_score (asort : list Q -> list nat) (m : nat) (F : list (list Q)) (H : list nat) (i : nat) : xq := fold_right xadd (Fin 0) (map (pcd_col asort F H i) (seq 0 m)).
Definition calc_pcd (asort : list Q -> list nat) (m : nat) (n_remove : Z) (F : list (list Q)) : list xq :=
  let N := length F in pruned (pcd_score asort m F) (extremes m F) N (rounds N m n_remove).

(** metrics.py:70-80 over 42-67: all inf if there are no more points than objectives *)
Definition functional_diversity_mnn (function : list (list Q) -> list xq) (dup : list (list Q) -> list bool) (m : nat) (F : list (list Q)) : list xq :=
  if length F <=? m then repeat PInf (length F) else functional_diversity function true dup F.
