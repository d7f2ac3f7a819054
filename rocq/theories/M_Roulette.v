(** * Model of /repo/pymoo/util/roulette.py and /repo/pymoo/util/clearing.py *)
From Coq Require Import List Arith Bool ZArith QArith.
From Verif Require Import ListAux M_Individual M_Survival M_RefDirs2.
Import ListNotations.
Local Open Scope nat_scope.

(** roulette.py:12-23: exact arithmetic; [larger_is_better] False: max - val *)
Definition roulette_val (larger_is_better : bool) (val : list Q) : list Q := if larger_is_better then val else map (fun v => q_max_list val - v)%Q val.
(** the cumulative sums; a sum of zero divides 0/0, that is NaN, or a number by zero: None *)
Definition cumulative (val : list Q) : list (option Q) :=
  map (fun k => if Qeq_bool (qsum val) 0 then None else Some (qsum (firstn k val) / qsum val)%Q) (seq 1 (length val - 1)).
(** roulette.py:25-53 [next]: X >= M compares with every entry (a comparison with NaN is false), and counts *)
Definition roulette_next (larger_is_better : bool) (val : list Q) (x : Q) : nat :=
  length (filter (fun c => match c with Some c => Qle_bool c x | None => false end) (cumulative (roulette_val larger_is_better val))).
(** one draw of n numbers *)
Definition roulette_next_n (lib : bool) (val : list Q) (xs : list Q) : list nat := map (roulette_next lib val) xs.

(** clearing.py:32-81 [EpsilonClearing]: S selected, C cleared flags.  [close k j]: D[k][j] < epsilon *)
Record clr := { cl_S : list nat; cl_C : list bool }.
Definition cl_init (n : nat) : clr := {| cl_S := []; cl_C := repeat false n |}.
Definition cl_remaining (n : nat) (c : clr) : list nat := where_ (fun i => negb (nth i (cl_C c) false)) n.
Definition cl_reset (n : nat) (c : clr) : clr := {| cl_S := cl_S c; cl_C := fold_left (fun C k => upd C k true) (cl_S c) (repeat false n) |}.
Definition cl_select (n : nat) (close : nat -> nat -> bool) (k : nat) (c : clr) : clr :=
  {| cl_S := cl_S c ++ [k]; cl_C := map (fun j => nth j (upd (cl_C c) k true) false || close k j) (seq 0 n) |}.
(** clearing.py:15-29 [select_by_clearing]: [sel remaining] = func_select(pop[remaining]), a position in [remaining]; None: an exception
    (nothing remains although everything is selected) *)
Definition cl_next (n : nat) (c : clr) : clr * list nat :=
  match cl_remaining n c with [] => (cl_reset n c, cl_remaining n (cl_reset n c)) | r0 :: r => (c, r0 :: r) end.
Fixpoint clearing_go (fuel n n_select : nat) (close : nat -> nat -> bool) (sel : list nat -> nat) (c : clr) : option (list nat) :=
  if length (cl_S c) <? n_select then
    match fuel with
    | 0 => None
    | S fuel =>
        let '(c, rem) := cl_next n c in
        match rem with
        | [] => None
        | _ => clearing_go fuel n n_select close sel (cl_select n close (nth (sel rem) rem 0) c)
        end
    end
  else Some (cl_S c).
Definition select_by_clearing (n n_select : nat) (close : nat -> nat -> bool) (sel : list nat -> nat) : option (list nat) :=
  clearing_go n_select n n_select close sel (cl_init n).
