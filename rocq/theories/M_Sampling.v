(** * Model of the samplings: /repo/pymoo/operators/sampling/rnd.py, lhs.py.
    A matrix is a list of rows.  Random numbers are parameters ([U i j] is the draw for row i, column j).
    Arithmetic is exact (rational); see M_RoundOps for binary64 rounding. *)
From Coq Require Import List Arith Bool ZArith QArith.
From Verif Require Import Flt.
Import ListNotations.
Local Open Scope nat_scope.

Definition matrix {A} (n m : nat) (f : nat -> nat -> A) : list (list A) := map (fun i => map (f i) (seq 0 m)) (seq 0 n).
Definition entry {A} (d : A) (X : list (list A)) (i j : nat) : A := nth j (nth i X []) d.

(** rnd.py:9-28 [random] and rnd.py:31-56 [FloatRandomSampling._do]; [bounds = None] when the problem has no bounds *)
Definition float_sampling (n_samples n_var : nat) (bounds : option (list Q * list Q)) (U : nat -> nat -> Q) : option (list (list Q)) :=
  match bounds with
  | None => Some (matrix n_samples n_var U)
  | Some (xl, xu) =>
      if forallb (fun j => Qle_bool (nth j xl 0%Q) (nth j xu 0%Q)) (seq 0 n_var)        (* the assertion *)
      then Some (matrix n_samples n_var (fun i j => (nth j xl 0 + (nth j xu 0 - nth j xl 0) * U i j)%Q))
      else None
  end.

(** rnd.py:59-78 [BinaryRandomSampling._do] *)
Definition binary_sampling (n_samples n_var : nat) (U : nat -> nat -> Q) : list (list bool) :=
  matrix n_samples n_var (fun i j => negb (Qle_bool (1 # 2) (U i j))).

(** numpy's [Generator.integers(low, high)]: a value in [low, high), here determined by raw random bits [u]; ValueError (None) if low >= high *)
Definition integers (low high : Z) (u : Z) : option Z := if (low <? high)%Z then Some (low + u mod (high - low))%Z else None.
Fixpoint sequence {A} (l : list (option A)) : option (list A) :=
  match l with
  | [] => Some []
  | None :: _ => None
  | Some a :: l => option_map (cons a) (sequence l)
  end.
(** rnd.py:81-100 [IntegerRandomSampling._do] (column by column, then stacked: here row by row; the draws are the same) *)
Definition integer_sampling (n_samples n_var : nat) (xl xu : list Z) (U : nat -> nat -> Z) : option (list (list Z)) :=
  sequence (map (fun i => sequence (map (fun j => integers (nth j xl 0%Z) (nth j xu 0%Z + 1) (U i j)) (seq 0 n_var))) (seq 0 n_samples)).

(** rnd.py:103-124 [PermutationRandomSampling._do]: [perm i] is the i-th call of [random_state.permutation(n_var)] *)
Definition permutation_sampling (n_samples : nat) (perm : nat -> list nat) : list (list nat) := map perm (seq 0 n_samples).

(** lhs.py:81-107 [sampling_lhs_unit]: [asort] is argsort, [U] the first block of random numbers, [R] the second (used if smooth) *)
Definition lhs_unit (asort : list Q -> list nat) (n_samples n_var : nat) (smooth : bool) (U R : nat -> nat -> Q) : list (list Q) :=
  let ord := fun j => asort (map (fun i => U i j) (seq 0 n_samples)) in
  matrix n_samples n_var (fun i j =>
    ((inject_Z (Z.of_nat (nth i (ord j) 0%nat) + 1) - (if smooth then R i j else 1 # 2)) / inject_Z (Z.of_nat n_samples))%Q).

(** lhs.py:37-78 [sampling_lhs]: [draws k] are the random blocks of the k-th candidate; [criterion = None] if no criterion is given *)
Definition lhs_best (criterion : list (list Q) -> flt) (cand : nat -> list (list Q)) (n_iter : nat) : list (list Q) :=
  fst (fold_left (fun st j => let '(X, score) := st in
                   let _X := cand j in let _score := criterion _X in
                   if fltb score _score then (_X, _score) else (X, score))
         (seq 1 (n_iter - 1)) (cand 0, criterion (cand 0))).
Definition sampling_lhs (asort : list Q -> list nat) (n_samples n_var : nat) (xl xu : list Q) (smooth : bool)
    (criterion : option (list (list Q) -> flt)) (n_iter : nat) (draws : nat -> (nat -> nat -> Q) * (nat -> nat -> Q)) : list (list Q) :=
  let cand := fun k => lhs_unit asort n_samples n_var smooth (fst (draws k)) (snd (draws k)) in
  let X := match criterion with None => cand 0 | Some c => lhs_best c cand n_iter end in
  matrix n_samples n_var (fun i j => (nth j xl 0 + entry 0 X i j * (nth j xu 0 - nth j xl 0))%Q).

(** the same two formulas with binary64 operations: rnd.py:26-28, 54-56 and lhs.py:78, 93-105 *)
From Verif Require Import M_Bounds.
Definition float_sample_b64 (xl xu r : flt) : flt := add xl (mul (sub xu xl) r).
Definition lhs_sample_b64 (n k : Z) (xl xu r : flt) : flt := add xl (mul (div (sub (fz (k + 1)) r) (fz n)) (sub xu xl)).
