(** * Model of /repo/pymoo/util/randomized_argsort.py and /repo/pymoo/functions/standard/stochastic_ranking.py.
    Floats as in numpy (NaN included); arrays are lists; random choices are parameters. *)
From Coq Require Import List Arith Bool QArith.
From Verif Require Import Flt ListAux.
Import ListNotations.
Local Open Scope nat_scope.

(** util/misc.py [swap] on a one-dimensional array; stochastic_ranking.py:8-16 *)
Definition swap (I : list nat) (a b : nat) : list nat := upd (upd I a (nth b I 0)) b (nth a I 0).

(** A[I[k]] *)
Definition at_ (A : list flt) (I : list nat) (k : nat) : flt := nth (nth k I 0) A f_nan.

(** randomized_argsort.py:44-52, the for loop over [left <= j < right]; the second component is [i + 1] *)
Definition partition_loop (A : list flt) (left right : nat) (pivot : flt) (I : list nat) : list nat * nat :=
  fold_left (fun st j => let '(J, s) := st in if fleb (at_ A J j) pivot then (swap J s j, s + 1) else (J, s))
    (seq left (right - left)) (I, left).
(** randomized_argsort.py:37-55 [_quicksort(A, I, left, r - 1)] (the right end is exclusive here: numpy's [right = -1] for an empty array).
    [piv left r] stands for the random number of this call: every range (left, r) is sorted at most once, so this is any sequence of
    draws.  The fuel bounds the recursion depth (proved sufficient: [C32_quicksort]). *)
Fixpoint quicksort_rec (fuel : nat) (piv : nat -> nat -> nat) (A : list flt) (I : list nat) (left r : nat) : list nat :=
  match fuel with
  | O => I
  | S fuel =>
      if left + 1 <? r then
        let index := left + piv left r mod (r - left) in
        let I := swap I (r - 1) index in
        let pivot := at_ A I (r - 1) in
        let '(J, s) := partition_loop A left (r - 1) pivot I in
        let J := swap J (r - 1) s in
        let J := quicksort_rec fuel piv A J left s in
        quicksort_rec fuel piv A J (s + 1) r
      else I
  end.
(** randomized_argsort.py:30-34 [quicksort] *)
Definition quicksort (piv : nat -> nat -> nat) (A : list flt) : list nat :=
  quicksort_rec (length A) piv A (seq 0 (length A)) 0 (length A).

(** randomized_argsort.py:9-27 [randomized_argsort]; [P] = random_state.permutation(len(A)), [asort] = np.argsort *)
Inductive method := Numpy | Quicksort.
Definition randomized_argsort (asort : list flt -> list nat) (A : list flt) (m : method) (descending : bool)
    (P : list nat) (piv : nat -> nat -> nat) : list nat :=
  let I := match m with
           | Numpy => gather 0 P (asort (gather f_nan A P))
           | Quicksort => quicksort piv A
           end in
  if descending then rev I else I.

(** stochastic_ranking.py:45-56, the comparison of two neighbours ([u] the random number) *)
Definition sr_greater (f phi : list flt) (pr u : Q) (a b : nat) : bool :=
  if negb (Qle_bool pr u) || (feqb (nth a phi f_nan) f_zero && feqb (nth b phi f_nan) f_zero)
  then fltb (nth b f f_nan) (nth a f f_nan)
  else fltb (nth b phi f_nan) (nth a phi f_nan).
(** lines 42-56: one pass; [gt j a b]: the j-th comparison finds [a] worse than [b] *)
Definition sr_pass (gt : nat -> nat -> nat -> bool) (lam : nat) (I : list nat) : list nat * bool :=
  fold_left (fun st j => let '(J, sw) := st in
               if gt j (nth j J 0) (nth (j + 1) J 0) then (swap J j (j + 1), true) else (J, sw))
    (seq 0 (lam - 1)) (I, false).
(** lines 41-59: at most [n] passes, the first numbered [i] *)
Fixpoint sr_passes (gt : nat -> nat -> nat -> nat -> bool) (lam : nat) (n i : nat) (I : list nat) : list nat :=
  match n with
  | O => I
  | S n => let '(J, sw) := sr_pass (gt i) lam I in if sw then sr_passes gt lam n (S i) J else J
  end.
(** lines 19-61 [stochastic_ranking]; [u i j] the random number of pass i, comparison j; [I0] the given initial order, if any *)
Definition stochastic_ranking (f phi : list flt) (pr : Q) (I0 : option (list nat)) (u : nat -> nat -> Q) : list nat :=
  let lam := length f in
  let I := match I0 with None => seq 0 lam | Some J => J end in
  sr_passes (fun i j => sr_greater f phi pr (u i j)) lam lam 0 I.
