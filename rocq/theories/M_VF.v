(** * Model of /repo/pymoo/util/value_functions.py: the linear and the polynomial value function, the constraints they are fitted under, and
    the test whether the fit is accepted.  Exact rational arithmetic instead of binary64; the optimiser (scipy) is not modelled: what is modelled is
    what its result has to satisfy to be accepted. *)
From Coq Require Import List ZArith Bool QArith Qabs Arith.
From Verif Require Import ListAux.
Import ListNotations.
Local Open Scope nat_scope.

(** value_functions.py:265-267 [linear_vf(P, x)] for one row P *)
Fixpoint vdot (p x : list Q) : Q := match p, x with a :: p, b :: x => (a * b + vdot p x)%Q | _, _ => 0%Q end.
Definition linear_vf (p x : list Q) : Q := vdot p x.

(** np.roll(l, c) *)
Definition roll {A} (c : nat) (l : list A) : list A :=
  let n := length l in let k := n - c mod n in skipn k l ++ firstn k l.

(** value_functions.py:533-551 [_calc_S(P, x)] for one row P: [x] has M*M weights, row by row, then M offsets; column m of k is row m of the reshaped
    weights, rolled by m *)
Definition vf_weights (M m : nat) (x : list Q) : list Q := roll m (firstn M (skipn (m * M) x)).
Definition calc_S (p x : list Q) : list Q :=
  let M := length p in
  map (fun m => (vdot p (vf_weights M m x) + nth (M * M + m) x 0%Q * 2)%Q) (seq 0 M).
(** value_functions.py:270-294 [poly_vf(P, x)] for one row P and one x *)
Definition poly_vf (p x : list Q) : Q := fold_right Qmult 1%Q (calc_S p x).

(** value_functions.py:499-508 = 420-429: the constraints on consecutive points, best rank first; [v] the values in that order, [r] the sorted ranks *)
Definition ineq_constr (v : list Q) (r : list Z) (delta ep : Q) : list Q :=
  map (fun p => let diff := (nth p v 0 - nth (S p) v 0)%Q in
                if (nth p r 0 =? nth (S p) r 0)%Z then (Qabs diff - delta * ep)%Q else (- diff + ep)%Q)
      (seq 0 (length v - 1)).
(** value_functions.py:524-529 [_sort_P]: [J] = argsort of the ranks; [ranks.sort()] (lines 92, 152) leaves the ranks in the same order *)
Definition sort_P {A} (J : list nat) (d : A) (P : list A) : list A := map (fun i => nth i P d) J.

Definition qle0 (x : Q) : bool := Qle_bool x 0.
Definition in01 (x : Q) : bool := Qle_bool 0 x && Qle_bool x 1.

(** value_functions.py:145-206 [create_vf_scipy_linear] and 638-668 [_validate_vf]: the result is accepted ([fit]) iff no constraint (inequalities, weights
    summing to 1: 555-562, bounds: 168-175) is violated and epsilon is not negative.  [x] the weights, [ep] epsilon. *)
Definition linear_fit (P : list (list Q)) (ranks : list Z) (J : list nat) (delta eps_max : Q) (x : list Q) (ep : Q) : bool :=
  let v := map (fun p => linear_vf p x) (sort_P J [] P) in
  forallb qle0 (ineq_constr v (sort_P J 0%Z ranks) delta ep) &&
  Qeq_bool (fold_right Qplus 0%Q x - 1) 0 && forallb in01 x && Qle_bool ep eps_max && Qle_bool 0 ep.

(** value_functions.py:71-142 [create_vf_scipy_poly], with 347-355 (the weights of each factor sum to 1), 399-431 (each factor non-negative at each rated
    point) and the bounds of lines 97-108 *)
Definition poly_fit (P : list (list Q)) (ranks : list Z) (J : list nat) (delta eps_max : Q) (M : nat) (x : list Q) (ep : Q) : bool :=
  let P' := sort_P J [] P in
  let v := map (fun p => poly_vf p x) P' in
  forallb qle0 (flat_map (fun p => map (fun s => (s * -1)%Q) (calc_S p x)) P') &&
  forallb qle0 (ineq_constr v (sort_P J 0%Z ranks) delta ep) &&
  forallb (fun m => Qeq_bool (- (fold_right Qplus 0%Q (firstn M (skipn (m * M) x)) - 1)) 0) (seq 0 M) &&
  forallb in01 (firstn (M * M) x) && Qle_bool ep eps_max && Qle_bool 0 ep.

(** value_functions.py:571-580 [vf_comparator(vf, P_rank_2, P)] *)
Definition vf_comparator {A} (vf : A -> Q) (p2 p : A) : Z :=
  if Qle_bool (vf p2) (vf p) then (if Qle_bool (vf p) (vf p2) then 0%Z else 1%Z) else (-1)%Z.
