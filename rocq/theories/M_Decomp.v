(** * Model of /repo/pymoo/core/decomposition.py and /repo/pymoo/decomposition/{asf,aasf,tchebicheff,weighted_sum,pbi,perp_dist,util}.py.
    Rational numbers with a rounding [rnd] after every operation ([rnd := fun x => x] is exact arithmetic); a sum over a row is evaluated
    along a tree [t] of additions, since numpy's order of summation depends on the length.  NaN, infinities and overflow are not modelled.
    Rows have at least one entry (numpy raises on the maximum of an empty row). *)
From Coq Require Import List Arith Bool ZArith QArith.
From Verif Require Import ListAux M_Individual M_Survival.
Import ListNotations.
Local Open Scope nat_scope.

Inductive stree := SLeaf (i : nat) | SNode (a b : stree).
Fixpoint tsum (rnd : Q -> Q) (t : stree) (v : list Q) : Q :=
  match t with SLeaf i => nth i v 0%Q | SNode a b => rnd (tsum rnd a v + tsum rnd b v)%Q end.

(** A scalarisation of one row: utopian point, objectives, weights *)
Definition scal := list Q -> list Q -> list Q -> Q.
(** weighted_sum.py:8-9 (the utopian point is not used) *)
Definition weighted_sum (rnd : Q -> Q) (t : stree) : scal := fun _ f w => tsum rnd t (map2 (fun a b => rnd (a * b)%Q) f w).
(** tchebicheff.py:9-12 *)
Definition tchebicheff (rnd : Q -> Q) : scal := fun u f w =>
  q_max_list (map2 (fun a b => rnd (a * b)%Q) (map2 (fun a b => qabs (rnd (a - b)%Q)) f u) w).
(** asf.py:11-26: weights equal to zero are replaced by weight_0 *)
Definition asf (rnd : Q -> Q) (weight_0 : Q) : scal := fun u f w =>
  q_max_list (map2 (fun a b => rnd (a / b)%Q) (map2 (fun a b => rnd (a - b)%Q) f u) (map (fun x => if Qeq_bool x 0 then weight_0 else x) w)).
(** aasf.py:41-55: np.clip(weights, 1e-12, inf) *)
Definition aasf (rnd : Q -> Q) (t : stree) (rho weight_0 clip : Q) : scal := fun u f w =>
  let augment := tsum rnd t (map2 (fun a b => rnd (a / b)%Q) (map2 (fun a b => rnd (a - b)%Q) f u) (map (fun x => if Qle_bool clip x then x else clip) w)) in
  rnd (asf rnd weight_0 u f w + rnd (rho * augment))%Q.
(** decomposition/util.py:6-25 [calc_distance_to_weights]; np.linalg.norm = [sq] of the sum of squares *)
Definition norm2 (v : list Q) : Q := qsum (map (fun a => a * a)%Q v).
Definition distance_to_weights (sq : Q -> Q) (u : option (list Q)) (f w : list Q) : Q * Q :=
  let nrm := sq (norm2 w) in
  let f := match u with Some u => map2 Qminus f u | None => f end in
  let d1 := (qsum (map2 Qmult f w) / nrm)%Q in
  (d1, sq (norm2 (map2 (fun a b => a - d1 * b / nrm)%Q f w))).
(** pbi.py:12-14 *)
Definition pbi (sq : Q -> Q) (theta : Q) : scal := fun u f w => let '(d1, d2) := distance_to_weights sq (Some u) f w in (d1 + theta * d2)%Q.
(** perp_dist.py:12-14: the utopian point is not passed on *)
Definition perp_dist (sq : Q -> Q) : scal := fun _ f w => snd (distance_to_weights sq None f w).

(** numpy arrays: one-dimensional, or two-dimensional with [m] columns *)
Inductive arr := A1 (v : list Q) | A2 (m : nat) (rows : list (list Q)).
(** misc.py:443-474 [at_least_2d_array], 477-493 [to_1d_array_if_possible] (only its ndim and shape[0] matter) *)
Definition rows_of (a : arr) : list (list Q) := match a with A1 v => [v] | A2 _ r => r end.
Definition cols_of (a : arr) : nat := match a with A1 v => length v | A2 m _ => m end.
Definition ndim (a : arr) : nat := match a with A1 _ => 1 | A2 m r => if (length r =? 1) || (m =? 1) then 1 else 2 end.

Inductive dtype := TAuto | TOneToOne | TOneToMany | TManyToOne | TManyToMany.
Inductive dout := D1 (v : list Q) | D2 (rows : list (list Q)).
(** core/decomposition.py:31-39 *)
Definition auto_type (F W : arr) : dtype :=
  if (ndim F =? 1) && (1 <? ndim W) then TOneToMany
  else if (1 <? ndim F) && (ndim W =? 1) then TManyToOne
  else if (ndim F =? 2) && (ndim W =? 2) && (length (rows_of F) =? length (rows_of W)) then TOneToOne
  else TManyToMany.
(** row-wise evaluation of [_do] on two matrices: numpy broadcasting of the rows; None: shapes do not match *)
Definition bcast (sc : list Q -> list Q -> Q) (F W : list (list Q)) : option (list Q) :=
  if length F =? length W then Some (map2 sc F W)
  else match F, W with
       | [f], _ => Some (map (sc f) W)
       | _, [w] => Some (map (fun f => sc f w) F)
       | _, _ => None
       end.
(** np.repeat(A, k, axis=0), np.tile(A, (k, 1)) *)
Definition np_repeat {A} (l : list A) (k : nat) : list A := flat_map (fun x => repeat x k) l.
Definition np_tile {A} (l : list A) (k : nat) : list A := concat (repeat l k).
(** core/decomposition.py:51-58 *)
Definition utopian (rnd : Q -> Q) (eps : Q) (m : nat) (ideal utop : option (list Q)) : list Q :=
  match utop with
  | Some u => u
  | None => map (fun z => rnd (z - eps)%Q) (match ideal with Some i => i | None => repeat 0%Q m end)
  end.
(** core/decomposition.py:18-79 [Decomposition.do]; the constructor's [_type] is stored and never read, [init_type] *)
Definition decomp_do (sc : scal) (rnd : Q -> Q) (eps : Q) (init_type : dtype) (F W : arr) (ty : dtype) (ideal utop : option (list Q)) : option dout :=
  let ty := match ty with TAuto => auto_type F W | t => t end in
  let Fr := rows_of F in let Wr := rows_of W in
  let np := length Fr in let nw := length Wr in
  let u := utopian rnd eps (cols_of F) ideal utop in
  match ty with
  | TOneToOne => option_map D1 (bcast (sc u) Fr Wr)
  | TOneToMany => option_map D1 (bcast (sc u) (np_repeat Fr nw) Wr)
  | TManyToOne => option_map D1 (bcast (sc u) Fr (np_repeat Wr np))
  | _ => option_map (fun v => D2 (reshape np nw v)) (bcast (sc u) (np_repeat Fr nw) (np_tile Wr np))
  end.
