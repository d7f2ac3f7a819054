(** * Model of the distance indicators: /repo/pymoo/indicators/distance_indicator.py, gd.py, gd_plus.py, igd.py, igd_plus.py,
    /repo/pymoo/core/indicator.py, PreNormalization (/repo/pymoo/util/normalization.py:202-217) and vectorized_cdist (/repo/pymoo/util/misc.py:347-387).
    Exact real arithmetic.  moocore's igd and igd_plus are external functions. *)
From Coq Require Import List Reals.
From Verif Require Import ListAux M_NSGA3R.
Import ListNotations.
Local Open Scope R_scope.

Definition rmin_list (l : list R) : R := match l with [] => 0 | x :: l => fold_left Rmin l x end.
Definition rmax_list (l : list R) : R := match l with [] => 0 | x :: l => fold_left Rmax l x end.
Definition rcol (j : nat) (X : list (list R)) : list R := map (fun r => nth j r 0) X.
(** distance_indicator.py:12-14; a scalar norm of 1.0 is a vector of ones *)
Definition euclidean_distance (norm : list R) (a b : list R) : R := sqrt (rsum (map2 (fun d n => (d / n) ^ 2) (map2 Rminus a b) norm)).
(** distance_indicator.py:17-22; [z] from the Pareto front, [a] the solution *)
Definition modified_distance (norm : list R) (z a : list R) : R :=
  let d := map2 Rminus a z in
  let d := map (fun x => if Rlt_dec x 0 then 0 else x) d in
  sqrt (rsum (map2 (fun d n => (d / n) ^ 2) d norm)).
(** misc.py:371-375: np.repeat, np.tile, reshape *)
Definition cdist (dist : list R -> list R -> R) (A B : list (list R)) : list (list R) :=
  let u := flat_map (fun a => repeat a (length B)) A in
  let v := concat (repeat B (length A)) in
  reshape (length A) (length B) (map2 dist u v).
(** np.min(D, axis) of a matrix with [k] columns; np.mean *)
Definition min_axis (axis k : nat) (D : list (list R)) : list R :=
  match axis with 0%nat => map (fun j => rmin_list (rcol j D)) (seq 0 k) | _ => map rmin_list D end.
Definition mean (l : list R) : R := rsum l / INR (length l).
(** PreNormalization: ZeroToOneNormalization(ideal, nadir).forward for one entry (equal bounds: only shifted) *)
Definition to_unit (l u x : R) : R := if Req_EM_T l u then x - l else (x - l) / (u - l).

Record dind_conf := { i_plus : bool; i_axis : nat; i_zero_to_one : bool; i_norm_by_dist : bool; i_pf : list (list R); i_ideal : option (list R); i_nadir : option (list R) }.
Section Indicator.
  Variables (m : nat) (c : dind_conf).
  (** distance_indicator.py:25-38 *)
  Definition ideal_of : list R := match i_ideal c with Some v => v | None => map (fun j => rmin_list (rcol j (i_pf c))) (seq 0 m) end.
  Definition nadir_of : list R := match i_nadir c with Some v => v | None => map (fun j => rmax_list (rcol j (i_pf c))) (seq 0 m) end.
  Definition forward (X : list (list R)) : list (list R) :=
    if i_zero_to_one c then map (fun r => map2 (fun lu x => to_unit (fst lu) (snd lu) x) (combine ideal_of nadir_of) r) X else X.
  (** distance_indicator.py:77-89; with zero_to_one the ideal and nadir points have become zeros and ones *)
  Definition dist_norm : list R :=
    if i_norm_by_dist c then if i_zero_to_one c then map2 Rminus (repeat 1 m) (repeat 0 m) else map2 Rminus nadir_of ideal_of else repeat 1 m.
  Definition dist_do (pf F : list (list R)) : R :=
    let dist := if i_plus c then modified_distance dist_norm else euclidean_distance dist_norm in
    mean (min_axis (i_axis c) (length F) (cdist dist pf F)).
  (** core/indicator.py:18-31 with [inner] = self._do *)
  Definition indicator_do (inner : list (list R) -> list (list R) -> R) (F : list (list R)) : R :=
    match F with [] => 0 | _ => inner (forward (i_pf c)) (forward F) end.
End Indicator.
Definition conf (plus : bool) (axis : nat) (zero_to_one by_dist : bool) (pf : list (list R)) (ideal nadir : option (list R)) : dind_conf :=
  {| i_plus := plus; i_axis := axis; i_zero_to_one := zero_to_one; i_norm_by_dist := by_dist; i_pf := pf; i_ideal := ideal; i_nadir := nadir |}.
(** gd.py and gd_plus.py *)
Definition gd (plus : bool) (m : nat) (zto by_dist : bool) (pf : list (list R)) (ideal nadir : option (list R)) (F : list (list R)) : R :=
  let c := conf plus 0 zto by_dist pf ideal nadir in indicator_do m c (dist_do m c) F.
(** igd.py and igd_plus.py; [moo] = moocore.igd / moocore.igd_plus with arguments (F, ref) *)
Definition igd (moo : list (list R) -> list (list R) -> R) (plus : bool) (m : nat) (zto by_dist : bool) (pf : list (list R)) (ideal nadir : option (list R)) (F : list (list R)) : R :=
  let c := conf plus 1 zto by_dist pf ideal nadir in
  indicator_do m c (fun pf F => if by_dist then dist_do m c pf F else moo F pf) F.
