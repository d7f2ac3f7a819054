(** * Model of the decision making methods: /repo/pymoo/mcdm/{pseudo_weights,high_tradeoff,compromise_programming}.py and /repo/pymoo/core/decision_making.py, called through
    Indicator.do (/repo/pymoo/core/indicator.py) with zero_to_one=False.  Exact real arithmetic with NaN and +inf where a division by zero produces them; a matrix is the list of its
    rows, all of length m.  [None]: an exception. The kd-tree queries of scipy are modelled by what they return. *)
From Coq Require Import String List Arith Bool Reals.
From Verif Require Import ListAux M_NSGA3R M_Indicator.
Import ListNotations.
Local Open Scope R_scope.

Inductive xr := XNaN | XInf | XFin (r : R).
(** s / g for s, g >= 0 *)
Definition xdiv (s g : R) : xr := if Req_EM_T g 0 then (if Req_EM_T s 0 then XNaN else XInf) else XFin (s / g).
Definition is_nan (x : xr) : bool := match x with XNaN => true | _ => false end.
Definition xltb (x y : xr) : bool :=
  match x, y with XFin a, XFin b => if Rlt_dec a b then true else false | XFin _, XInf => true | _, _ => false end.
(** np.argmin of floats: the first NaN, else the first least entry *)
Fixpoint first_nan (l : list xr) : option nat := match l with [] => None | x :: l => if is_nan x then Some 0%nat else option_map S (first_nan l) end.
Definition least_pos (l : list xr) : nat := fst (fold_left (fun (b : nat * xr) (kv : nat * xr) => if xltb (snd kv) (snd b) then kv else b) (combine (seq 0 (length l)) l) (0%nat, hd XNaN l)).
Definition x_argmin (l : list xr) : nat := match first_nan l with Some k => k | None => least_pos l end.

(** ** pseudo_weights.py:13-33 *)
Section PW.
  Variables (m : nat) (ideal_arg nadir_arg : option (list R)) (weights : list R).
  (** :17-20 *)
  Definition pw_ideal (F : list (list R)) : list R := match ideal_arg with Some v => v | None => map (fun j => rmin_list (rcol j F)) (seq 0 m) end.
  Definition pw_nadir (F : list (list R)) : list R := match nadir_arg with Some v => v | None => map (fun j => rmax_list (rcol j F)) (seq 0 m) end.
  (** :23 the normalised distances to the worst values of one row (no division by zero) *)
  Definition pw_dist (ideal nadir f : list R) : list R := map (fun j => (nth j nadir 0 - nth j f 0) / (nth j nadir 0 - nth j ideal 0)) (seq 0 m).
  (** :26 divided by their sum *)
  Definition pw_row (ideal nadir f : list R) : list R := let d := pw_dist ideal nadir f in map (fun v => v / rsum d) d.
  (** :29 np.sum(np.abs(pseudo_weights - self.weights), axis=1) of one row.  An entry x/0 is NaN or infinite, and so is the sum; dividing by it gives NaN.  If only the sum is zero, entries
      are divided by it: NaN if one of them is zero, infinite otherwise *)
  Definition pw_score (ideal nadir f : list R) : xr :=
    if existsb (fun j => if Req_EM_T (nth j nadir 0) (nth j ideal 0) then true else false) (seq 0 m) then XNaN
    else if Req_EM_T (rsum (pw_dist ideal nadir f)) 0 then (if existsb (fun v => if Req_EM_T v 0 then true else false) (pw_dist ideal nadir f) then XNaN else XInf)
    else XFin (rsum (map (fun j => Rabs (nth j (pw_row ideal nadir f) 0 - nth j weights 0)) (seq 0 m))).
  (** Indicator.do and _do: the index returned; no rows: default_if_empty = None (here [Some None]) *)
  Definition pseudo_weights (F : list (list R)) : option nat :=
    match F with [] => None | _ => Some (x_argmin (map (pw_score (pw_ideal F) (pw_nadir F)) F)) end.
End PW.

(** ** core/decision_making.py:79-99 [find_outliers_upper_tail]; mu.std() is the population standard deviation *)
Definition finite_pos (mu : list xr) : list (nat * R) := flat_map (fun kv => match snd kv with XFin r => [(fst kv, r)] | _ => [] end) (combine (seq 0 (length mu)) mu).
Definition variance (l : list R) : R := mean (map (fun v => (v - mean l)^2) l).
Definition std (l : list R) : R := sqrt (variance l).
(** deviation >= 2 and deviation.max() > 1; with sigma = 0 the deviations are NaN (all values are equal) and both are false *)
Definition dev_ge (l : list R) (k : R) (v : R) : bool := if Req_EM_T (std l) 0 then false else if Rle_dec k ((v - mean l) / std l) then true else false.
Definition dev_gt (l : list R) (k : R) (v : R) : bool := if Req_EM_T (std l) 0 then false else if Rlt_dec k ((v - mean l) / std l) then true else false.
(** np.argmax of finite values: the first largest *)
Definition argmax_pos (l : list (nat * R)) : nat * R := fold_left (fun b kv => if Rlt_dec (snd b) (snd kv) then kv else b) l (hd (0%nat, 0) l).
(** [None]: deviation.max() of an empty array raises; [Some None]: returns None *)
Definition find_outliers (mu : list xr) : option (option (list nat)) :=
  let J := finite_pos mu in
  let v := map snd J in
  let S := map fst (filter (fun kv => dev_ge v 2 (snd kv)) J) in
  match S with
  | _ :: _ => Some (Some S)
  | [] => match J with [] => None | _ => if dev_gt v 1 (rmax_list v) then Some (Some [fst (argmax_pos J)]) else Some None end
  end.

(** ** core/decision_making.py:18-76 [NeighborFinder] as high_tradeoff.py:22 uses it: epsilon = 0.125, n_min_neigbors = "auto", consider_2d = False.  [ball i r]: tree.query_ball_point (the
    points within distance r of point i); [knn i k]: tree.query with k neighbours (point i itself counts) *)
Section HT.
  Variables (m : nat) (ball : nat -> R -> list nat) (knn : nat -> nat -> list nat).
  Definition ht_n_min (n : nat) : nat := Nat.min (2 * m) (n - 1).
  Definition ht_neighbors (n i : nat) : list nat := let nb := ball i (1/8) in if (length nb <? ht_n_min n)%nat then knn i (ht_n_min n + 1) else nb.
  (** high_tradeoff.py:29-40 *)
  Definition sacrifice (f g : list R) : R := rsum (map (fun j => Rmax 0 (nth j g 0 - nth j f 0)) (seq 0 m)).
  Definition gain (f g : list R) : R := rsum (map (fun j => Rmax 0 (- (nth j g 0 - nth j f 0))) (seq 0 m)).
  (** np.nanmin: NaN entries ignored; NaN if there is no other *)
  Definition nanmin (l : list xr) : xr := match filter (fun x => negb (is_nan x)) l with [] => XNaN | x :: l => fold_left (fun a b => if xltb b a then b else a) l x end.
  Definition tradeoffs (F : list (list R)) : list xr :=
    map (fun i => nanmin (map (fun k => xdiv (sacrifice (nth i F []) (nth k F [])) (gain (nth i F []) (nth k F []))) (ht_neighbors (length F) i))) (seq 0 (length F)).
  (** the epsilon of the constructor is stored and not used; with one objective NeighborFinder raises; no rows: None *)
  Definition high_tradeoff (epsilon : R) (F : list (list R)) : option (option (list nat)) :=
    match F with [] => Some None | _ => if (m =? 1)%nat then None else find_outliers (tradeoffs F) end.
End HT.

(** ** compromise_programming.py: _do reads self.ideal_point and self.nadir_point.  The attributes an instance has (PreNormalization.__init__, Indicator, DecisionMaking, the class itself) *)
Definition compromise_attrs : list string := ["ideal"; "nadir"; "normalization"; "default_if_empty"; "metric"]%string.
Definition getattr (n : string) : option unit := if existsb (String.eqb n) compromise_attrs then Some tt else None.
Definition compromise (F : list (list R)) : option (option nat) :=
  match F with [] => Some None | _ => match getattr "ideal_point", getattr "nadir_point" with Some _, Some _ => Some None | _, _ => None end end.
