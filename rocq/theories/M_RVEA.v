(** * Model of RVEA: /repo/pymoo/algorithms/moo/rvea.py, in exact real arithmetic (rounding errors are not modelled).
    NaN is [None]: a reference vector of length zero divided by its length is a row of NaN.  A population is its list of objective vectors; survivors are positions.
    (n_gen / n_max_gen) ** alpha is a parameter [w]; the attributes written into the individuals (theta, apd, niche, opt) are not modelled. *)
From Coq Require Import List Arith Bool ZArith QArith Qround Reals.
From Verif Require Import ListAux M_NSGA3R.
Import ListNotations.
Local Open Scope nat_scope.

(** rvea.py:78-83 [_setup]: a budget of evaluations is converted into generations *)
Definition rvea_n_gen (n_max_evals pop_size n_off : nat) : Z :=
  Qceiling ((inject_Z (Z.of_nat n_max_evals) - inject_Z (Z.of_nat pop_size)) / inject_Z (Z.of_nat n_off)).
(** evaluations made when every generation evaluates all its infills: the first [pop_size], the others [n_off]; the run ends after generation [g] when g >= n_max_gen *)
Definition rvea_evals (n_max_evals pop_size n_off : nat) : nat := pop_size + (Z.to_nat (rvea_n_gen n_max_evals pop_size n_off) - 1) * n_off.

Local Open Scope R_scope.
Definition tiny : R := / 10 ^ 64.
(** rvea.py:117-118 [calc_V] *)
Definition unit_row (u : list R) : option (list R) := if Req_EM_T (norm u) 0 then None else Some (map (fun x => x / norm u) u).
Definition calc_V (dirs : list (list R)) : list (option (list R)) := map unit_row dirs.
Definition dotN (u v : option (list R)) : option R := match u, v with Some u, Some v => Some (dot u v) | _, _ => None end.
(** -np.sort(-x): descending, NaN last *)
Fixpoint insertN (x : option R) (l : list (option R)) : list (option R) :=
  match l with
  | [] => [x]
  | y :: r => match x, y with
              | None, Some _ => y :: insertN x r
              | Some a, Some b => if Rlt_dec a b then y :: insertN x r else x :: l
              | _, None => x :: l
              end
  end.
Definition sortN (l : list (option R)) : list (option R) := fold_right insertN [] l.
(** rvea.py:111-114 [calc_gamma]; raises with a single direction *)
Definition calc_gamma (V : list (option (list R))) : list (option R) :=
  map (fun u => option_map (fun c => Rmax (acos c) tiny) (nth 1 (sortN (map (dotN u) V)) None)) V.
(** np.argmin: the first NaN, if there is one *)
Fixpoint firstN (l : list (option R)) : option nat := match l with [] => None | None :: _ => Some 0%nat | Some _ :: r => option_map S (firstN r) end.
Definition argminN (l : list (option R)) : nat := match firstN l with Some k => k | None => argminR (map (fun x => match x with Some r => r | None => 0 end) l) end.
(** np.minimum, column by column; the initial ideal point is infinite *)
Definition col_minR (F : list (list R)) : list R := match F with [] => [] | f :: r => fold_left (map2 Rmin) r f end.
Definition col_maxR (F : list (list R)) : list R := match F with [] => [] | f :: r => fold_left (map2 Rmax) r f end.
Definition new_ideal (old : option (list R)) (F : list (list R)) : list R := match old with None => col_minR F | Some i => map2 Rmin (col_minR F) i end.

Section APD.
  Variables (V : list (option (list R))) (gamma : list (option R)) (ideal : list R) (pen : R).
  (** rvea.py:163-169 *)
  Definition shifted (f : list R) : list R := map2 Rminus f ideal.
  Definition dist_to_ideal (f : list R) : R := if Rlt_dec (norm (shifted f)) tiny then tiny else norm (shifted f).
  (** lines 172-175 *)
  Definition angle (f : list R) (k : nat) : option R :=
    match nth k V None with None => None | Some v => Some (acos (dot (map (fun x => x / dist_to_ideal f) (shifted f)) v)) end.
  Definition niche (f : list R) : nat := argminN (map (angle f) (seq 0 (length V))).
  (** lines 178-180 *)
  Definition assigned (F : list (list R)) (k : nat) : list nat := where_ (fun i => Nat.eqb (niche (nth i F [])) k) (length F).
  (** lines 196-204; [pen] = M * (n_gen / n_max_gen) ** alpha *)
  Definition apd (k : nat) (f : list R) : option R :=
    match angle f k, nth k gamma None with Some t, Some g => Some (dist_to_ideal f * (1 + pen * (t / g))) | _, _ => None end.
  (** lines 186-214 *)
  Definition niche_survivor (F : list (list R)) (k : nat) : list nat :=
    match assigned F k with [] => [] | l => [nth (argminN (map (fun i => apd k (nth i F [])) l)) l 0%nat] end.
  Definition apd_survivors (F : list (list R)) : list nat := flat_map (niche_survivor F) (seq 0 (length V)).
End APD.
(** rvea.py:197 *)
Definition pen_factor (n_obj : nat) (w : R) : R := (if (2 <? n_obj)%nat then INR n_obj else 1) * w.
(** the state of the survival object: rvea.py:122-135 *)
Record apd_state := { s_V : list (option (list R)); s_gamma : list (option R); s_ideal : option (list R); s_nadir : option (list R) }.
Definition apd_init (dirs : list (list R)) : apd_state := let V := calc_V dirs in {| s_V := V; s_gamma := calc_gamma V; s_ideal := None; s_nadir := None |}.
(** rvea.py:142-218 [_do] *)
Definition apd_do (n_obj : nat) (w : R) (st : apd_state) (F : list (list R)) : list nat * apd_state :=
  let ideal := new_ideal (s_ideal st) F in
  let surv := apd_survivors (s_V st) (s_gamma st) ideal (pen_factor n_obj w) F in
  (surv, {| s_V := s_V st; s_gamma := s_gamma st; s_ideal := Some ideal; s_nadir := Some (col_maxR (gather [] F surv)) |}).
(** rvea.py:137-140 [adapt] *)
Definition apd_adapt (dirs : list (list R)) (st : apd_state) : apd_state :=
  match s_nadir st, s_ideal st with
  | Some nadir, Some ideal =>
      let V := map (fun u => match unit_row u with None => None | Some v => unit_row (map2 Rmult v (map2 Rminus nadir ideal)) end) dirs in
      {| s_V := V; s_gamma := calc_gamma V; s_ideal := s_ideal st; s_nadir := s_nadir st |}
  | _, _ => st
  end.
(** rvea.py:99-103 [_set_optimum], given the positions of the population *)
Definition rvea_opt {A} (d : A) (feas : A -> bool) (argmin_cv : list A -> nat) (pop : list A) : list A :=
  if existsb feas pop then pop else [nth (argmin_cv pop) pop d].
