(** * Model of /repo/pymoo/util/running_metric.py [RunningMetric] and /repo/pymoo/indicators/migd.py [MIGD].
    Objectives are exact rationals; the only rounding kept is the addition of 1e-16 ([bump]), because it decides between two branches; a division by
    zero gives infinity or NaN as in numpy. *)
From Coq Require Import List Arith Bool QArith Qabs ZArith Reals Qreals.
From Verif Require Import ListAux M_Termination M_Default M_Indicator M_HV M_Dyn.
Import ListNotations.

(** a non-negative double after a division *)
Inductive num := Num (q : Q) | PInf | NaN.
(** np.abs(d / n) of one entry *)
Definition num_div (d n : Q) : num := if Qeq_bool n 0 then (if Qeq_bool d 0 then NaN else PInf) else Num (Qabs (d / n)).
(** np.max: NaN wins, then infinity *)
Definition num_max (a b : num) : num :=
  match a, b with
  | NaN, _ | _, NaN => NaN
  | PInf, _ | _, PInf => PInf
  | Num a, Num b => Num (py_max a [b])
  end.
(** termination/ftol.py:15-16 [calc_delta_norm], with divisions by zero *)
Definition delta_norm (a b norm : list Q) : num :=
  match map2 num_div (map2 Qminus a b) norm with [] => NaN | x :: l => fold_left num_max l x end.

(** running_metric.py:57: what is remembered of one generation *)
Record entry := { e_F : list (list Q); e_ideal : list Q; e_nadir : list Q }.
Section Running.
  Context {V : Type}.
  (** [bump v]: the double v + 1e-16; [ind c n]: the indicator of the generation [n] seen from the current one [c], both normalised *)
  Variables (bump : Q -> Q) (ind : list (list Q) -> list (list Q) -> V).
  (** running_metric.py:47-54: the entry to remember, and the normalisation constant *)
  Definition rm_entry (F : list (list Q)) : entry :=
    {| e_F := F; e_ideal := col_min F; e_nadir := map2 (fun a b => if Qeq_bool a b then bump b else b) (col_min F) (col_max F) |}.
  Definition rm_norm (F : list (list Q)) : list Q :=
    let norm := map2 Qminus (col_max F) (col_min F) in let e := rm_entry F in
    map2 (fun n eq => if eq : bool then 1%Q else n) norm (map2 Qeq_bool (e_ideal e) (e_nadir e)).
  (** running_metric.py:66-71 *)
  Definition rm_deltas (get : entry -> list Q) (norm : list Q) (h : list entry) : list num :=
    map (fun k => delta_norm (get (nth k h (rm_entry []))) (get (nth (k - 1) h (rm_entry []))) norm) (seq 1 (length h - 1)) ++ [Num 0].
  (** the attributes: history, and delta_ideal, delta_nadir, delta_f (None before the first update) *)
  Record rm_state := { rm_history : list entry; rm_out : option (list num * list num * list V) }.
  Definition rm_new : rm_state := {| rm_history := []; rm_out := None |}.
  (** running_metric.py:36-86 [RunningMetric.update]; [None]: algorithm.opt is None *)
  Definition rm_update (period : option nat) (s : rm_state) (opt : option (list (list Q))) : rm_state :=
    match opt with
    | None => s
    | Some F =>
        let e := rm_entry F in
        let norm := rm_norm F in
        let h := window_append period (rm_history s) e in
        let N := map (fun e' => map (normalize_row (e_ideal e) (e_nadir e)) (e_F e')) h in
        let c_N := map (normalize_row (e_ideal e) (e_nadir e)) F in
        {| rm_history := h; rm_out := Some (rm_deltas e_ideal norm h, rm_deltas e_nadir norm h, map (ind c_N) N) |}
    end.
  Definition rm_run (period : option nat) (opts : list (option (list (list Q)))) : rm_state := fold_left (rm_update period) opts rm_new.
End Running.
Arguments rm_state : clear implicits.
(** running_metric.py:74-75: IGD(c_N).do(N[k]); [moo]: the function of moocore, [m] objectives *)
Definition rm_igd (moo : list (list R) -> list (list R) -> R) (m : nat) (c_N N : list (list Q)) : R :=
  igd moo false m false false (map (map Q2R) c_N) None None (map (map Q2R) N).
(** running_metric.py:76-78: Hypervolume(ref_point=np.ones(m)).do(N[k]); points of doubles, no normalisation *)
Definition rm_hv (m : nat) (c_N N : list (list Q)) : Q := match N with [] => 0%Q | _ => moo_hypervolume N (repeat 1%Q m) end.

(** ** MIGD *)
Section MIGD.
  Context {V X : Type}.
  (** [calc n t]: the front of the problem; [evalf t x]: problem.evaluate at the time [t]; [igdf pf F] = IGD(pf).do(F) *)
  Variables (calc : nat -> Q -> V) (evalf : Q -> list X -> list (list R)) (igdf : V -> list (list R) -> R).
  (** migd.py:26-51 [MIGD.update]; the population has the variables [xs] and the stored objectives [fs]; 100 is the default number of points
      of pareto_front() (df.py); None: the assertion, or no time *)
  Definition migd_update (reevaluate : bool) (n_constr : nat) (st : dyn V * list (Q * R)) (pop : list X * list (list R)) : option (dyn V * list (Q * R)) :=
    let '(p, records) := st in
    if (n_constr =? 0)%nat then
      match dyn_time p with
      | None => None
      | Some t =>
          let '(p', pf) := dyn_do calc p (Front 100 true true) in
          match pf with
          | None => None
          | Some pf => Some (p', records ++ [(t, igdf pf (if reevaluate then evalf t (fst pop) else snd pop))])
          end
      end
    else None.
  (** what happens to the problem and the callback: the clock moves on, or the callback is called *)
  Inductive migd_op := Move (elapsed : Z) | Call (pop : list X * list (list R)).
  Fixpoint migd_run (reevaluate : bool) (n_constr : nat) (st : dyn V * list (Q * R)) (os : list migd_op) : option (dyn V * list (Q * R)) :=
    match os with
    | [] => Some st
    | Move e :: os => migd_run reevaluate n_constr (fst (dyn_do calc (fst st) (Tic e)), snd st) os
    | Call pop :: os => match migd_update reevaluate n_constr st pop with None => None | Some st' => migd_run reevaluate n_constr st' os end
    end.
  (** migd.py:53-54: the mean of no numbers is NaN ([None]) *)
  Definition migd_value (records : list (Q * R)) : option R := match records with [] => None | _ => Some (mean (map snd records)) end.
End MIGD.
