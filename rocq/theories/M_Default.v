(** * Model of /repo/pymoo/termination/ftol.py, xtol.py, cv.py and default.py: the criteria that stop an optimisation when no termination is given.
    Numbers are exact rationals (the IGD between two sets of points, a mean of square roots, is an argument); NaN does not occur.
    An observation is what the criteria read from the algorithm: n_iter, the number of evaluations, problem.has_constraints(), and objectives, feasibility,
    constraint violation and (normalised, xtol.py:25-34) variables of the individuals in algorithm.opt. *)
From Coq Require Import List Arith Bool QArith Qabs.
From Verif Require Import ListAux M_Termination.
Import ListNotations.
Local Open Scope nat_scope.

Record tobs (X : Type) := { ob_n_gen : nat; ob_n_eval : nat; ob_constr : bool; ob_F : list (list Q); ob_feas : list bool; ob_cv : list Q; ob_x : X }.
Arguments ob_n_gen {X}. Arguments ob_n_eval {X}. Arguments ob_constr {X}. Arguments ob_F {X}. Arguments ob_feas {X}. Arguments ob_cv {X}. Arguments ob_x {X}.

(** boolean indexing F[feas] *)
Definition keep_rows {A} (l : list A) (m : list bool) : list A := map fst (filter snd (combine l m)).

(** ftol.py:19-40 [SingleObjectiveSpaceTermination]: the least (feasible) objective value, [None] = infinity *)
Definition so_data {X} (only_feas : bool) (o : tobs X) : option Q :=
  match map (hd 0%Q) (if only_feas then keep_rows (ob_F o) (ob_feas o) else ob_F o) with [] => None | f :: l => Some (py_min f l) end.
Definition so_delta (prev cur : option Q) : option Q :=
  match prev, cur with Some a, Some b => Some (py_max 0 [(a - b)%Q]) | _, _ => None end.

(** ftol.py:15-16 [calc_delta_norm] *)
Definition calc_delta_norm (a b norm : list Q) : Q :=
  match map2 (fun d n => Qabs (d / n)) (map2 Qminus a b) norm with [] => 0%Q | x :: l => py_max x l end.
Definition col_min (F : list (list Q)) : list Q := match F with [] => [] | r :: rs => fold_left (map2 (fun a b => py_min a [b])) rs r end.
Definition col_max (F : list (list Q)) : list Q := match F with [] => [] | r :: rs => fold_left (map2 (fun a b => py_max a [b])) rs r end.
(** util/normalization.py: [normalize] with both bounds: a column whose bounds coincide is only shifted *)
Definition normalize_row (ideal nadir f : list Q) : list Q :=
  map2 (fun v b => if Qeq_bool (fst b) (snd b) then (v - fst b)%Q else ((v - fst b) / (snd b - fst b))%Q) f (combine ideal nadir).
(** ftol.py:43-95 [MultiObjectiveSpaceTermination]: the data are the (feasible) objective rows; [igd pf points] *)
Definition mo_data {X} (only_feas : bool) (o : tobs X) : list (list Q) := if only_feas then keep_rows (ob_F o) (ob_feas o) else ob_F o.
Definition mo_norm (cur : list (list Q)) : list Q :=
  map (fun d => if negb (Qle_bool (1 # (10 ^ 32)) d) then 1%Q else d) (map2 Qminus (col_max cur) (col_min cur)).
Definition mo_delta (igd : list (list Q) -> list (list Q) -> Q) (prev cur : list (list Q)) : option Q :=
  match prev, cur with
  | [], _ | _, [] => None
  | _, _ => let norm := mo_norm cur in
            let N := map (normalize_row (col_min cur) (col_max cur)) in
            Some (py_max (calc_delta_norm (col_min cur) (col_min prev) norm)
                    [calc_delta_norm (col_max cur) (col_max prev) norm; igd (N cur) (N prev)])
  end.

(** cv.py:7-31 [ConstraintViolationTermination]: the tolerance applies only while nothing feasible is in the optimum; [None]: min of an empty array *)
Definition set_perc {D} (st : @dstate D) (p : Q) : @dstate D := {| d_data := d_data st; d_counter := d_counter st; d_perc := p |}.
Definition cv_delta (prev cur : Q) : option Q := Some (py_max 0 [(prev - cur)%Q]).
Definition cv_update {X} (tol : Q) (n_skip : nat) (when_feasible : bool) (st : @dstate Q) (o : tobs X) : option (@dstate Q) :=
  if ob_constr o then
    if existsb (fun b => b) (ob_feas o) then Some (set_perc st (if when_feasible then 1 else 0))
    else match ob_cv o with [] => None | c :: l => Some (delta_update cv_delta tol n_skip st (py_min c l)) end
  else Some (set_perc st 0).

(** cv.py:34-48 [UntilFeasibleTermination]: progress of one update and the remembered initial violation *)
Definition until_feasible (init : option Q) (cv : Q) : Q * option Q :=
  let i := match init with Some i => i | None => if Qle_bool cv 0 then (1 # (10 ^ 32))%Q else cv end in ((1 - cv / i)%Q, Some i).
(** the outcome of successive updates through core/termination.py:15-31: [None] when the assertion fails, otherwise whether it has terminated *)
Fixpoint until_run (init : option Q) (cvs : list Q) : option bool :=
  match cvs with
  | [] => Some false
  | c :: r => let '(p, i) := until_feasible init c in
              if Qle_bool 0 p then match r with [] => Some (Qle_bool 1 p) | _ => until_run i r end else None
  end.

Section Default.
  Context {X : Type}.
  Variables (dx : X -> X -> option Q) (igd : list (list Q) -> list (list Q) -> Q) (xtol cvtol ftol : Q) (n_skip : nat).
  (** the three tolerance criteria with their states *)
  Inductive tstate := TX (s : @dstate X) | TCV (s : @dstate Q) | TF (s : @dstate (option Q)) | TM (s : @dstate (list (list Q))).
  Definition tstep (s : tstate) (o : tobs X) : option (tstate * Q) :=
    match s with
    | TX s => let s' := delta_update dx xtol n_skip s (ob_x o) in Some (TX s', d_perc s')
    | TCV s => match cv_update cvtol n_skip false s o with None => None | Some s' => Some (TCV s', d_perc s') end
    | TF s => let s' := delta_update so_delta ftol n_skip s (so_data true o) in Some (TF s', d_perc s')
    | TM s => let s' := delta_update (mo_delta igd) ftol n_skip s (mo_data true o) in Some (TM s', d_perc s')
    end.
  (** default.py:15-29 [DefaultTermination]; [f] is the criterion in the objective space *)
  Definition default_crit (f : tstate) (period : nat) (n_max_gen n_max_evals : limit) : crit tstate :=
    new (AnyOf [ new (Robust (new (Other (TX d_new))) period []);
                 new (Robust (new (Other (TCV d_new))) period []);
                 new (Robust (new (Other f)) period []);
                 new (MaxGen n_max_gen); new (MaxEval n_max_evals) ]).
  (** default.py:32-40 [DefaultSingleObjectiveTermination] (n_skip = 0), 43-51 [DefaultMultiObjectiveTermination] *)
  Definition default_single := default_crit (TF d_new).
  Definition default_multi := default_crit (TM d_new).
  Definition default_run (c : crit tstate) (os : list (tobs X)) : option (crit tstate) := updates ob_n_gen ob_n_eval tstep c os.
End Default.
Arguments tstate : clear implicits.

