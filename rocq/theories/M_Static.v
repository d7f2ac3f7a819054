(** * Model of /repo/pymoo/problems/static.py, /repo/pymoo/problems/functional.py and /repo/pymoo/problems/multi_to_single.py, on top of M_Evaluate and M_Decomp.
    The Pareto front and set of FunctionalProblem and the keyword arguments of the evaluation are not modelled. *)
From Coq Require Import String List Arith Bool QArith.
From Verif Require Import Flt ListAux M_Params M_Evaluate M_Decomp.
Import ListNotations.
Local Open Scope nat_scope.

(** functional.py:43-53, 64-66 *)
Definition functional_conf (n_var : nat) {X} (objs ieq eqc : list (X -> flt)) : pconf :=
  {| p_var := n_var; p_obj := length objs; p_ieq := length ieq; p_eq := length eqc; p_nan := None |}.
Definition functional_set {X} (objs ieq eqc : list (X -> flt)) (x : X) : list (string * list flt) :=
  [("F"%string, map (fun o => o x) objs); ("G"%string, map (fun o => o x) ieq); ("H"%string, map (fun o => o x) eqc)].
Definition functional_evaluate {X} (n_var : nat) (run : (X -> list (string * list flt)) -> list X -> option (list (list (string * list flt)))) (objs ieq eqc : list (X -> flt)) (xs : list X) (single : bool) (rv : option (list string)) :=
  evaluate (functional_conf n_var objs ieq eqc) (elementwise run (functional_set objs ieq eqc)) xs single rv.

(** static.py:12-14.  The wrapper shares the attributes of the wrapped problem (core/meta.py:19-25), so [elementwise] decides how _evaluate is called: once for all
    points, or once per point, and each call stores all given values *)
Definition static_evaluate {X} (c : pconf) (is_elementwise : bool) (kw : list (string * list (list flt))) (xs : list X) (single : bool) (rv : option (list string)) :=
  if is_elementwise then evaluate c (elementwise (fun g ys => Some (map g ys)) (fun _ => map (fun kv => (fst kv, concat (snd kv))) kw)) xs single rv
  else evaluate c (fun n x => Some (vectorized (fun _ => map (fun kv => (fst kv, UArr (snd kv))) kw) n x)) xs single rv.

(** multi_to_single.py:21, 27: [kwargs if not None else dict()] is [kwargs]; do(F, **None) raises.  The keyword arguments are the weights (a vector), the ideal and the
    utopian point; [:, None] adds a second axis to what the decomposition returns *)
Inductive marr := M2 (rows : list (list Q)) | M3 (blocks : list (list (list Q))).
Definition new_axis (d : dout) : marr := match d with D1 v => M2 (map (fun q => [q]) v) | D2 rows => M3 (map (fun r => [r]) rows) end.
Definition multi_to_single (sc : scal) (rnd : Q -> Q) (eps : Q) (init : dtype) (kwargs : option (list Q * option (list Q) * option (list Q))) (m : nat) (F : list (list Q)) : option marr :=
  match kwargs with
  | None => None
  | Some (w, ideal, utop) => option_map new_axis (decomp_do sc rnd eps init (A2 m F) (A1 w) TAuto ideal utop)
  end.
