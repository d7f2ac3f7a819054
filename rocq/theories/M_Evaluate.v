(** * Model of /repo/pymoo/core/problem.py: Problem.evaluate, do, _evaluate_elementwise, _evaluate_vectorized, _format_dict, default_shape; and of the
    runners /repo/pymoo/parallelization/{starmap,joblib,dask,ray}.py.
    An array is the list of its rows, each row flattened; [None] from a function: an exception. The callback and kwargs are not modelled. *)
From Coq Require Import String List Arith Bool.
From Verif Require Import Flt ListAux M_Params.
Import ListNotations.
Local Open Scope nat_scope.

Record pconf := { p_var : nat; p_obj : nat; p_ieq : nat; p_eq : nat; p_nan : option flt }.   (* p_nan: replace_nan_values_by *)
(** problem.py:392-402 [default_shape]: entries per point of the names with an expected shape *)
Definition row_size (c : pconf) (name : string) : option nat :=
  if String.eqb name "F" then Some (p_obj c) else if String.eqb name "G" then Some (p_ieq c) else if String.eqb name "H" then Some (p_eq c)
  else if String.eqb name "dF" then Some (p_obj c * p_var c) else if String.eqb name "dG" then Some (p_ieq c * p_var c) else if String.eqb name "dH" then Some (p_eq c * p_var c)
  else None.

(** ** runners.  problem.py:15-19 and parallelization/*.py: jobs are submitted in the order of X, finish in the order [sched], and their results are
    collected in the order of submission (dask: [job.result() for job in jobs]; ray: ray.get(futures); starmap and joblib return them in order) *)
Definition run_jobs {X R} (f : X -> R) (xs : list X) (sched : list nat) : list (option R) :=
  let store := fold_left (fun st i => match nth_error xs i with Some x => upd st i (Some (f x)) | None => st end) sched (repeat None (length xs)) in store.
Fixpoint all_some {R} (l : list (option R)) : option (list R) :=
  match l with [] => Some [] | Some x :: l => option_map (cons x) (all_some l) | None :: _ => None end.
Definition runner {X R} (sched : list nat) (f : X -> R) (xs : list X) : option (list R) := all_some (run_jobs f xs sched).

(** a value stored under a name in [out]: an array, or a list of columns (only the vectorised case) *)
Inductive uval := UArr (rows : list (list flt)) | UCols (cols : list (list flt)).

(** problem.py:244-265 [_evaluate_elementwise]: append every value of every element under its name *)
Definition append_value (out : list (string * option (list (list flt)))) (kv : string * list flt) : list (string * option (list (list flt))) :=
  let old := match dget out (fst kv) with Some (Some l) => l | _ => [] end in dset out (fst kv) (Some (old ++ [snd kv])).
Definition collect (names : list string) (elems : list (list (string * list flt))) : list (string * option (list (list flt))) :=
  fold_left (fun out elem => fold_left append_value elem out) elems (fold_left (fun d n => dset d n None) names []).
(** anp.array of a list of arrays: they must have one shape *)
Definition same_len (rows : list (list flt)) : bool := match rows with [] => true | r :: rows => forallb (fun r' => length r' =? length r) rows end.
Definition to_arrays (out : list (string * option (list (list flt)))) : option (list (string * option uval)) :=
  all_some (map (fun kv => match snd kv with None => Some (fst kv, None) | Some rows => if same_len rows then Some (fst kv, Some (UArr rows)) else None end) out).
Definition elementwise {X} (run : (X -> list (string * list flt)) -> list X -> option (list (list (string * list flt)))) (f : X -> list (string * list flt)) (names : list string) (xs : list X) :
  option (list (string * option uval)) :=
  match run f xs with None => None | Some elems => to_arrays (collect names elems) end.
(** problem.py:241-242 [_evaluate_vectorized]: [g] the assignments to [out] made by the user's _evaluate *)
Definition vectorized {X} (g : list X -> list (string * uval)) (names : list string) (xs : list X) : list (string * option uval) :=
  fold_left (fun d kv => dset d (fst kv) (Some (snd kv))) (g xs) (fold_left (fun d n => dset d n None) names []).

(** problem.py:267-312 [_format_dict] *)
Definition transpose (cols : list (list flt)) : option (list (list flt)) :=     (* column_stack of one-dimensional arrays *)
  if same_len cols then Some (map (fun i => map (fun c => nth i c f_nan) cols) (seq 0 (length (hd [] cols)))) else None.
Definition fmt_value (c : pconf) (N : nat) (name : string) (v : uval) : option (list (list flt)) :=
  match row_size c name with
  | None => match v with UArr r => Some r | UCols cols => Some cols end
  | Some s =>
      match (match v with UArr r => Some r | UCols cols => transpose cols end) with
      | None => None
      | Some rows => if length (concat rows) =? N * s then Some (reshape N s (concat rows)) else None
      end
  end.
Fixpoint fmt_set (c : pconf) (N : nat) (out : list (string * option uval)) : option (list (string * list (list flt))) :=
  match out with
  | [] => Some []
  | (_, None) :: out => fmt_set c N out
  | (n, Some v) :: out => match fmt_value c N n v, fmt_set c N out with Some r, Some l => Some ((n, r) :: l) | _, _ => None end
  end.
Definition default_value (c : pconf) (N : nat) (name : string) : list (list flt) := repeat (repeat f_inf (match row_size c name with Some s => s | None => 1 end)) N.
Definition format_dict (c : pconf) (N : nat) (names : list string) (out : list (string * option uval)) : option (list (string * list (list flt))) :=
  option_map (fun ret => fold_left (fun ret n => match dget ret n with Some _ => ret | None => dset ret n (default_value c N n) end) names ret) (fmt_set c N out).

(** problem.py:172-223 [evaluate]: NaN replacement; a single point gives the first row only *)
Definition fix_nan (c : pconf) (r : list flt) : list flt := match p_nan c with None => r | Some v => map (fun x => if isnan x then v else x) r end.
Inductive rval := RRows (rows : list (list flt)) | RRow (row : list flt).
Definition finish (c : pconf) (single : bool) (rows : list (list flt)) : option rval :=
  if single then match rows with [] => None | r :: _ => Some (RRow (fix_nan c r)) end else Some (RRows (map (fix_nan c) rows)).
Definition default_names (c : pconf) : list string := "F"%string :: (if 0 <? p_ieq c then ["G"%string] else []) ++ (if 0 <? p_eq c then ["H"%string] else []).
Definition post (c : pconf) (single : bool) (out : list (string * list (list flt))) : option (list (string * rval)) :=
  all_some (map (fun kv => option_map (fun v => (fst kv, v)) (finish c single (snd kv))) out).
Definition evaluate {X} (c : pconf) (fill : list string -> list X -> option (list (string * option uval))) (xs : list X) (single : bool) (return_values_of : option (list string)) :
  option (list (string * rval)) :=
  let names := match return_values_of with Some n => n | None => default_names c end in
  match fill names xs with
  | None => None
  | Some out => match format_dict c (length xs) names out with None => None | Some d => post c single d end
  end.
(** return_as_dictionary=False: the values in the order of return_values_of *)
Definition as_tuple (names : list string) (d : list (string * rval)) : option (list rval) := all_some (map (dget d) names).
