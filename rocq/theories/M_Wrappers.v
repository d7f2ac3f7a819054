(** * Model of the problem wrappers: /repo/pymoo/constraints/as_obj.py, as_penalty.py, from_bounds.py and of the adaptive
    constraint handling /repo/pymoo/constraints/adaptive.py, eps.py.
    Exact rational arithmetic.  Arrays carry their dimension; a dictionary is an association list; [None] from a function: an exception.  The wrapped problem is
    given by what its _evaluate stores (already formatted, see M_Evaluate for the formatting).  Gradients (dG in from_bounds.py) are not modelled. *)
From Coq Require Import String List Arith Bool QArith.
From Verif Require Import ListAux M_Individual M_Params M_Evaluate.
Import ListNotations.
Local Open Scope nat_scope.

Inductive arr := V0 (q : Q) | V1 (v : list Q) | V2 (rows : list (list Q)).
Definition dict := list (string * arr).
Definition mdict := list (string * list (list Q)).
(** del out[k]: KeyError if it is not there *)
Fixpoint ddel {V} (d : list (string * V)) (k : string) : option (list (string * V)) :=
  match d with [] => None | (k', v) :: d => if String.eqb k' k then Some d else option_map (cons (k', v)) (ddel d k) end.

(** the wrapped problem: sizes, bounds, and what its _evaluate sets for a list of points *)
Record wprob := { w_obj : nat; w_ieq : nat; w_eq : nat; w_xl : option (list Q); w_xu : option (list Q); w_set : list (list Q) -> mdict }.
Definition w_size (p : wprob) (name : string) : nat :=
  if String.eqb name "F" then w_obj p else if String.eqb name "G" then w_ieq p else if String.eqb name "H" then w_eq p else 1.
(** core/problem.py:172-223, 267-312: everything that was set, and a default for the missing names of return_values_of; [inf] stands for np.inf *)
Definition inner_do (inf : Q) (p : wprob) (names : list string) (xs : list (list Q)) : mdict :=
  fold_left (fun ret n => match dget ret n with Some _ => ret | None => dset ret n (repeat (repeat inf (w_size p n)) (length xs)) end) names (w_set p xs).
Definition lift_dict (d : mdict) : dict := map (fun kv => (fst kv, V2 (snd kv))) d.

(** core/individual.py:559-597 for arrays: None is the empty vector, a 2-d array is treated row by row; unequal lengths do not broadcast (a length of 1 is not modelled) *)
Definition cv_arr (G H : option (list (list Q))) (cfg : config) : option arr :=
  match G, H with
  | None, None => Some (V0 0)
  | Some G, None => Some (V1 (map (fun g => constr_to_cv g (k_ieq cfg) + 0) G))%Q
  | None, Some H => Some (V1 (map (fun h => 0 + constr_to_cv (map qabs h) (k_eq cfg)) H))%Q
  | Some G, Some H => if length G =? length H then Some (V1 (map2 (fun g h => calc_cv g h cfg) G H)) else None
  end.
(** np.column_stack([cv, F]) *)
Definition column_stack (cv : arr) (F : list (list Q)) : option (list (list Q)) :=
  let col := match cv with V0 q => [[q]] | V1 v => map (fun q => [q]) v | V2 r => r end in
  if length col =? length F then Some (map2 (@app Q) col F) else None.

(** as_obj.py:27-48 *)
Definition as_obj_do (inf : Q) (append : bool) (cfg : config) (p : wprob) (names : list string) (xs : list (list Q)) : option dict :=
  let out := inner_do inf p names xs in
  let F := dget out "F" in let G := dget out "G" in let H := dget out "H" in
  match F with
  | None => None
  | Some F =>
      let put k v d := match v with Some v => dset d k (V2 v) | None => d end in    (* a stored None is left out *)
      let d := put "__H__"%string H (put "__G__"%string G (dset (lift_dict out) "__F__"%string (V2 F))) in
      match cv_arr G H cfg with
      | None => None
      | Some cv =>
          match (if append then option_map V2 (column_stack cv F) else Some cv) with
          | None => None
          | Some F' => match ddel (dset d "F" F') "G" with None => None | Some d => ddel d "H" end
          end
      end
  end.
(** as_obj.py:13-25: the number of objectives; both numbers of constraints are set to 0, so that core/problem.py:178-183 asks for F only *)
Definition as_obj_n_obj (append : bool) (p : wprob) : nat := if append then w_obj p + 1 else 1.
Definition as_obj_names : list string := ["F"%string].
(** as_obj.py:50-54 *)
Definition as_obj_pareto_front (pf : option (list (list Q))) : option (list (list Q)) := option_map (map (cons 0%Q)) pf.
(** core/problem.py:172-223, the tuple that evaluate returns for the given or default names *)
Definition result_of (names : list string) (out : option dict) : option (list arr) := match out with None => None | Some d => all_some (map (dget d) names) end.

(** as_penalty.py:22-40: np.reshape(CV, F.shape) *)
Definition as_penalty_do (inf : Q) (penalty : Q) (p : wprob) (names : list string) (xs : list (list Q)) : option dict :=
  let out := inner_do inf p names xs in
  let F := dget out "F" in let G := dget out "G" in let H := dget out "H" in
  match F with
  | None => None
  | Some F =>
      let put k v d := match v with Some v => dset d k (V2 v) | None => d end in
      let d := put "__H__"%string H (put "__G__"%string G (dset (lift_dict out) "__F__"%string (V2 F))) in
      match cv_arr G H default_config with
      | None => None
      | Some cv =>
          let flat := match cv with V0 q => [q] | V1 v => v | V2 r => concat r end in
          if length flat =? length (concat F) then
            let C := reshape (length F) (w_obj p) flat in
            match ddel (dset d "F" (V2 (map2 (map2 (fun f c => f + penalty * c)%Q) F C))) "G" with None => None | Some d => ddel d "H" end
          else None
      end
  end.

(** from_bounds.py:11-37 *)
Definition from_bounds_do (inf : Q) (remove_bonds : bool) (p : wprob) (names : list string) (xs : list (list Q)) : option dict :=
  let out := inner_do inf p names xs in
  let xl := if remove_bonds then None else w_xl p in let xu := if remove_bonds then None else w_xu p in
  match xl, xu, dget out "G" with
  | Some xl, Some xu, Some G =>
      let _G := map (fun x => map2 Qminus xl x ++ map2 Qminus x xu) xs in
      if length G =? length _G then Some (dset (lift_dict out) "G" (V2 (map2 (@app Q) G _G))) else None
  | _, _, _ => None
  end.
Definition from_bounds_n_ieq (n_var : nat) (p : wprob) : nat := w_ieq p + 2 * n_var.
(** core/problem.py:178-183 for the wrapper: n_ieq_constr is the new number *)
Definition from_bounds_names (n_var : nat) (p : wprob) : list string :=
  "F"%string :: (if 0 <? from_bounds_n_ieq n_var p then ["G"%string] else []) ++ (if 0 <? w_eq p then ["H"%string] else []).

(** ** adaptive.py, eps.py.  The shared dictionary [a_cfg], the adapted one [a_adapted] (only cv_eps is modelled, the default is 0), the average violation of the initial
    population, the progress of the termination and the two evaluation counters: the one of the wrapped evaluator and the one the algorithm and its termination see *)
Record ast := { a_cfg : Q; a_adapted : Q; a_max_cv : Q; a_perc : Q; a_wrapped_evals : nat; a_evals : nat }.
(** adaptive.py:56-63, 68-69: AttachConfigEvaluator copies n_eval when it is created *)
Definition a_setup (n_eval : nat) : ast := {| a_cfg := 0; a_adapted := 0; a_max_cv := 0; a_perc := 0; a_wrapped_evals := n_eval; a_evals := n_eval |}.
(** adaptive.py:29-47: the wrapped evaluator counts *)
Definition a_eval (n : nat) (s : ast) : ast :=
  {| a_cfg := a_cfg s; a_adapted := a_adapted s; a_max_cv := a_max_cv s; a_perc := a_perc s; a_wrapped_evals := a_wrapped_evals s + n; a_evals := a_evals s |}.
(** the threshold the wrapped algorithm works with while it initialises, advances or produces infills, and the state afterwards.  eps.py:21-35 and adaptive.py:71-74 *)
Definition a_initialize (cvs : list Q) (s : ast) : Q * ast :=
  (a_adapted s, {| a_cfg := 0; a_adapted := a_adapted s; a_max_cv := qmean cvs; a_perc := a_perc s; a_wrapped_evals := a_wrapped_evals s; a_evals := a_evals s |}).
(** eps.py:14-19 *)
Definition adapt (perc_eps_until : Q) (perc max_cv : Q) : Q :=
  let alpha := (1 - 1 / perc_eps_until * perc)%Q in ((if Qle_bool 0 alpha then alpha else 0) * max_cv)%Q.
(** adaptive.py:76-81 *)
Definition a_advance (perc_eps_until : Q) (s : ast) : Q * ast :=
  (a_adapted s, {| a_cfg := 0; a_adapted := adapt perc_eps_until (a_perc s) (a_max_cv s); a_max_cv := a_max_cv s; a_perc := a_perc s; a_wrapped_evals := a_wrapped_evals s; a_evals := a_evals s |}).
(** adaptive.py:83-87 *)
Definition a_infill (s : ast) : Q * ast :=
  (a_adapted s, {| a_cfg := 0; a_adapted := a_adapted s; a_max_cv := a_max_cv s; a_perc := a_perc s; a_wrapped_evals := a_wrapped_evals s; a_evals := a_evals s |}).
(** core/algorithm.py:311-317: the termination is updated afterwards, with the progress [perc] *)
Definition a_update (perc : Q) (s : ast) : ast :=
  {| a_cfg := a_cfg s; a_adapted := a_adapted s; a_max_cv := a_max_cv s; a_perc := perc; a_wrapped_evals := a_wrapped_evals s; a_evals := a_evals s |}.
(** a run after the initialisation: in every iteration [n] points are evaluated and the progress becomes [perc]; the list of thresholds in force during the advances *)
Fixpoint a_run (perc_eps_until : Q) (its : list (nat * Q)) (s : ast) : list Q * ast :=
  match its with
  | [] => ([], s)
  | (n, perc) :: its =>
      let s := a_eval n (snd (a_infill s)) in
      let '(e, s) := a_advance perc_eps_until s in
      let '(es, s) := a_run perc_eps_until its (a_update perc s) in (e :: es, s)
  end.
Definition a_start (perc_eps_until : Q) (n0 : nat) (cvs : list Q) (perc0 : Q) : Q * ast :=
  let s := a_eval n0 (a_setup 0) in let '(e, s) := a_initialize cvs s in (e, a_update perc0 s).
(** termination/max_eval.py:11-15 *)
Definition n_eval_progress (n_max : Q) (s : ast) : Q := (inject_Z (Z.of_nat (a_evals s)) / n_max)%Q.
