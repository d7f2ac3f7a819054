(** * Model of /repo/pymoo/util/optimum.py, /repo/pymoo/util/archive.py, Algorithm.result and Algorithm._set_optimum
    (/repo/pymoo/core/algorithm.py:249-299, 308-309), FitnessSurvival (/repo/pymoo/algorithms/soo/nonconvex/ga.py:25-34) and
    GeneticAlgorithm (/repo/pymoo/algorithms/base/genetic.py:70-131).
    Individuals are values of an arbitrary type with objectives, violation and feasibility.  [None]: an exception. *)
From Coq Require Import List Arith Bool.
From Verif Require Import Flt ListAux M_NDS M_Duplicate M_Survival.
Import ListNotations.
Local Open Scope nat_scope.

(** np.argmin of a 1-d array: first minimum; a NaN counts as smaller than everything *)
Fixpoint argmin_from (best : flt) (bi i : nat) (l : list flt) : nat :=
  match l with
  | [] => bi
  | x :: l => if isnan best then bi else if fltb x best || isnan x then argmin_from x i (S i) l else argmin_from best bi (S i) l
  end.
Definition np_argmin (l : list flt) : nat := match l with [] => 0 | x :: l => argmin_from x 0 1 l end.

Section Opt.
  Context {A : Type}.
  Variables (d : A) (obj : A -> list flt) (cv : A -> flt) (feas : A -> bool).
  (** moocore.pareto_rank *)
  Variable pr : fltmat -> list nat.

  (** NonDominatedSorting().do(F, only_non_dominated_front=True) *)
  Definition first_front (F : fltmat) : list nat := nds_do_first (length F) false (pr F) [] 0 None None.

  (** util/optimum.py:10-43 [filter_optimum]; [pop = None] or empty gives None.  [n_obj] = F.shape[1] *)
  Definition filter_optimum (n_obj : nat) (pop : option (list A)) (least_infeasible : bool) : option (list A) :=
    match pop with
    | None | Some [] => None
    | Some pop =>
        let ret := filter feas pop in
        if 0 <? length ret then
          if 1 <? n_obj then Some (gather d ret (first_front (map obj ret)))
          else Some [nth (np_argmin (map (fun a => nth 0 (obj a) f_nan) ret)) ret d]
        else if least_infeasible then Some [nth (np_argmin (map cv pop)) pop d]
        else None
    end.

  (** core/algorithm.py:249-299 [result]: success, res.opt, and the individuals whose X, F, CV, G, H are reported *)
  Definition result (n_obj : nat) (opt : option (list A)) (return_least_infeasible : bool) : bool * option (list A) * option (list A) :=
    let '(success, res_opt) :=
      match opt with
      | None | Some [] => (false, None)
      | Some o => if existsb feas o then (true, Some o)
                  else if return_least_infeasible then (false, filter_optimum n_obj (Some o) true) else (false, None)
      end in
    (success, res_opt, match res_opt with None => None | Some _ => opt end).

  (** util/archive.py:97-136: [_find_opt] of the single- and the multi-objective archive *)
  Definition ties (l : list flt) : list nat := where_ (fun i => feqb (nth i l f_nan) (nth (np_argmin l) l f_nan)) (length l).
  Definition find_opt (multi : bool) (sols : list A) : option (list A) :=
    match sols with
    | [] => None                                                     (* argmin of an empty sequence *)
    | _ =>
        if existsb feas sols then
          let sols := filter feas sols in
          if multi then Some (gather d sols (first_front (map obj sols)))
          else Some (gather d sols (ties (map (fun a => nth 0 (obj a) f_nan) sols)))
        else Some (gather d sols (ties (map cv sols)))
    end.

  (** util/archive.py:40-55 [Archive.__new__]: the effective truncation size *)
  Definition eff_truncate (max_size truncate_size : option nat) : option nat :=
    match truncate_size with None => max_size | Some t => option_map (fun m => Nat.min m t) max_size end.

  (** util/archive.py:71-86 [add]; [elim] = the duplicate elimination, if any; [trunc] = self.truncation *)
  Definition archive_add (multi : bool) (elim : option (list A -> list A)) (max_size truncate_size : option nat) (trunc : list A -> nat -> list A)
      (arch sols : list A) : option (list A) :=
    let sols := if 0 <? length arch then arch ++ sols else sols in
    match find_opt multi sols with
    | None => None
    | Some opt =>
        let opt := match elim with None => opt | Some f => f opt end in
        Some (match max_size with
              | Some (S m) => if S m <? length opt
                              then match eff_truncate max_size truncate_size with Some t => trunc opt t | None => opt end
                              else opt
              | _ => opt
              end)
    end.

  (** soo/nonconvex/ga.py:29-34 [FitnessSurvival._do]: positions; [lex keys] = np.lexsort([F, cv]) *)
  Definition fitness_survival (lex : list (flt * flt) -> list nat) (pop : list A) (n : nat) : list nat :=
    firstn n (lex (map (fun a => (cv a, nth 0 (obj a) f_nan)) pop)).

  (** base/genetic.py:116-133 [_advance]: [surv] = survival.do (positions) on the merged population *)
  Definition ga_advance (surv : list A -> nat -> list nat) (pop_size : nat) (pop : list A) (infills : option (list A)) : list A :=
    let merged := match infills with None => pop | Some off => pop ++ off end in
    gather d merged (surv merged pop_size).
End Opt.
