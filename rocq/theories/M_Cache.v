(** * Model of /repo/pymoo/util/cache.py and its uses in /repo/pymoo/core/problem.py:314-341 *)
From Coq Require Import List Arith Bool QArith.
From Verif Require Import ListAux M_Survival M_RefDirs2.
Import ListNotations.
Local Open Scope nat_scope.

Section Cache.
  Variable A : Type.                                         (* arguments of the cached method *)
  (** problem-defined [_calc_pareto_front], [_calc_pareto_set]; the first argument counts the earlier calls, so that the method may return
      something different each time; None: the method returns None *)
  Variable calc_pf calc_ps : nat -> A -> option (list (list Q)).
  Variable qsort : list Q -> list nat.                       (* np.argsort *)

  (** the problem object: the entries of self.cache, and how often the two methods above have been called *)
  Record prob := { c_pf : option (option (list (list Q))); c_ps : option (option (list (list Q))); c_ideal : option (option (list Q)); c_nadir : option (option (list Q));
                   n_pf : nat; n_ps : nat }.
  Definition fresh : prob := {| c_pf := None; c_ps := None; c_ideal := None; c_nadir := None; n_pf := 0; n_ps := 0 |}.

  (** util/cache.py:13-30 [wrapper]: [slot] the entry of this method; None as a result: an exception leaves the wrapper *)
  Definition wrapper {V} (slot : prob -> option V) (store : V -> prob -> prob) (func : A -> prob -> option V * prob) (use_cache set_cache : bool) (a : A) (s : prob) : option V * prob :=
    match use_cache, slot s with
    | true, Some v => (Some v, s)
    | _, _ => let '(r, s) := func a s in
              match r with
              | None => (None, s)
              | Some v => (Some v, if set_cache then store v s else s)
              end
    end.

  (** problem.py:326-332 [pareto_front]: a front with two columns is sorted by the first *)
  Definition sort2 (pf : list (list Q)) : list (list Q) :=
    match pf with
    | r :: _ => if length r =? 2 then gather [] pf (qsort (map (fun r => nth 0 r 0%Q) pf)) else pf
    | [] => pf
    end.
  Definition pareto_front_ (a : A) (s : prob) : option (option (list (list Q))) * prob :=
    (Some (option_map sort2 (calc_pf (n_pf s) a)), {| c_pf := c_pf s; c_ps := c_ps s; c_ideal := c_ideal s; c_nadir := c_nadir s; n_pf := S (n_pf s); n_ps := n_ps s |}).
  Definition pareto_front := wrapper c_pf (fun v s => {| c_pf := Some v; c_ps := c_ps s; c_ideal := c_ideal s; c_nadir := c_nadir s; n_pf := n_pf s; n_ps := n_ps s |}) pareto_front_.
  (** problem.py:334-338 *)
  Definition pareto_set_ (a : A) (s : prob) : option (option (list (list Q))) * prob :=
    (Some (calc_ps (n_ps s) a), {| c_pf := c_pf s; c_ps := c_ps s; c_ideal := c_ideal s; c_nadir := c_nadir s; n_pf := n_pf s; n_ps := S (n_ps s) |}).
  Definition pareto_set := wrapper c_ps (fun v s => {| c_pf := c_pf s; c_ps := Some v; c_ideal := c_ideal s; c_nadir := c_nadir s; n_pf := n_pf s; n_ps := n_ps s |}) pareto_set_.
  (** problem.py:314-324 [nadir_point], [ideal_point]: [self.pareto_front( *args )] with the default flags; np.max of no rows raises *)
  Definition column (j : nat) (pf : list (list Q)) : list Q := map (fun r => nth j r 0%Q) pf.
  Definition colwise (f : list Q -> Q) (pf : list (list Q)) : option (list Q) :=
    match pf with [] => None | r :: _ => Some (map (fun j => f (column j pf)) (seq 0 (length r))) end.
  Definition of_front (f : list Q -> Q) (a : A) (s : prob) : option (option (list Q)) * prob :=
    let '(r, s) := pareto_front true true a s in
    (match r with None => None | Some None => Some None | Some (Some pf) => option_map Some (colwise f pf) end, s).
  Definition nadir_point := wrapper c_nadir (fun v s => {| c_pf := c_pf s; c_ps := c_ps s; c_ideal := c_ideal s; c_nadir := Some v; n_pf := n_pf s; n_ps := n_ps s |}) (of_front q_max_list).
  Definition ideal_point := wrapper c_ideal (fun v s => {| c_pf := c_pf s; c_ps := c_ps s; c_ideal := Some v; c_nadir := c_nadir s; n_pf := n_pf s; n_ps := n_ps s |}) (of_front qmin_list).

  (** a program: a sequence of method calls on one problem object, and their results *)
  Inductive meth := MPF | MPS | MIdeal | MNadir.
  Inductive res := RMat (v : option (option (list (list Q)))) | RVec (v : option (option (list Q))).
  Definition call (c : meth * (bool * bool) * A) (s : prob) : res * prob :=
    let '(m, (u, t), a) := c in
    match m with
    | MPF => let '(v, s) := pareto_front u t a s in (RMat v, s)
    | MPS => let '(v, s) := pareto_set u t a s in (RMat v, s)
    | MIdeal => let '(v, s) := ideal_point u t a s in (RVec v, s)
    | MNadir => let '(v, s) := nadir_point u t a s in (RVec v, s)
    end.
  Fixpoint run (h : list (meth * (bool * bool) * A)) (s : prob) : list res * prob :=
    match h with [] => ([], s) | c :: h => let '(r, s) := call c s in let '(rs, s) := run h s in (r :: rs, s) end.
End Cache.
