(** * Model of /repo/pymoo/core/survival.py, /repo/pymoo/operators/survival/rank_and_crowding/classes.py,
      /repo/pymoo/core/replacement.py, /repo/pymoo/util/randomized_argsort.py (method "numpy").

    A population is a list of individuals of an arbitrary type [A]; attributes are given by functions.  A set of survivors
    is the list of their positions in the population ([pop[survivors]] in the code). *)
From Coq Require Import List Arith Bool ZArith QArith.
From Verif Require Import Flt ListAux M_Dominator M_NDS.
Import ListNotations.
Local Open Scope nat_scope.

(** util/randomized_argsort.py:9-27 with method "numpy"; [P] = random permutation, [asort] = np.argsort *)
Definition randomized_argsort (asort : list flt -> list nat) (P : list nat) (descending : bool) (A : list flt) : list nat :=
  let I := asort (gather f_nan A P) in
  let I := gather 0 P I in
  if descending then rev I else I.

Section Surv.
  Context {A : Type}.
  Variables (d : A) (cv : A -> flt) (feas : A -> bool) (asort : list flt -> list nat).

  (** core/survival.py:152-183 with sort_feas_by_obj=False, sort_infeas_by_cv=True *)
  Definition split_by_feasibility (pop : list A) : list nat * list nat :=
    let feasible := where_ (fun i => feas (nth i pop d)) (length pop) in
    let infeasible := where_ (fun i => negb (feas (nth i pop d))) (length pop) in
    (feasible, gather 0 infeasible (asort (map (fun i => cv (nth i pop d)) infeasible))).

  (** core/survival.py:25-98 [Survival.do] (positions of the survivors); [inner] is the subclass's [_do] on a population *)
  Definition survival_do (inner : list A -> nat -> list nat) (filter_infeasible has_constraints : bool)
      (n_survive : option nat) (pop : list A) : list nat :=
    if (length pop =? 0) then []
    else
      let n := match n_survive with None => length pop | Some n => n end in
      let n := Nat.min n (length pop) in
      if filter_infeasible && has_constraints then
        let '(fe, infe) := split_by_feasibility pop in
        let survivors :=
          if (length fe =? 0) then []
          else gather 0 fe (inner (gather d pop fe) (Nat.min (length fe) n)) in
        let n_remaining := n - length survivors in            (* truncated: only used when positive *)
        if (0 <? n_remaining) then survivors ++ firstn n_remaining infe else survivors
      else inner pop n.

  (** core/survival.py:92-96, [return_indices]: dictionary from the individual object to its last position.
      [ids] are the object identities. *)
  Fixpoint last_index (ids : list nat) (x : nat) (k : nat) (found : nat) : nat :=
    match ids with
    | [] => found
    | y :: ids => last_index ids x (S k) (if (y =? x) then k else found)
    end.
  Definition return_indices (ids : list nat) (survivors : list nat) : list nat :=
    map (fun s => last_index ids (nth s ids 0) 0 0) survivors.
End Surv.

(** ** RankAndCrowding._do (classes.py:40-103) *)
Record rac_state := { rs_surv : list nat; rs_rank : list (option nat); rs_crowd : list (option flt) }.

(** body of the loop over the fronts (classes.py:71-101).  [crowding] = self.crowding_func.do, [dsort] = randomized_argsort
    with order "descending" *)
Definition rac_front (F : fltmat) (crowding : fltmat -> nat -> list flt) (dsort : list flt -> list nat) (n_survive : nat)
    (st : rac_state) (kf : nat * list nat) : rac_state :=
  let '(k, front) := kf in
  let surv := rs_surv st in
  let '(idx, c) :=
    if (n_survive <? length surv + length front) then
      let n_remove := (length surv + length front - n_survive) in
      let c := crowding (gather [] F front) n_remove in
      let I := dsort c in
      (firstn (length I - n_remove) I, c)                                        (* I[:-n_remove], n_remove > 0 *)
    else (seq 0 (length front), crowding (gather [] F front) 0) in
  {| rs_rank := fold_left (fun r i => upd r i (Some k)) front (rs_rank st);
     rs_crowd := fold_left (fun r ji => upd r (snd ji) (Some (nth (fst ji) c f_nan))) (combine (seq 0 (length front)) front) (rs_crowd st);
     rs_surv := surv ++ gather 0 front idx |}.

(** the whole loop; [fronts] = self.nds.do(F, n_stop_if_ranked=n_survive) *)
Definition rac_loop (F : fltmat) (crowding : fltmat -> nat -> list flt) (dsort : list flt -> list nat) (n_survive : nat)
    (fronts : list (list nat)) (st : rac_state) : rac_state :=
  fold_left (rac_front F crowding dsort n_survive) (combine (seq 0 (length fronts)) fronts) st.

Definition rac_do (nds : fltmat -> nat -> list (list nat)) (crowding : fltmat -> nat -> list flt) (dsort : list flt -> list nat)
    (F : fltmat) (n_survive : nat) : rac_state :=
  rac_loop F crowding dsort n_survive (nds F n_survive)
    {| rs_surv := []; rs_rank := repeat None (length F); rs_crowd := repeat None (length F) |}.

(** ** ConstrRankAndCrowding._do (classes.py:131-208) *)
Section Constr.
  Context {A : Type}.
  Variables (d : A) (cv : A -> flt) (feas : A -> bool) (obj : A -> list flt) (viol : A -> list flt).
  (** [viol a] = the row np.column_stack((np.maximum(G, 0), np.absolute(H))) of individual [a] *)
  Variables (asort dsort rasc : list flt -> list nat) (nds : fltmat -> nat -> list (list nat)) (crowding : fltmat -> nat -> list flt).

  (** RankAndCrowding._do on a population *)
  Definition rac_inner (pop : list A) (n : nat) : list nat := rs_surv (rac_do nds crowding dsort (map obj pop) n).

  (** body of the loop classes.py:187-203; positions in [pop] *)
  Definition crac_front (pop : list A) (infeas : list nat) (n_survive : nat) (surv : list nat) (front : list nat) : list nat :=
    let I := if (n_survive <? length surv + length front)
             then firstn (n_survive - length surv) (rasc (map (fun i => cv (nth (nth i infeas 0) pop d)) front))
             else seq 0 (length front) in
    surv ++ gather 0 infeas (gather 0 front I).

  Definition constr_rac (has_constr : bool) (n_survive : option nat) (pop : list A) : list nat :=
    let n := match n_survive with None => length pop | Some n => n end in
    let n := Nat.min n (length pop) in
    if has_constr then
      let '(fe, infe) := split_by_feasibility d cv feas asort pop in
      let survivors :=
        if (length fe =? 0) then []
        else gather 0 fe (survival_do d cv feas asort rac_inner true true (Some (Nat.min (length fe) n)) (gather d pop fe)) in
      let n_remaining := (n - length survivors) in
      if (0 <? n_remaining) then
        fold_left (crac_front pop infe n) (nds (map (fun i => viol (nth i pop d)) infe) n_remaining) survivors
      else survivors
    else survival_do d cv feas asort rac_inner true false (Some n) pop.
End Constr.

(** ** ToReplacement._do (core/survival.py:125-149).  [indices] = the wrapped survival's positions, best first, on
    Population.merge(pop, off); attribute "__rank__" of the k-th merged individual := indices[k] (line 143) *)
Definition to_replacement {A} (d : A) (pop off : list A) (indices : list nat) : list A :=
  map (fun k => if (nth (length pop + k) indices 0 <? nth k indices 0) then nth k off d else nth k pop d)
      (seq 0 (length pop)).

(** ** core/replacement.py *)
(** one individual of a single-objective problem: objective, constraint violation, feasibility *)
Record ind1 := { o_f : flt; o_cv : flt; o_feas : bool }.

(** core/replacement.py:57-82 [ImprovementReplacement._do] for one slot *)
Definition improvement (has_constraints : bool) (old new : ind1) : bool :=
  if has_constraints then
    (negb (o_feas old) && negb (o_feas new) && fltb (o_cv new) (o_cv old))
    || (negb (o_feas old) && o_feas new)
    || (o_feas old && o_feas new && fltb (o_f new) (o_f old))
  else fltb (o_f new) (o_f old).

(** lines 57-82 for the population; [isdup] = indices reported as duplicates (lines 79-80) *)
Definition improvement_flags {A} (d : A) (view : A -> ind1) (has_constraints : bool) (pop off : list A) (isdup : list nat) : list bool :=
  fold_left (fun ret k => upd ret k false) isdup
    (map (fun k => improvement has_constraints (view (nth k pop d)) (view (nth k off d))) (seq 0 (length pop))).

(** lines 26-51 [ReplacementSurvival.do]: [pop[I] = off[I]] with a boolean mask (new population; the original list is untouched
    unless inplace) *)
Definition improvement_replacement {A} (d : A) (view : A -> ind1) (has_constraints : bool) (pop off : list A) (isdup : list nat) : list A :=
  if (length off =? 0) then pop
  else
    let I := improvement_flags d view has_constraints pop off isdup in
    map (fun k => if nth k I false then nth k off d else nth k pop d) (seq 0 (length pop)).

(** core/replacement.py:11-22 [is_better] in exact arithmetic (objective and violation as rationals) *)
Definition is_better (eps : Q) (newf newcv : Q) (newfeas : bool) (oldf oldcv : Q) (oldfeas : bool) : bool :=
  let gt x := negb (Qle_bool x eps) in
  if negb oldfeas && negb newfeas && gt (oldcv - newcv)%Q then true
  else if negb oldfeas && newfeas then true
  else if oldfeas && newfeas && gt (oldf - newf)%Q then true
  else false.

(** ** parameter_less (core/replacement.py:85-89), exact arithmetic; f.max() of a non-empty list *)
Fixpoint qmax (a : Q) (l : list Q) : Q := match l with [] => a | x :: l => qmax (if Qle_bool a x then x else a) l end.
Definition q_max_list (l : list Q) : Q := match l with [] => 0%Q | x :: l => qmax x l end.
Definition parameter_less (f cv : list Q) : list Q :=
  map2 (fun x c => if Qle_bool c 0 then x else (q_max_list f + c)%Q) f cv.

(** the same in binary64, as the code computes it *)
Fixpoint fmaxl (a : flt) (l : list flt) : flt := match l with [] => a | x :: l => fmaxl (if fleb a x then x else a) l end.
Definition f_max_list (l : list flt) : flt := match l with [] => f_zero | x :: l => fmaxl x l end.
Definition parameter_less_f64 (f cv : list flt) : list flt :=
  map2 (fun x c => if fltb f_zero c then fadd (f_max_list f) c else x) f cv.

(** core/replacement.py:92-95 [hierarchical_sort] *)
Definition hierarchical_sort (qsort : list Q -> list nat) (f : list Q) (cv : option (list Q)) : list nat :=
  qsort (match cv with Some cv => parameter_less f cv | None => f end).
