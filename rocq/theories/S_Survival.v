(** * Specification side of the survival properties *)
From Coq Require Import List Arith Permutation Bool ZArith.
From Verif Require Import Flt ListAux M_NDS M_Survival S_Pareto S_NDS.
Import ListNotations.
Local Open Scope nat_scope.

(** [S] selects [n] different members out of [N] *)
Definition selects (N n : nat) (S : list nat) : Prop := NoDup S /\ (forall i, In i S -> i < N) /\ length S = n.

(** what [Survival.do] requires of a subclass's [_do] *)
Definition inner_ok {A} (wf : A -> Prop) (inner : list A -> nat -> list nat) : Prop :=
  forall p n, p <> [] -> Forall wf p -> n <= length p -> selects (length p) n (inner p n).

(** [out] is the list of fronts [full] cut after the first front that reaches [n] points *)
Definition stopped_at (n : nat) (full out : list (list nat)) : Prop :=
  prefix out full /\ out <> [] /\ (out = full \/ n <= length (concat out)) /\
  (forall k, 0 < k < length out -> length (concat (firstn k out)) < n).

(** contract of the sorter used by the survivals (what C09 proves): Pareto peeling, cut at [n] points *)
Definition nds_ok (m : nat) (nds : fltmat -> nat -> list (list nat)) : Prop :=
  forall F n, F <> [] -> rect m F -> mat_ok F ->
  exists full, is_peeling (length F) (row_dom F) full /\ stopped_at n full (nds F n).

(** [r] is the Pareto rank of point [i] *)
Definition pareto_rank (F : fltmat) (i r : nat) : Prop :=
  exists full, is_peeling (length F) (row_dom F) full /\ In i (nth r full []).

(** non-dominated peeling of the members [mem] only *)
Definition peeling_of (mem : nat -> Prop) (dom : nat -> nat -> Prop) (fronts : list (list nat)) : Prop :=
  NoDup (concat fronts) /\ (forall i, In i (concat fronts) <-> mem i) /\
  (forall k, k < length fronts -> nth k fronts [] <> []) /\
  (forall k i, k < length fronts ->
     (In i (nth k fronts []) <->
      mem i /\ ~ in_earlier fronts k i /\ forall j, mem j -> ~ in_earlier fronts k j -> ~ dom j i)).

(** a row of [m] numbers none of which is NaN *)
Definition row_ok (m : nat) (r : list flt) : Prop := length r = m /\ vec_ok r.

(** strictly better, for single-objective individuals: feasible beats infeasible, less violation beats more, smaller objective
    beats larger *)
Definition better (new old : ind1) : Prop :=
  (o_feas new = true /\ o_feas old = false) \/
  (o_feas new = false /\ o_feas old = false /\ fltb (o_cv new) (o_cv old) = true) \/
  (o_feas new = true /\ o_feas old = true /\ fltb (o_f new) (o_f old) = true).
