(** * Model of the combinatorial problems /repo/pymoo/problems/single/traveling_salesman.py, flowshop_scheduling.py, knapsack.py.
    Exact arithmetic on reals; [None]: an exception. Entries of a route or job sequence are natural numbers (negative indices, which Python counts from the
    end, are not modelled). The visualisations and the random generators of instances are not modelled. *)
From Coq Require Import String List Arith Bool Reals.
From Verif Require Import Flt ListAux M_Params M_Evaluate M_NSGA3R.
Import ListNotations.
Local Open Scope R_scope.

(** ** traveling_salesman.py *)
(** :26 [cdist(cities, cities)]: euclidean distances *)
Definition city_dist (a b : list R) : R := norm (map2 Rminus a b).
Definition tsp_D (cities : list (list R)) : list (list R) := map (fun a => map (city_dist a) cities) cities.
(** [self.D[i, j]]: an index out of range raises IndexError *)
Definition entry (D : list (list R)) (i j : nat) : option R := match nth_error D i with Some row => nth_error row j | None => None end.
Definition oadd (a b : option R) : option R := match a, b with Some a, Some b => Some (a + b) | _, _ => None end.
(** :33-42 [get_route_length]; x[-1] of an empty route raises *)
Definition route_length (D : list (list R)) (x : list nat) : option R :=
  let dist := fold_left (fun dist k => oadd dist (entry D (nth k x 0%nat) (nth (k + 1) x 0%nat))) (seq 0 (length x - 1)) (Some 0) in
  match x with [] => None | first :: _ => oadd dist (entry D (last x 0%nat) first) end.
(** :28 the declared bounds (inclusive) of every variable *)
Definition tsp_bounds (n_cities : nat) : nat * nat := (0%nat, n_cities).

(** ** flowshop_scheduling.py *)
Section Flowshop.
  Variables (n_machines n_jobs : nat) (records : list (list R)) (x : list nat).
  (** self.records[i][x[j]] *)
  Definition proc (i j : nat) : R := nth (nth j x 0%nat) (nth i records []) 0.
  Definition app_row (mt : list (list R)) (i : nat) (v : R) : list (list R) := upd mt i (nth i mt [] ++ [v]).      (* machine_times[i].append(v) *)
  Definition tm (mt : list (list R)) (i j : nat) : R := nth j (nth i mt []) 0.                                      (* machine_times[i][j] *)
  (** :56-63 the first job *)
  Definition first_job : list (list R) :=
    fold_left (fun mt i => app_row mt i (tm mt (i - 1) 0 + proc (i - 1) 0)) (seq 1 (n_machines - 1)) (app_row (repeat [] n_machines) 0 0).
  (** :66-80 the job in position j *)
  Definition next_job (mt : list (list R)) (j : nat) : list (list R) :=
    fold_left (fun mt i => app_row mt i (Rmax (tm mt i (j - 1) + proc i (j - 1)) (tm mt (i - 1) j + proc (i - 1) j))) (seq 1 (n_machines - 1))
      (app_row mt 0 (tm mt 0 (j - 1) + proc 0 (j - 1))).
  (** :43-81 [get_machine_times] (at least one machine and one job) *)
  Definition machine_times : list (list R) := fold_left next_job (seq 1 (n_jobs - 1)) first_job.
  (** :26-41 [makespan]: machine_times[-1][-1] + self.records[-1][x[-1]] *)
  Definition makespan : R := last (last machine_times []) 0 + nth (last x 0%nat) (last records []) 0.
End Flowshop.
(** :22 the declared bounds of every variable *)
Definition flowshop_bounds (n_machines n_jobs : nat) : nat * nat := (0%nat, n_machines).

(** ** knapsack.py: one row of x, booleans *)
(** np.sum(self.P * x, axis=1) *)
Definition picked (V : list R) (x : list bool) : R := rsum (map2 (fun v b => v * (if b : bool then 1 else 0)) V x).
(** :23-25 and :32-37; np.sum(x, axis=1) counts *)
Definition knap_f (P : list R) (x : list bool) : R := - picked P x.
Definition knap_g (W : list R) (C : R) (x : list bool) : R := picked W x - C.
Definition knap_count (x : list bool) : nat := length (filter (fun b => b) x).
(** :17 and :28-29: n_obj = 1 and n_ieq_constr = 1, also for MultiObjectiveKnapsack; its _evaluate stores two columns. [f], [g]: any floating-point
    rounding of the values above *)
Definition knap_conf (n_items : nat) : pconf := {| p_var := n_items; p_obj := 1; p_ieq := 1; p_eq := 0; p_nan := None |}.
Definition knap_out {X} (f g : X -> flt) (xs : list X) : list (string * uval) := [("F"%string, UArr (map (fun x => [f x]) xs)); ("G"%string, UArr (map (fun x => [g x]) xs))].
Definition mo_knap_out {X} (f1 f2 g : X -> flt) (xs : list X) : list (string * uval) :=
  [("F"%string, UArr (map (fun x => [f1 x; f2 x]) xs)); ("G"%string, UArr (map (fun x => [g x]) xs))].
