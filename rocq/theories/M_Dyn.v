(** * Model of /repo/pymoo/problems/dyn.py (the clock of a dynamic test problem) together with the cache of its Pareto front,
    /repo/pymoo/util/cache.py:4-31 and /repo/pymoo/core/problem.py:326-332.  [calc n t]: what _calc_pareto_front(n_pareto_points=n) computes at the time [t]
    (already in the form pareto_front returns it). *)
From Coq Require Import List ZArith QArith.
Import ListNotations.

Section Dyn.
  Context {V : Type}.
  Variable calc : nat -> Q -> V.
  (** dyn.py:26-31: nt, taut, tau and _time; the attribute cache (the entry "pareto_front") *)
  Record dyn := { d_nt : Z; d_taut : Z; d_tau : Z; d_set : option Q; d_cache : option V }.
  (** dyn.py:45-54: 1 / nt * (tau // taut); None: ZeroDivisionError *)
  Definition dyn_time (p : dyn) : option Q :=
    match d_set p with
    | Some v => Some v
    | None => if (d_nt p =? 0)%Z || (d_taut p =? 0)%Z then None else Some (1 / inject_Z (d_nt p) * inject_Z (d_tau p / d_taut p))%Q
    end.
  (** what can be done with the problem: tic (dyn.py:34-43), the setter of time (56-63), pareto_front(n_pareto_points=n, use_cache, set_cache) *)
  Inductive dyn_op := Tic (elapsed : Z) | SetTime (v : Q) | Front (n : nat) (use_cache set_cache : bool).
  (** the new state and what is returned, None: nothing (or the exception) *)
  Definition dyn_do (p : dyn) (o : dyn_op) : dyn * option V :=
    match o with
    | Tic e => ({| d_nt := d_nt p; d_taut := d_taut p; d_tau := d_tau p + e; d_set := d_set p; d_cache := None |}, None)
    | SetTime v => ({| d_nt := d_nt p; d_taut := d_taut p; d_tau := d_tau p; d_set := Some v; d_cache := d_cache p |}, None)
    | Front n use set =>
        match (if use then d_cache p else None) with
        | Some v => (p, Some v)
        | None =>
            match dyn_time p with
            | None => (p, None)
            | Some t =>
                let v := calc n t in
                ((if set then {| d_nt := d_nt p; d_taut := d_taut p; d_tau := d_tau p; d_set := d_set p; d_cache := Some v |} else p), Some v)
            end
        end
    end.
  Definition dyn_run (p : dyn) (os : list dyn_op) : dyn := fold_left (fun p o => fst (dyn_do p o)) os p.
  (** dyn.py:27: a new problem *)
  Definition dyn_new (nt taut tau : Z) (time : option Q) : dyn := {| d_nt := nt; d_taut := taut; d_tau := tau; d_set := time; d_cache := None |}.
  (** dyn.py:67-83 [TimeSimulation]: one tic per generation *)
  Definition simulate (p : dyn) (gens : nat) : dyn := dyn_run p (repeat (Tic 1) gens).
End Dyn.
Arguments dyn : clear implicits.
