(** * Model of /repo/pymoo/core/callback.py, /repo/pymoo/core/recorder.py and /repo/pymoo/core/initialization.py *)
From Coq Require Import List Arith Bool QArith.
From Verif Require Import ListAux M_Termination M_Default.
Import ListNotations.
Local Open Scope nat_scope.

(** ** core/callback.py: a callback (identified by a number) or a collection of callbacks; the flag is is_initialized.  What the
    methods of a concrete callback do is not modelled, only when they are called. *)
Inductive cb := Cb (id : nat) (init : bool) | Coll (init : bool) (children : list cb).
Inductive event := EInit (id : nat) | ENotify (id : nat) | EUpdate (id : nat).
(** lines 22-26, 43-44 [update] *)
Fixpoint cb_update (c : cb) : list event :=
  match c with
  | Cb id _ => [EUpdate id]
  | Coll _ children => flat_map cb_update children
  end.
(** lines 28-36 [__call__]; a collection has the empty initialize and notify of the base class *)
Definition cb_call (c : cb) : cb * list event :=
  match c with
  | Cb id init => (Cb id true, (if init then [] else [EInit id]) ++ [ENotify id] ++ cb_update c)
  | Coll _ children => (Coll true children, cb_update c)
  end.
(** core/algorithm.py:332: one call per completed iteration *)
Fixpoint cb_calls (n : nat) (c : cb) : cb * list event :=
  match n with
  | O => (c, [])
  | S n => let '(c, e1) := cb_call c in let '(c, e2) := cb_calls n c in (c, e1 ++ e2)
  end.

(** ** core/recorder.py:19-29 [Recorder.notify]: whether an entry is recorded, and the new threshold; [None]: ZeroDivisionError *)
Definition rec_notify (nth_evals : option nat) (rec_n_evals n_eval : nat) : option (bool * nat) :=
  match nth_evals with
  | None => Some (true, rec_n_evals)
  | Some k =>
      if rec_n_evals <=? n_eval then
        match k with O => None | _ => Some (true, (1 + n_eval / k) * k) end
      else Some (false, rec_n_evals)
  end.
(** the calls of a run, given the evaluator's counter at each of them; the recorder starts with threshold 0 (line 17) *)
Fixpoint rec_run (nth_evals : option nat) (rec_n_evals : nat) (ns : list nat) : option (list bool * nat) :=
  match ns with
  | [] => Some ([], rec_n_evals)
  | n :: ns =>
      match rec_notify nth_evals rec_n_evals n with
      | None => None
      | Some (b, r) => match rec_run nth_evals r ns with None => None | Some (bs, r) => Some (b :: bs, r) end
      end
  end.
Definition recorder (nth_evals : option nat) (ns : list nat) : option (list bool) := option_map fst (rec_run nth_evals 0 ns).
(** core/recorder.py:45-68 [DefaultSingleObjectiveRecorder.save]: (cv, f, fgap); [None] as f or fgap is inf; an empty optimum raises *)
Record so_entry := { e_evals : nat; e_cv : Q; e_f : option Q; e_gap : option Q }.
Definition so_save (n_eval : nat) (opt : list (bool * Q * Q)) (pf : option (list Q)) : option so_entry :=
  match opt with
  | [] => None
  | (_, cv0, _) :: rest =>
      let cv := py_min cv0 (map (fun i => snd (fst i)) rest) in
      let f := match map snd (filter (fun i => fst (fst i)) opt) with [] => None | f0 :: fs => Some (py_min f0 fs) end in
      let gap := match pf, f with
                 | Some (p0 :: ps), Some f => Some (f - py_min p0 ps)%Q
                 | _, _ => None
                 end in
      Some {| e_evals := n_eval; e_cv := cv; e_f := f; e_gap := gap |}
  end.

(** ** core/initialization.py:27-49 [Initialization.do].  An individual object has decision variables and the set of evaluated values
    (here: whether it is empty); a population is a list of references to individual objects. *)
Section Init.
  Variable Xv : Type.
  Record ind := { i_x : Xv; i_eval : bool }.
  Variable dflt : ind.
  Definition store := list ind.
  (** core/repair.py:9-17 [Repair.do] on the population [refs]: X of the i-th individual becomes the i-th row of the result, in the
      individual objects themselves (core/population.py:31-56); [None]: the number of rows does not fit *)
  Definition repair_do (repair : list Xv -> list Xv) (s : store) (refs : list nat) : option store :=
    let xp := repair (map (fun r => i_x (nth r s dflt)) refs) in
    match refs with
    | [] => Some s
    | _ => if length xp =? length refs
           then Some (fold_left (fun s rx => upd s (fst rx) {| i_x := snd rx; i_eval := i_eval (nth (fst rx) s dflt) |}) (combine refs xp) s)
           else None
    end.
  (** lines 31-39: the given population itself, new individuals for a given array of points, or what the sampling operator returns *)
  Inductive sampling := GivenPop (refs : list nat) | GivenX (xs : list Xv) | Sampler (draw : nat -> list Xv).
  Definition new_inds (s : store) (xs : list Xv) : store * list nat :=
    (s ++ map (fun x => {| i_x := x; i_eval := false |}) xs, seq (length s) (length xs)).
  Definition initial_pop (sm : sampling) (n_samples : nat) (s : store) : store * list nat :=
    match sm with GivenPop refs => (s, refs) | GivenX xs => new_inds s xs | Sampler draw => new_inds s (draw n_samples) end.
  (** [dup]: the mask of the duplicate elimination (C20), computed from the individuals after the repair *)
  Definition init_do (repair : list Xv -> list Xv) (dup : list Xv -> list bool) (sm : sampling) (n_samples : nat) (s : store)
    : option (store * list nat) :=
    let '(s, pop) := initial_pop sm n_samples s in
    let todo := filter (fun r => negb (i_eval (nth r s dflt))) pop in
    match repair_do repair s todo with
    | None => None
    | Some s =>
        let mask := dup (map (fun r => i_x (nth r s dflt)) pop) in
        Some (s, map fst (filter (fun rb => negb (snd rb)) (combine pop mask)))
    end.
End Init.
Arguments i_x {Xv}.
Arguments i_eval {Xv}.
