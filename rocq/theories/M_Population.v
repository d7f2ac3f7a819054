(** * Model of /repo/pymoo/core/population.py and /repo/pymoo/core/evaluator.py.
    Individuals are mutable objects: a heap maps references to individuals, a population is an array of references (slicing and
    merging a population share the objects).  Attribute values are of an abstract type [V]; [None] is an attribute never set. *)
From Coq Require Import String List Arith Bool.
From Verif Require Import ListAux.
Import ListNotations.
Local Open Scope nat_scope.

Section Pop.
  Context {V : Type}.

  Record ind := { vals : string -> option V; evald : list string }.
  Definition empty_ind : ind := {| vals := fun _ => None; evald := [] |}.
  (** [alloc]: number of objects allocated so far *)
  Record heap := { alloc : nat; obj : nat -> ind }.

  (** core/individual.py:455-473 [set] *)
  Definition ind_set (o : ind) (key : string) (v : V) : ind :=
    {| vals := fun k => if String.eqb k key then Some v else vals o k; evald := evald o |}.
  Definition put (h : heap) (r : nat) (o : ind) : heap := {| alloc := alloc h; obj := fun x => if x =? r then o else obj h x |}.

  (** core/population.py:53-63: loop over the individuals for one key with a sequence of values *)
  Fixpoint set_each (h : heap) (pop : list nat) (key : string) (vs : list V) : heap :=
    match pop, vs with
    | r :: pop, v :: vs => set_each (put h r (ind_set (obj h r) key v)) pop key vs
    | _, _ => h
    end.

  (** lines 38-65 [Population.set]: keys in order; an empty population returns immediately; a wrong length raises (the second
      component is [false]) after the earlier keys have been set *)
  Fixpoint set_keys (h : heap) (pop : list nat) (kvs : list (string * list V)) : heap * bool :=
    match kvs with
    | [] => (h, true)
    | (key, vs) :: kvs => if length vs =? length pop then set_keys (set_each h pop key vs) pop kvs else (h, false)
    end.
  Definition pop_set (h : heap) (pop : list nat) (kvs : list (string * list V)) : heap * bool :=
    if length pop =? 0 then (h, true) else set_keys h pop kvs.

  (** lines 67-91 [Population.get] for one key *)
  Definition pop_get (h : heap) (pop : list nat) (key : string) : list (option V) := map (fun r => vals (obj h r) key) pop.

  (** lines 158-176 [merge]: [None] argument = Python None; result [None] = AssertionError *)
  Definition merge2 (a b : option (list nat)) : option (list nat) :=
    match a, b with
    | None, None => None
    | None, Some b => Some b
    | Some a, None => Some a
    | Some a, Some b => if length a =? 0 then Some b else if length b =? 0 then Some a else Some (a ++ b)
    end.
  (** lines 93-104 [Population.merge] *)
  Fixpoint merge_all (m : option (list nat)) (others : list (option (list nat))) : option (list nat) :=
    match others with
    | [] => m
    | o :: others => match merge2 m o with None => None | m' => merge_all m' others end
    end.
  Definition pop_merge (a b : option (list nat)) (others : list (option (list nat))) : option (list nat) :=
    match merge2 a b with None => None | m => merge_all m others end.

  (** lines 110-113 [Population.empty] *)
  Definition pop_empty (h : heap) (size : nat) : heap * list nat :=
    ({| alloc := alloc h + size; obj := fun x => if (alloc h <=? x) && (x <? alloc h + size) then empty_ind else obj h x |},
     seq (alloc h) size).
  (** lines 115-131 [Population.new]; [None] = exception (sizes differ) *)
  Definition pop_new (h : heap) (kvs : list (string * list V)) : option (heap * list nat) :=
    match kvs with
    | [] => Some (pop_empty h 0)
    | (_, vs) :: rest =>
        if forallb (fun kv => length (snd kv) =? length vs) rest then
          let '(h, pop) := pop_empty h (length vs) in Some (fst (pop_set h pop kvs), pop)
        else None
    end.

  (** ** evaluator.py *)
  Definition has_key (k : string) (l : list string) : bool := existsb (String.eqb k) l.
  (** lines 61-64: individuals lacking one of the requested values *)
  Definition lacking (h : heap) (keys : list string) (r : nat) : bool :=
    negb (forallb (fun e => has_key e (evald (obj h r))) keys).

  (** [problem X keys] = problem.evaluate(X, return_values_of=keys, return_as_dictionary=True): dictionary key -> one value per row *)
  Definition problem_t := list (option V) -> list string -> list (string * list V).

  Record estate := { hp : heap; n_eval : nat; calls : list (list (option V) * list string) }.

  (** lines 100-101 *)
  Fixpoint mark (h : heap) (pop : list nat) (keys : list string) : heap :=
    match pop with
    | [] => h
    | r :: pop => mark (put h r {| vals := vals (obj h r); evald := keys ++ evald (obj h r) |}) pop keys
    end.

  (** lines 86-101 [_eval] *)
  Definition eval_sub (prob : problem_t) (st : estate) (pop : list nat) (keys : list string) : estate :=
    let X := pop_get (hp st) pop "X"%string in
    let out := prob X keys in
    let h := fst (fold_left (fun hb kv => if snd hb : bool then pop_set (fst hb) pop [kv] else hb) out (hp st, true)) in
    {| hp := mark h pop (map fst out); n_eval := n_eval st; calls := calls st ++ [(X, keys)] |}.

  (** lines 38-84 [eval] (an exception raised by the problem or by [set] is excluded by the hypotheses of the theorems) *)
  Definition eval (prob : problem_t) (skip : bool) (keys : list string) (count : bool) (st : estate) (pop : list nat) : estate :=
    let I := if skip then where_ (fun i => lacking (hp st) keys (nth i pop 0)) (length pop) else seq 0 (length pop) in
    let st1 := if (0 <? length I) then eval_sub prob st (gather 0 pop I) keys else st in
    {| hp := hp st1; n_eval := (if count then n_eval st1 + length I else n_eval st1); calls := calls st1 |}.
End Pop.
Arguments ind : clear implicits.
Arguments heap : clear implicits.
Arguments estate : clear implicits.
Arguments problem_t : clear implicits.
