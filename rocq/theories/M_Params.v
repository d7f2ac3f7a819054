(** * Model of /repo/pymoo/core/parameters.py.
    Python dictionaries with string keys are association lists in insertion order; [dset] is assignment d[k] = v.
    [None] from a function: an exception (KeyError, AttributeError) or, for [hierarchical], running out of the fuel [length of the keys]
    (shown never to happen). *)
From Coq Require Import Ascii String List Arith Bool.
Import ListNotations.
Local Open Scope nat_scope.

Section Dict.
  Context {V : Type}.
  Fixpoint dget (d : list (string * V)) (k : string) : option V :=
    match d with [] => None | (k', v) :: d => if String.eqb k' k then Some v else dget d k end.
  Fixpoint dset (d : list (string * V)) (k : string) (v : V) : list (string * V) :=
    match d with [] => [(k, v)] | (k', v') :: d => if String.eqb k' k then (k', v) :: d else (k', v') :: dset d k v end.
End Dict.

(** str.split(".") *)
Fixpoint split (s : string) : list string :=
  match s with
  | EmptyString => [EmptyString]
  | String c s => if Ascii.eqb c "."%char then EmptyString :: split s
                  else match split s with [] => [String c EmptyString] | h :: t => String c h :: t end
  end.
(** ".".join(l) *)
Definition join (l : list string) : string := String.concat "." l.

(** a nested parameter dictionary: values and dictionaries *)
Inductive tree (V : Type) : Type := Leaf (v : V) | Node (l : list (string * tree V)).
Arguments Leaf {V}. Arguments Node {V}.

Section Flat.
  Context {V : Type}.
  (** core/parameters.py:169-183 [flatten_rec]; with prefix None only dictionaries are passed *)
  Fixpoint flatten_rec (prefix : option string) (t : tree V) : list (string * V) :=
    match t with
    | Leaf v => [(match prefix with Some p => p | None => EmptyString end, v)]
    | Node l => flat_map (fun kt => flatten_rec (Some (match prefix with Some p => (p ++ "." ++ fst kt)%string | None => fst kt end)) (snd kt)) l
    end.
  (** core/parameters.py:157-166 [flatten] *)
  Definition flatten (l : list (string * tree V)) : list (string * V) :=
    fold_left (fun d kv => dset d (fst kv) (snd kv)) (flatten_rec None (Node l)) [].

  (** core/parameters.py:186-211 [hierarchical]: the first loop *)
  Definition hier_step (st : list (string * tree V) * list (string * list (string * V))) (kv : string * V) :
      list (string * tree V) * list (string * list (string * V)) :=
    let '(ret, groups) := st in
    let a := split (fst kv) in
    if 1 <? length a then
      let prefix := hd EmptyString a in
      let g := match dget groups prefix with None => [] | Some g => g end in
      (ret, dset groups prefix (dset g (join (tl a)) (snd kv)))
    else (dset ret (fst kv) (Leaf (snd kv)), groups).
  Fixpoint hier (fuel : nat) (data : list (string * V)) : option (list (string * tree V)) :=
    match fuel with
    | 0 => None
    | S fuel =>
        let '(ret, groups) := fold_left hier_step data ([], []) in
        fold_left (fun r ng => match r, hier fuel (snd ng) with Some r, Some t => Some (dset r (fst ng) (Node t)) | _, _ => None end) groups (Some ret)
    end.
  Definition hierarchical (data : list (string * V)) : option (list (string * tree V)) :=
    hier (S (list_max (map (fun kv => length (split (fst kv))) data))) data.
End Flat.

(** objects as seen by parameters.py: a Variable (a reference to a cell of the store), something without attributes, or something with
    attributes (an object with __dict__ or a dict; get_data, core/parameters.py:6-20).  Trees: no sharing except of variables *)
Inductive obj : Type := OVar (id : nat) | OPlain (v : nat) | ODict (l : list (string * obj)).

Section SetParams.
  Context {V : Type}.
  (** what a parameter dictionary may hold in the two modes: a plain value for .set(), or any object to be assigned *)
  Variable as_obj : V -> obj.
  (** core/parameters.py:137-154 [set_params]; the nested call is set_params(data[k], v), i.e. as_value=True.
      State: the values of the variables, and the object itself *)
  Definition store := nat -> option V.
  Definition upd_store (s : store) (i : nat) (v : V) : store := fun j => if j =? i then Some v else s j.
  Fixpoint set_params (as_value : bool) (p : tree V) (st : store * obj) {struct p} : option (store * obj) :=
    match p with
    | Leaf v => None
    | Node params =>
        match snd st with
        | OVar _ => None                       (* not modelled: the attributes of a Variable object itself *)
        | OPlain _ =>                           (* get_data gives a fresh {} *)
            match params with [] => Some st | _ => if as_value then None else if existsb (fun kt => match snd kt with Node _ => true | _ => false end) params then None else Some st end
        | ODict _ =>
            (fix go (params : list (string * tree V)) (st : store * list (string * obj)) : option (store * obj) :=
               match params with
               | [] => Some (fst st, ODict (snd st))
               | (k, v) :: params =>
                   match v with
                   | Node _ =>
                       match dget (snd st) k with
                       | None => None
                       | Some o => match set_params true v (fst st, o) with
                                   | None => None
                                   | Some (s', o') => go params (s', dset (snd st) k o')
                                   end
                       end
                   | Leaf w =>
                       if as_value then
                         match dget (snd st) k with
                         | Some (OVar i) => go params (upd_store (fst st) i w, snd st)
                         | _ => None
                         end
                       else go params (fst st, dset (snd st) k (as_obj w))
                   end
               end) params (fst st, match snd st with ODict l => l | _ => [] end)
        end
    end.
End SetParams.

(** core/parameters.py:24-35 [get_params]: an explicit stack, the last pushed entry is taken first (pop).  [match_] = flag and activity of
    a variable.  [fuel]: the number of entries taken from the stack *)
Section GetParams.
  Variable matches : nat -> bool.
  Fixpoint put_at (path : list string) (i : nat) (d : list (string * tree nat)) : list (string * tree nat) :=
    match path with
    | [] => d
    | k :: rest =>
        match rest with
        | [] => dset d k (Leaf i)
        | _ => dset d k (Node (put_at rest i (match dget d k with Some (Node l) => l | _ => [] end)))
        end
    end.
  Fixpoint get_params_go (fuel : nat) (q : list (list string * obj)) (visited : list nat) (ret : list (string * tree nat)) : option (list (string * tree nat)) :=
    match q with
    | [] => Some ret
    | (path, o) :: q =>
        match fuel with
        | 0 => None
        | S fuel =>
            match o with
            | OVar i =>
                let ret := if negb (existsb (Nat.eqb i) visited) && matches i then put_at path i ret else ret in
                get_params_go fuel q (i :: visited) ret
            | OPlain _ => get_params_go fuel q visited ret
            | ODict l => get_params_go fuel (rev (map (fun kv => (path ++ [fst kv], snd kv)) l) ++ q) visited ret
            end
        end
    end.
  Fixpoint osize (o : obj) : nat := match o with ODict l => S (list_sum (map (fun kv => osize (snd kv)) l)) | _ => 1 end.
  Definition get_params (o : obj) : option (list (string * tree nat)) :=
    match o with
    | OVar i => if matches i then None else Some []                       (* prefix[:-1] with prefix None: TypeError *)
    | _ => get_params_go (osize o) [([], o)] [] []
    end.
End GetParams.
