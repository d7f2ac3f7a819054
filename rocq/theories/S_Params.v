(** * Specification vocabulary for parameter dictionaries (C44, C45, C54). *)
From Coq Require Import Ascii String List Arith Bool.
From Verif Require Import M_Params.
Import ListNotations.

(** what is found by following a path of keys: nested[k1][k2]... *)
Fixpoint tlook {V} (t : tree V) (path : list string) : option (tree V) :=
  match path with
  | [] => Some t
  | k :: path => match t with Leaf _ => None | Node l => match dget l k with None => None | Some t' => tlook t' path end end
  end.
Fixpoint olook (o : obj) (path : list string) : option obj :=
  match path with
  | [] => Some o
  | k :: path => match o with ODict l => match dget l k with None => None | Some o' => olook o' path end | _ => None end
  end.
(** nothing there, a dictionary there, or a value there *)
Definition kind {V} (t : option (tree V)) : option (option V) :=
  match t with None => None | Some (Node _) => Some None | Some (Leaf v) => Some (Some v) end.
(** equality of nested dictionaries (Python ==): the same keys with the same values at every depth, in whatever order *)
Definition same_dict {V} (a b : tree V) : Prop := forall path, kind (tlook a path) = kind (tlook b path).
(** a Python dictionary has every key once, at every depth *)
Definition keys_unique {V} (t : tree V) : Prop := forall path l, tlook t path = Some (Node l) -> NoDup (map fst l).
Definition okeys_unique (o : obj) : Prop := forall path l, olook o path = Some (ODict l) -> NoDup (map fst l).
(** no "." inside *)
Fixpoint dot_free (s : string) : Prop := match s with EmptyString => True | String c s => c <> "."%char /\ dot_free s end.
Definition keys_dot_free {V} (t : tree V) : Prop := forall path l k x, tlook t path = Some (Node l) -> In (k, x) l -> dot_free k.
(** no empty dictionary below the top *)
Definition no_empty {V} (t : tree V) : Prop := forall path, path <> [] -> tlook t path <> Some (Node []).
(** flat dictionaries: same entries *)
Definition same_flat {V} (a b : list (string * V)) : Prop := forall k, dget a k = dget b k.
(** no dotted name is a dotted prefix of another one *)
Definition prefix_free {V} (d : list (string * V)) : Prop :=
  forall k k' v v', dget d k = Some v -> dget d k' = Some v' -> forall rest, k' <> (k ++ "." ++ rest)%string.
