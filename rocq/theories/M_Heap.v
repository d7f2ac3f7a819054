(** * Objects, attributes and [copy.deepcopy]: the part of Python's object model that /repo/pymoo/optimize.py,
      /repo/pymoo/core/algorithm.py (setup, save_history) and /repo/pymoo/core/meta.py rely on.
    A heap is a list of objects; the address of an object is its position; allocation appends.  An object has a kind, the attributes it
    hides from copying, and its attributes.  Lists are objects with one attribute per position.  Immutable atoms (numbers,
    strings, functions, classes) are [VPrim]. *)
From Coq Require Import String List Arith Bool.
From Verif Require Import ListAux.
Import ListNotations.
Local Open Scope nat_scope.

Definition addr := nat.
Inductive value := VNone | VPrim (z : nat) | VRef (a : addr).
(** [Opaque]: objects copy.deepcopy raises on (generators, locks, pools, open files).  [Tuple]: a tuple, not a Termination object *)
Inductive kind := Plain | Tuple | Opaque.
Definition fields := list (string * value).
(** [o_hide]: what [__getstate__] of the object's class does to its attributes: an attribute listed with [true] is replaced by None
    (core/problem.py:374-384, exclude_from_serialization), one listed with [false] is dropped (parallelization/starmap.py:17-20) *)
Record obj := { o_kind : kind; o_hide : list (string * bool); o_fields : fields }.
Definition heap := list obj.

Definition plain (fs : fields) : obj := {| o_kind := Plain; o_hide := []; o_fields := fs |}.

Definition assoc {A} (k : string) (l : list (string * A)) : option A :=
  option_map snd (find (fun kv => String.eqb (fst kv) k) l).
(** reading and writing [__dict__] *)
Definition fget (fs : fields) (k : string) : value := match assoc k fs with Some v => v | None => VNone end.
Fixpoint fset (fs : fields) (k : string) (v : value) : fields :=
  match fs with
  | [] => [(k, v)]
  | (k', v') :: fs => if String.eqb k' k then (k', v) :: fs else (k', v') :: fset fs k v
  end.
Definition with_fields (o : obj) (fs : fields) : obj := {| o_kind := o_kind o; o_hide := o_hide o; o_fields := fs |}.
(** a missing attribute reads as None here (Python raises AttributeError) *)
Definition getattr (h : heap) (v : value) (k : string) : value :=
  match v with
  | VRef a => match nth_error h a with Some o => fget (o_fields o) k | None => VNone end
  | _ => VNone
  end.
Definition setattr (h : heap) (v : value) (k : string) (w : value) : heap :=
  match v with
  | VRef a => match nth_error h a with Some o => upd h a (with_fields o (fset (o_fields o) k w)) | None => h end
  | _ => h
  end.
Definition alloc (h : heap) (o : obj) : heap * value := (h ++ [o], VRef (length h)).

(** the state that deepcopy copies: [__getstate__] *)
Definition state_of (o : obj) : fields :=
  flat_map (fun kv => match assoc (fst kv) (o_hide o) with
                      | None => [kv]
                      | Some true => [(fst kv, VNone)]
                      | Some false => []
                      end) (o_fields o).

(** [copy.deepcopy] (Python's copy module; called at optimize.py:35, 41, core/algorithm.py:117, 326, core/meta.py:15): depth first with a
    memo from the addresses already met to their copies; the new object is registered in the memo before its state is copied, so
    cycles and sharing are preserved.  [None]: an exception (an opaque object was met).  Simplification: a tuple of atoms is copied too
    (CPython returns it as it is; it is immutable). *)
Definition memo := list (addr * addr).
Definition mget (m : memo) (a : addr) : option addr := option_map snd (find (fun p => Nat.eqb (fst p) a) m).
Fixpoint copy_fields (dc : heap -> memo -> value -> option (heap * memo * value)) (fs : fields) (h : heap) (m : memo)
  : option (heap * memo * fields) :=
  match fs with
  | [] => Some (h, m, [])
  | (k, w) :: fs =>
      match dc h m w with
      | None => None
      | Some (h, m, w') =>
          match copy_fields dc fs h m with
          | None => None
          | Some (h, m, r) => Some (h, m, (k, w') :: r)
          end
      end
  end.
Fixpoint dc (fuel : nat) (h : heap) (m : memo) (v : value) : option (heap * memo * value) :=
  match fuel with
  | O => None
  | S n =>
      match v with
      | VRef a =>
          match mget m a with
          | Some b => Some (h, m, VRef b)
          | None =>
              match nth_error h a with
              | None => None
              | Some o =>
                  match o_kind o with
                  | Opaque => None
                  | _ =>
                      let b := length h in
                      match copy_fields (dc n) (state_of o) (h ++ [with_fields o []]) ((a, b) :: m) with
                      | None => None
                      | Some (h', m', fs) => Some (upd h' b (with_fields o fs), m', VRef b)
                      end
                  end
              end
          end
      | _ => Some (h, m, v)
      end
  end.
(** the recursion is never deeper than the number of objects *)
Definition deepcopy (h : heap) (v : value) : option (heap * value) :=
  match dc (S (S (length h))) h [] v with Some (h', _, v') => Some (h', v') | None => None end.

(** Arbitrary code (methods of a concrete algorithm, of the problem, of a callback, ...), as what it can do to objects: starting from
    the values it was given it can read attributes, write attributes, delete attributes, and make new objects; it can only name objects
    it got hold of.  [ok k = false]: the code never uses the attribute [k]. *)
Definition mem_value (v : value) (L : list value) : Prop := match v with VRef _ => In v L | _ => True end.
Inductive step (ok : string -> bool) : heap * list value -> heap * list value -> Prop :=
  | s_read : forall h L a o k w, In (VRef a) L -> nth_error h a = Some o -> In (k, w) (o_fields o) -> ok k = true ->
      step ok (h, L) (h, w :: L)
  | s_write : forall h L a o k w, In (VRef a) L -> nth_error h a = Some o -> ok k = true -> mem_value w L ->
      step ok (h, L) (upd h a (with_fields o (fset (o_fields o) k w)), L)
  | s_delete : forall h L a o k, In (VRef a) L -> nth_error h a = Some o -> ok k = true ->
      step ok (h, L) (upd h a (with_fields o (filter (fun kv => negb (String.eqb (fst kv) k)) (o_fields o))), L)
  | s_new : forall h L o, (forall k w, In (k, w) (o_fields o) -> mem_value w L) ->
      step ok (h, L) (h ++ [o], VRef (length h) :: L).
Inductive steps (ok : string -> bool) : heap * list value -> heap * list value -> Prop :=
  | st_none : forall s, steps ok s s
  | st_more : forall s1 s2 s3, step ok s1 s2 -> steps ok s2 s3 -> steps ok s1 s3.
