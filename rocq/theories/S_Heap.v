(** * Specification: reachability and what a deep copy is *)
From Coq Require Import String List Arith Bool.
From Verif Require Import M_Heap.
Import ListNotations.
Local Open Scope nat_scope.

(** [reach see h v a]: the object [a] can be reached from the value [v] by following the attributes that [see] shows of an object *)
Inductive reach (see : obj -> fields) (h : heap) : value -> addr -> Prop :=
  | reach_here : forall a, reach see h (VRef a) a
  | reach_next : forall a b o k w, nth_error h a = Some o -> In (k, w) (see o) -> reach see h w b -> reach see h (VRef a) b.
(** all attributes; only those a program that avoids some attributes can see *)
Definition all_fields (o : obj) : fields := o_fields o.
Definition visible (ok : string -> bool) (o : obj) : fields := filter (fun kv => ok (fst kv)) (o_fields o).

(** no dangling references *)
Definition closed (h : heap) : Prop :=
  forall a o k b, nth_error h a = Some o -> In (k, VRef b) (o_fields o) -> b < length h.
Definition valid (h : heap) (v : value) : Prop := match v with VRef a => a < length h | _ => True end.

Definition vmap (f : addr -> addr) (v : value) : value := match v with VRef a => VRef (f a) | _ => v end.
(** [h'] is [h] plus a copy [v'] of everything that hangs on [v] (without hidden attributes): the objects of [h] are as before, and
    [f] maps each object reachable from [v] to its own copy among the new objects, attribute by attribute, sharing and cycles included *)
Definition deep_copy_of (h : heap) (v : value) (h' : heap) (v' : value) : Prop :=
  length h <= length h' /\
  (forall a, a < length h -> nth_error h' a = nth_error h a) /\
  exists f,
    v' = vmap f v /\
    (forall a b, reach state_of h v a -> reach state_of h v b -> f a = f b -> a = b) /\
    (forall a, reach state_of h v a ->
       length h <= f a /\
       exists o, nth_error h a = Some o /\ o_kind o <> Opaque /\
         nth_error h' (f a) = Some (with_fields o (map (fun kv => (fst kv, vmap f (snd kv))) (state_of o)))) /\
    (forall b, length h <= b -> b < length h' -> exists a, reach state_of h v a /\ f a = b).
