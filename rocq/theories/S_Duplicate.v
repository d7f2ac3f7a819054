(** * Specification vocabulary for duplicate elimination (C19, C20). *)
From Coq Require Import List Arith Bool Sorted.
Import ListNotations.

(** [I] lists, in increasing order, the positions of [pop] satisfying [P]; [res] is the corresponding subsequence of [pop] *)
Definition selects {A} (d : A) (pop res : list A) (P : nat -> Prop) : Prop :=
  exists I, StronglySorted lt I /\ (forall i, In i I <-> i < length pop /\ P i) /\ res = map (fun i => nth i pop d) I.

(** no two entries of the list are related (later to earlier) *)
Definition pairwise_apart {A} (d : A) (close : A -> A -> bool) (l : list A) : Prop :=
  forall p q, p < q < length l -> close (nth q l d) (nth p l d) = false.
