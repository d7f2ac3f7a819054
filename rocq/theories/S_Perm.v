(** * Specification vocabulary for permutation operators *)
From Coq Require Import List Arith ZArith.
Import ListNotations.

(** [u] and [v] are cyclic neighbours in the tour [x] *)
Definition tour_next (x : list Z) (u v : Z) : Prop :=
  exists k, k < length x /\ nth k x 0%Z = u /\ nth ((k + 1) mod length x) x 0%Z = v.
Definition tour_adj (x : list Z) (u v : Z) : Prop := tour_next x u v \/ tour_next x v u.
(** neighbours in one of the two parents *)
Definition edge (a b : list Z) (u v : Z) : Prop := tour_adj a u v \/ tour_adj b u v.
(** the number of values satisfying [P], as a relation *)
Definition counts (P : Z -> Prop) (n : nat) : Prop := exists l, NoDup l /\ (forall v, In v l <-> P v) /\ length l = n.
