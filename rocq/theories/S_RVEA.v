(** * Specification side of C82 (RVEA) *)
From Coq Require Import List Arith Bool Reals.
From Verif Require Import ListAux M_NSGA3R.
Import ListNotations.
Local Open Scope R_scope.

(** vectors of length one in [m] dimensions *)
Definition unit_vector (m : nat) (v : list R) : Prop := length v = m /\ dot v v = 1.
(** the [m]-dimensional vectors of [F] *)
Definition vectors (m : nat) (F : list (list R)) : Prop := Forall (fun f => length f = m) F.
(** [p] minus [z] *)
Definition minus (p z : list R) : list R := map2 Rminus p z.
(** direction [k] (a unit vector) encloses a smallest angle with [p]: its inner product is greatest *)
Definition closest (V : list (list R)) (p : list R) (k : nat) : Prop :=
  (k < length V)%nat /\ forall k', (k' < length V)%nat -> dot p (nth k' V []) <= dot p (nth k V []).
(** the angle-penalised distance of [p], seen from the ideal point, in the niche of the unit vector [v] with angle [g] to its neighbour *)
Definition size (p : list R) : R := Rmax (norm p) (/ 10 ^ 64).
Definition apd_of (v : list R) (g pen : R) (p : list R) : R := size p * (1 + pen * (acos (dot p v / size p) / g)).
(** [z] is the componentwise minimum (maximum) of [F] *)
Definition comp_min (m : nat) (F : list (list R)) (z : list R) : Prop :=
  length z = m /\ forall j, (j < m)%nat -> (forall f, In f F -> nth j z 0 <= nth j f 0) /\ exists f, In f F /\ nth j z 0 = nth j f 0.
Definition comp_max (m : nat) (F : list (list R)) (z : list R) : Prop :=
  length z = m /\ forall j, (j < m)%nat -> (forall f, In f F -> nth j f 0 <= nth j z 0) /\ exists f, In f F /\ nth j z 0 = nth j f 0.
