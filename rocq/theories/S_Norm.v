(** * Specification side of the normalisations *)
From Coq Require Import List QArith.
Import ListNotations.
Local Open Scope Q_scope.

(** [v] is the smallest / largest [j]-th entry of the rows [X] *)
Definition least (j : nat) (X : list (list Q)) (v : Q) : Prop :=
  (exists r, In r X /\ v = nth j r 0) /\ forall r, In r X -> v <= nth j r 0.
Definition greatest (j : nat) (X : list (list Q)) (v : Q) : Prop :=
  (exists r, In r X /\ v = nth j r 0) /\ forall r, In r X -> nth j r 0 <= v.
(** rows of [m] numbers *)
Definition table (m : nat) (X : list (list Q)) : Prop := X <> [] /\ forall r, In r X -> length r = m.
