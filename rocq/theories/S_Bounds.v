(** * Specification for bound handling (C26, C28). *)
From Coq Require Import List ZArith QArith.
From Verif Require Import Flt.
Import ListNotations.

(** a binary64 value lies in [xl, xu] (so it is not NaN) *)
Definition in_box (xl xu x : flt) : Prop := fleb xl x = true /\ fleb x xu = true.
(** ... or is NaN *)
Definition in_box_or_nan (xl xu x : flt) : Prop := in_box xl xu x \/ isnan x = true.
(** vectors: every entry, against the bounds of its own position *)
Definition vec_in_box_or_nan (xl xu X : list flt) : Prop :=
  forall i, (i < length X)%nat -> in_box_or_nan (nth i xl f_nan) (nth i xu f_nan) (nth i X f_nan).
Definition proper_box (n : nat) (xl xu : list flt) : Prop :=
  forall i, (i < n)%nat -> fleb (nth i xl f_nan) (nth i xu f_nan) = true.
(** exact numbers *)
Definition inQ (xl xu x : Q) : Prop := (xl <= x /\ x <= xu)%Q.
(** a random number as numpy's [random()] yields it *)
Definition unit (r : Q) : Prop := (0 <= r /\ r < 1)%Q.
