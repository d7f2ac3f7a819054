(** * Specification for samplings (C27). *)
From Coq Require Import List Arith ZArith QArith.
From Verif Require Import S_Bounds.
Import ListNotations.
(** n_samples rows of n_var entries *)
Definition shape {A} (n m : nat) (X : list (list A)) : Prop := length X = n /\ forall row, In row X -> length row = m.
(** the half-open stratum number s (of n) of the interval [xl, xu] *)
Definition in_stratum (xl xu : Q) (n s : nat) (x : Q) : Prop :=
  (xl + inject_Z (Z.of_nat s) * ((xu - xl) / inject_Z (Z.of_nat n)) < x /\
   x <= xl + inject_Z (Z.of_nat s + 1) * ((xu - xl) / inject_Z (Z.of_nat n)))%Q.
