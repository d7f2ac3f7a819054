(** * Specification for MOEA/D: what a subproblem is, independent of the algorithm *)
From Coq Require Import List Arith QArith.
Import ListNotations.

(** the value of an objective vector [f] for the subproblem with weights [w], measured from the ideal point [ideal] moved by [eps] *)
Definition value (sc : list Q -> list Q -> list Q -> Q) (rnd : Q -> Q) (eps : Q) (ideal f w : list Q) : Q :=
  sc (map (fun x => rnd (x - eps)%Q) ideal) f w.
