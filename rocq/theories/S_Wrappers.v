(** * Specification for the problem wrappers *)
From Coq Require Import String List Arith QArith.
From Verif Require Import M_Params M_Wrappers.
Import ListNotations.

(** the wrapped problem stores one row per point, of the declared size, and always sets F *)
Definition w_ok (p : wprob) : Prop := forall xs,
  (exists F, dget (w_set p xs) "F" = Some F) /\
  forall n rows, In n ["F"; "G"; "H"]%string -> dget (w_set p xs) n = Some rows -> length rows = length xs /\ Forall (fun r => length r = w_size p n) rows.
(** the value of the wrapped problem under [n], if it is set or asked for *)
Definition available (p : wprob) (names : list string) (xs : list (list Q)) (n : string) : Prop := In n names \/ dget (w_set p xs) n <> None.
(** Pareto dominance for minimisation *)
Definition dominates (a b : list Q) : Prop :=
  length a = length b /\ (forall j, (j < length a)%nat -> (nth j a 0 <= nth j b 0)%Q) /\ exists j, (j < length a)%nat /\ (nth j a 0 < nth j b 0)%Q.
