(** * Specification for decompositions, independent of the model *)
From Coq Require Import List QArith.
Import ListNotations.

(** minimisation: no worse everywhere; better somewhere; better everywhere *)
Definition weakly_le (f g : list Q) : Prop := Forall2 (fun a b => a <= b)%Q f g.
Definition pareto_lt (f g : list Q) : Prop := weakly_le f g /\ exists i, (i < length f)%nat /\ (nth i f 0 < nth i g 0)%Q.
Definition strictly_lt (f g : list Q) : Prop := Forall2 (fun a b => a < b)%Q f g.
(** [v] is the largest of the numbers [x 0 .. x (m-1)] *)
Definition is_max (m : nat) (x : nat -> Q) (v : Q) : Prop := (exists i, (i < m)%nat /\ v == x i) /\ forall i, (i < m)%nat -> (x i <= v)%Q.
(** the sum of [x 0 .. x (m-1)] *)
Fixpoint sum_upto (m : nat) (x : nat -> Q) : Q := match m with O => 0 | S m => (sum_upto m x + x m)%Q end.
(** rounding: order is kept, zero is kept *)
Definition rounding (rnd : Q -> Q) : Prop := (forall a b, a <= b -> rnd a <= rnd b)%Q /\ (rnd 0 == 0)%Q.
(** the point the objectives are measured from: the utopian point if given, otherwise the ideal point (the origin, if that is not given either) moved by [eps] *)
Definition reference_point (rnd : Q -> Q) (eps : Q) (m : nat) (ideal utop : option (list Q)) (u : list Q) : Prop :=
  (forall v, utop = Some v -> u = v) /\
  (utop = None -> forall z, ideal = Some z -> u = map (fun x => rnd (x - eps)%Q) z) /\
  (utop = None -> ideal = None -> u = repeat (rnd (0 - eps)%Q) m).
