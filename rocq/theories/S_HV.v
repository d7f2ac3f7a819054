(** * Specification: the hypervolume of a finite set of points, and the epsilon indicators, in exact rational arithmetic *)
From Coq Require Import List Bool QArith Qminmax.
Import ListNotations.
Local Open Scope Q_scope.

(** [p] is nowhere greater than [q] *)
Definition weakly (p q : list Q) : Prop := Forall2 Qle p q.
(** every point of [D] has a point of [E] that is nowhere greater *)
Definition covered_by (D E : list (list Q)) : Prop := forall p, In p D -> exists q, In q E /\ weakly q p.
Definition dim (m : nat) (D : list (list Q)) : Prop := Forall (fun p => length p = m) D.

(** ** Hypervolume, by slicing: in the first objective, between the consecutive coordinates [a], [b] of points (the last one that of the reference
    point), the section of the dominated region is the region dominated by the points whose coordinate is at most [a] *)
Fixpoint ins (a : Q) (g : list Q) : list Q := match g with [] => [a] | b :: g' => if Qle_bool a b then a :: g else b :: ins a g' end.
Definition cuts (r : Q) (X : list Q) : list Q := fold_right ins [r] (filter (fun x => negb (Qle_bool r x)) X).
Fixpoint integral (h : Q -> Q) (g : list Q) : Q :=
  match g with a :: g' => match g' with b :: _ => (b - a) * h a + integral h g' | [] => 0 end | [] => 0 end.
Definition section (a : Q) (D : list (list Q)) : list (list Q) := map (@tl Q) (filter (fun p => Qle_bool (hd 0 p) a) D).
Fixpoint hypervolume (ref : list Q) (D : list (list Q)) : Q :=
  match ref with
  | [] => match D with [] => 0 | _ => 1 end
  | r :: ref => integral (fun a => hypervolume ref (section a D)) (cuts r (map (hd 0) D))
  end.

(** the box between [p] and the reference point; the componentwise maximum *)
Fixpoint box (ref p : list Q) : Q := match ref, p with r :: ref, x :: p => Qmax 0 (r - x) * box ref p | _, _ => 1 end.
Fixpoint join (p q : list Q) : list Q := match p, q with x :: p, y :: q => Qmax x y :: join p q | _, _ => [] end.
