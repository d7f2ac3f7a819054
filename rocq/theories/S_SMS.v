(** * Hypervolume.  Points lie on a lattice (the objective values are integer multiples of a unit per objective, as floating point numbers are): the
    hypervolume is the volume of a cell times the number of the unit cells, between [lo] and the reference point, that some point covers.  A cell
    is named by its lower corner and is covered by every point that is nowhere greater. *)
From Coq Require Import List Arith Bool ZArith QArith.
From Verif Require Import Flt M_NDS.
Import ListNotations.
Local Open Scope nat_scope.

Fixpoint covers (p c : list Z) : bool := match p, c with [], [] => true | x :: p, y :: c => (x <=? y)%Z && covers p c | _, _ => false end.
Definition zrange (lo hi : Z) : list Z := map (fun k => (lo + Z.of_nat k)%Z) (seq 0 (Z.to_nat (hi - lo))).
Fixpoint lattice (lo ref : list Z) : list (list Z) :=
  match lo, ref with l :: lo, r :: ref => flat_map (fun x => map (cons x) (lattice lo ref)) (zrange l r) | [], [] => [[]] | _, _ => [] end.
(** number of cells covered by the points [P i], i in [J] *)
Definition hv (P : list (list Z)) (lo ref : list Z) (J : list nat) : nat :=
  length (filter (fun c => existsb (fun i => covers (nth i P []) c) J) (lattice lo ref)).
(** the lattice positions [P] belong to the objective values [F] *)
Definition on_lattice (F : fltmat) (P : list (list Z)) : Prop :=
  length P = length F /\ (forall i, length (nth i P []) = length (nth i F [])) /\
  (forall i j k, k < length (nth i F []) -> fleb (cell F i k) (cell F j k) = true -> (nth k (nth i P []) 0 <= nth k (nth j P []) 0)%Z).
(** contract of the library: the contribution of a member is the hypervolume lost without it ([unit]: volume of a cell after normalisation) *)
Definition contributions_ok (P : list (list Z)) (lo ref : list Z) (unit : Q) (contrib : list nat -> list Q) : Prop :=
  forall J, length (contrib J) = length J /\
    forall k, k < length J -> (nth k (contrib J) 0 == unit * inject_Z (Z.of_nat (hv P lo ref J) - Z.of_nat (hv P lo ref (firstn k J ++ skipn (S k) J))))%Q.
(** [K] arises from [J] by removing [r] members one after the other, each the one whose removal leaves the greatest hypervolume *)
Inductive greedy (P : list (list Z)) (lo ref : list Z) : nat -> list nat -> list nat -> Prop :=
| greedy_done J : greedy P lo ref 0 J J
| greedy_step r J K k : k < length J -> (forall j, j < length J -> hv P lo ref (firstn j J ++ skipn (S j) J) <= hv P lo ref (firstn k J ++ skipn (S k) J)) ->
    greedy P lo ref r (firstn k J ++ skipn (S k) J) K -> greedy P lo ref (S r) J K.
