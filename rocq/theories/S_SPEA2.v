(** * Specification side of C81 (SPEA2) *)
From Coq Require Import List Arith Bool QArith.
From Verif Require Import Flt S_Pareto.
Import ListNotations.
Local Open Scope nat_scope.

(** [l] lists the numbers below [n] with property [Q], each once *)
Definition lists (n : nat) (Q : nat -> Prop) (l : list nat) : Prop := NoDup l /\ forall i, In i l <-> i < n /\ Q i.
Definition non_dominated (F : list (list flt)) (i : nat) : Prop := i < length F /\ forall j, j < length F -> ~ row_dom F j i.
(** the number of points that point [i] dominates *)
Definition is_strength (F : list (list flt)) (i s : nat) : Prop := exists l, lists (length F) (row_dom F i) l /\ length l = s.
(** SPEA2's raw fitness: the sum of the strengths of the points that dominate [i] *)
Definition is_raw (F : list (list flt)) (i r : nat) : Prop :=
  exists l s, lists (length F) (fun j => row_dom F j i) l /\ Forall2 (is_strength F) l s /\ r = list_sum s.
(** distances, infinity (None) greatest *)
Definition dle (a b : option Q) : Prop := match a, b with _, None => True | None, Some _ => False | Some x, Some y => (x <= y)%Q end.
Definition deq (a b : option Q) : Prop := dle a b /\ dle b a.
Definition dlt (a b : option Q) : Prop := ~ dle b a.
(** lexicographic order of distance vectors *)
Inductive dlex : list (option Q) -> list (option Q) -> Prop :=
| dlex_here x y a b : dlt x y -> dlex (x :: a) (y :: b)
| dlex_next x y a b : deq x y -> dlex a b -> dlex (x :: a) (y :: b).
(** [v] are the distances of member [i] to the other members of [J], nearest first, and infinity for itself *)
Definition distances (dist : nat -> nat -> option Q) (J : list nat) (i : nat) (v : list (option Q)) : Prop :=
  Permutation.Permutation v (map (fun j => if i =? j then None else dist i j) J) /\ forall p q, p < q -> q < length v -> dle (nth p v None) (nth q v None).
(** [K] arises from [J] by removing [r] members one after the other, each with a lexicographically least distance vector among those left *)
Inductive truncated (dist : nat -> nat -> option Q) : nat -> list nat -> list nat -> Prop :=
| trunc_done J : truncated dist 0 J J
| trunc_step r J K i J' : In i J -> (forall k, k <> i -> (In k J <-> In k J')) -> ~ In i J' -> length J' = length J - 1 -> NoDup J' ->
    (forall j v w, In j J -> distances dist J i v -> distances dist J j w -> ~ dlex w v) -> truncated dist r J' K -> truncated dist (S r) J K.
(** two objectives: [X i] the (normalised) objective values; distances ordered as Euclidean distances are *)
Definition d2 (X : nat -> Q * Q) (i j : nat) : Q := ((fst (X i) - fst (X j)) * (fst (X i) - fst (X j)) + (snd (X i) - snd (X j)) * (snd (X i) - snd (X j)))%Q.
Definition euclidean (X : nat -> Q * Q) (dist : nat -> nat -> option Q) : Prop :=
  forall i j k l, i <> j -> k <> l -> exists d d', dist i j = Some d /\ dist k l = Some d' /\ ((d <= d')%Q <-> (d2 X i j <= d2 X k l)%Q).
(** no member of [J] dominates another *)
Definition mutually (X : nat -> Q * Q) (J : list nat) : Prop :=
  forall i j, In i J -> In j J -> (fst (X i) <= fst (X j))%Q -> (snd (X j) <= snd (X i))%Q /\ ((fst (X i) < fst (X j))%Q -> (snd (X j) < snd (X i))%Q).
