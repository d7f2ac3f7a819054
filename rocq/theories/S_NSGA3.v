(** * Specification of the niching of NSGA-III *)
From Coq Require Import List Arith Bool.
From Verif Require Import Flt.
Import ListNotations.

(** The members 0..n-1 of the splitting front are chosen one after another (the list [S]).  [count0 v]: how many already survive in
    niche [v].  At every moment the chosen member is a new one; no member still available has a niche with fewer survivors; and when the
    niche has no survivor yet, no available member of that niche is closer to the reference direction. *)
Definition fills_niches (n : nat) (niche : nat -> nat) (dist : nat -> flt) (count0 : nat -> nat) (S : list nat) : Prop :=
  forall k, k < length S ->
    let s := nth k S 0 in
    let before := firstn k S in
    let survivors_in v := count0 v + count_occ Nat.eq_dec (map niche before) v in
    s < n /\ ~ In s before /\
    (forall j, j < n -> ~ In j before -> survivors_in (niche s) <= survivors_in (niche j)) /\
    (survivors_in (niche s) = 0 -> forall j, j < n -> ~ In j before -> niche j = niche s -> fltb (dist j) (dist s) = false).
