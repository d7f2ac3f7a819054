(** * Model of /repo/pymoo/core/duplicate.py, /repo/pymoo/core/infill.py, /repo/pymoo/core/mating.py (call structure).
    Individuals are values of an arbitrary type [A] (object identity given by an injective [ident]).  [close a b] stands for
    [D[a, b] <= epsilon] (NaN distances count as infinite, line 74) resp. [cmp_func(a, b) < epsilon]. *)
From Coq Require Import List Arith Bool ZArith.
From Verif Require Import ListAux.
Import ListNotations.
Local Open Scope nat_scope.

Section Dup.
  Context {A : Type}.
  Variable d : A.
  Variable close : A -> A -> bool.

  (** a strategy marks duplicates of [pop] inside [pop] ([other = None]) or relative to [other] *)
  Definition strategy_t := list A -> option (list A) -> list bool.

  (** duplicate.py:56-78 [DefaultDuplicateElimination]: the upper triangle and the diagonal of the distance matrix are infinite *)
  Definition default_dup : strategy_t := fun pop other =>
    match other with
    | None => map (fun i => existsb (fun j => (j <? i) && close (nth i pop d) (nth j pop d)) (seq 0 (length pop))) (seq 0 (length pop))
    | Some o => map (fun i => existsb (fun j => close (nth i pop d) (nth j o d)) (seq 0 (length o))) (seq 0 (length pop))
    end.

  (** duplicate.py:88-117 [ElementwiseDuplicateElimination]: an individual is compared with the LATER ones *)
  Definition elementwise_dup : strategy_t := fun pop other =>
    match other with
    | None => map (fun i => existsb (fun j => close (nth i pop d) (nth j pop d)) (seq (i + 1) (length pop - (i + 1)))) (seq 0 (length pop))
    | Some o => map (fun i => existsb (fun j => close (nth i pop d) (nth j o d)) (seq 0 (length o))) (seq 0 (length pop))
    end.

  (** duplicate.py:132-154 [HashDuplicateElimination]; [key x] = func(func(x)) *)
  Variable key : A -> Z.
  Definition mem_z (h : Z) (H : list Z) : bool := existsb (Z.eqb h) H.
  Fixpoint hash_scan (H : list Z) (pop : list A) : list bool :=
    match pop with
    | [] => []
    | x :: pop => if mem_z (key x) H then true :: hash_scan H pop else false :: hash_scan (key x :: H) pop
    end.
  Definition hash_dup : strategy_t := fun pop other =>
    hash_scan (match other with None => [] | Some o => rev (map key o) end) pop.

  (** pop[~mask] *)
  Fixpoint keep_not (mask : list bool) (pop : list A) : list A :=
    match mask, pop with
    | m :: mask, x :: pop => if m then keep_not mask pop else x :: keep_not mask pop
    | _, _ => []
    end.

  (** duplicate.py:20-50 [DuplicateElimination.do] *)
  Variable strat : strategy_t.
  Fixpoint dup_args (pop : list A) (args : list (list A)) : list A :=
    match args with
    | [] => pop
    | arg :: args =>
        if 0 <? length arg then
          if length pop =? 0 then pop                                             (* break *)
          else dup_args (keep_not (strat pop (Some arg)) pop) args
        else dup_args pop args
    end.
  Definition dup_do (pop : list A) (args : list (list A)) (to_itself : bool) : list A :=
    if length pop =? 0 then pop
    else
      let pop := if to_itself then keep_not (strat pop None) pop else pop in
      dup_args pop args.

  (** lines 39-50: [return_indices]: positions of the objects that are (not) in the result *)
  Variable ident : A -> nat.
  Definition dup_indices (original result : list A) : list nat * list nat :=
    let H := map ident result in
    let inH i := existsb (Nat.eqb (ident (nth i original d))) H in
    (where_ inH (length original), where_ (fun i => negb (inH i)) (length original)).
End Dup.

(** ** infill.py:21-67 [InfillCriterion.do].  [mate r n] = result of the r-th call of [_do] (asked for [n] offspring) after the repair;
    [elim new pop off] = eliminate_duplicates.do(_off, pop, off).  Returns the offspring and the number of rounds. *)
Section Infill.
  Context {A : Type}.
  Variables (mate : nat -> nat -> list A) (elim : list A -> list A -> list A -> list A).
  Fixpoint infill_loop (fuel : nat) (n_max : nat) (pop : list A) (n_offsprings : nat) (off : list A) (n_infills : nat) : list A * nat :=
    if length off <? n_offsprings then
      match fuel with
      | O => (off, n_infills)
      | S fuel =>
          let new := mate n_infills (n_offsprings - length off) in
          let new := elim new pop off in
          let new := if n_offsprings <? length off + length new then firstn (n_offsprings - length off) new else new in
          let off := off ++ new in
          let n_infills := n_infills + 1 in
          if n_max <=? n_infills then (off, n_infills) else infill_loop fuel n_max pop n_offsprings off n_infills
      end
    else (off, n_infills).
  (** fuel: proved sufficient *)
  Definition infill_do (n_max : nat) (pop : list A) (n_offsprings : nat) : list A * nat :=
    infill_loop (Nat.max 1 n_max) n_max pop n_offsprings [] 0.
End Infill.

(** mating.py:24-47 [Mating._do]: number of matings; the crossover yields [n_off_cross] offspring per mating *)
Definition n_matings (n_offsprings n_off_cross : nat) : nat := (n_offsprings + n_off_cross - 1) / n_off_cross.
