(** * Model of the mask based crossovers (/repo/pymoo/operators/crossover/{ux,hux,pntx,expx,binx,nox}.py, /repo/pymoo/util/misc.py
    [crossover_mask], [row_at_least_once_true]) and of the crossover base class (/repo/pymoo/core/crossover.py).
    One row (mating) at a time: the numpy code treats the rows independently.  Random numbers are arbitrary parameters; draws in [0,1)
    are rationals, [random_state.permutation(n)] is an arbitrary list (theorems assume it is a permutation of 0..n-1). *)
From Coq Require Import List Arith Bool QArith.
From Verif Require Import ListAux.
Import ListNotations.
Local Open Scope nat_scope.

Definition Qlt_b (a b : Q) : bool := negb (Qle_bool b a).

Section Mask.
  Context {A : Type}.
  Variable d : A.
  (** [_X = copy(p); _X[M] = q[M]] *)
  Definition masked (p q : list A) (M : list bool) : list A :=
    map (fun i => if nth i M false then nth i q d else nth i p d) (seq 0 (length p)).
  (** misc.py [crossover_mask] *)
  Definition crossover_mask (p0 p1 : list A) (M : list bool) : list A * list A := (masked p0 p1 M, masked p1 p0 M).
End Mask.

(** misc.py [row_at_least_once_true] (one row); [r] = random_state.integers(d) *)
Definition row_at_least_once_true (M : list bool) (r : nat) : list bool :=
  if existsb (fun b => b) M then M else upd M r true.

(** ux.py:11-15 *)
Definition ux {A} (d : A) (p0 p1 : list A) (draws : list Q) : list A * list A :=
  crossover_mask d p0 p1 (map (fun r => Qlt_b r (1 # 2)) draws).

(** hux.py:16-34; [neq a b] is [a != b], [perm] = random_state.permutation(len(I)) *)
Definition hux_mask {A} (d : A) (neq : A -> A -> bool) (p0 p1 : list A) (perm : list nat) : list bool :=
  let I := where_ (fun i => neq (nth i p0 d) (nth i p1 d)) (length p0) in
  let n := (length I + 1) / 2 in                                             (* math.ceil(len(I) / 2) *)
  let M := repeat false (length p0) in
  if 0 <? n then fold_left (fun M i => upd M i true) (gather 0 I (firstn n perm)) M else M.
Definition hux {A} (d : A) (neq : A -> A -> bool) (p0 p1 : list A) (perm : list nat) : list A * list A :=
  crossover_mask d p0 p1 (hux_mask d neq p0 p1 perm).

(** pntx.py:14-37; [perm] = random_state.permutation(n_var - 1) *)
Fixpoint insert_nat (x : nat) (l : list nat) : list nat :=
  match l with [] => [x] | y :: l => if x <=? y then x :: y :: l else y :: insert_nat x l end.
Definition sort_nat (l : list nat) : list nat := fold_right insert_nat [] l.
Definition set_range (M : list bool) (a b : nat) : list bool :=                (* M[a:b] = True *)
  map (fun i => ((a <=? i) && (i <? b)) || nth i M false) (seq 0 (length M)).
Fixpoint set_segments (r : list nat) (M : list bool) : list bool :=           (* the while loop: j = 0, 2, 4, ... *)
  match r with
  | a :: b :: r => set_segments r (set_range M a b)
  | _ => M
  end.
Definition point_cuts (n_points : nat) (perm : list nat) : list nat := sort_nat (firstn n_points (map (fun p => p + 1) perm)).
Definition point_mask (n_var n_points : nat) (perm : list nat) : list bool :=
  set_segments (point_cuts n_points perm ++ [n_var]) (repeat false n_var).
Definition point_crossover {A} (d : A) (n_points : nat) (p0 p1 : list A) (perm : list nat) : list A * list A :=
  crossover_mask d p0 p1 (point_mask (length p0) n_points perm).

(** expx.py:11-40 [mut_exp] (one row); [draw j] is the j-th random number of the row *)
Fixpoint exp_run (n_var start : nat) (prob : Q) (draws : nat -> Q) (fuel j : nat) (M : list bool) : list bool :=
  match fuel with
  | O => M
  | S fuel =>
      if Qle_bool (draws j) prob then exp_run n_var start prob draws fuel (j + 1) (upd M ((start + j) mod n_var) true)
      else M
  end.
Definition mut_exp (n_var start : nat) (prob : Q) (draws : nat -> Q) (at_least_once : bool) (r : nat) : list bool :=
  let M := exp_run n_var start prob draws n_var 0 (repeat false n_var) in
  if at_least_once then row_at_least_once_true M r else M.
Definition exponential_crossover {A} (d : A) (p0 p1 : list A) (start : nat) (prob : Q) (draws : nat -> Q) (r : nat) : list A * list A :=
  crossover_mask d p0 p1 (mut_exp (length p0) start prob draws true r).

(** binx.py:11-19 [mut_binomial], 22-44 [BinomialCrossover._do] (one row) *)
Definition mut_binomial (draws : list Q) (prob : Q) (at_least_once : bool) (r : nat) : list bool :=
  let M := map (fun u => Qlt_b u prob) draws in
  if at_least_once then row_at_least_once_true M r else M.
Definition binomial_crossover {A} (d : A) (n_offsprings : nat) (p0 p1 : list A) (draws : list Q) (bias : Q) (r : nat) : option (list (list A)) :=
  let M := mut_binomial draws bias true r in
  let nM := map negb M in
  if n_offsprings =? 1 then Some [masked d p0 p1 nM]
  else if n_offsprings =? 2 then Some [masked d p0 p1 nM; masked d p1 p0 nM]
  else None.

(** ** core/crossover.py:18-70 [Crossover.do].  [X k] is the list of parents of mating [k]; [cross k] tells whether the drawn number is
    below the probability; [Q o k] is the o-th child of mating [k] returned by the operator; the random index lists of the matings that
    are not crossed come from [choice] (selection without replacement: a prefix of some permutation) resp. the stream [perms]. *)
Section Do.
  Context {A : Type}.
  Variable d : A.
  Variables (n_parents n_offsprings : nat).
  Fixpoint fill_perms (fuel : nat) (perms : nat -> list nat) (j : nat) (s : list nat) : list nat :=
    if length s <? n_offsprings then
      match fuel with O => s | S fuel => fill_perms fuel perms (j + 1) (s ++ perms j) end
    else s.
  Definition parent_idx (choice : list nat) (perms : nat -> list nat) : list nat :=
    if n_offsprings <? n_parents then firstn n_offsprings choice
    else if n_offsprings =? n_parents then seq 0 n_parents
    else firstn n_offsprings (fill_perms n_offsprings perms 0 []).
  Definition crossover_do (X : list (list A)) (cross : list bool) (Qo : nat -> nat -> A)
      (choice : nat -> list nat) (perms : nat -> nat -> list nat) : list A :=
    flat_map (fun o =>
      map (fun k => if nth k cross false then Qo o k
                    else nth (nth o (parent_idx (choice k) (perms k)) 0) (nth k X []) d)
          (seq 0 (length X)))
      (seq 0 n_offsprings).

  (** nox.py:13-27 [NoCrossover.do]: the returned objects are the parents themselves; [extra k] = choice with replacement *)
  Definition no_crossover_do (X : list (list A)) (choice extra : nat -> list nat) : list A :=
    flat_map (fun k =>
      let parents := nth k X [] in
      if n_offsprings <? n_parents then gather d parents (firstn n_offsprings (choice k))
      else if n_offsprings =? n_parents then parents
      else parents ++ gather d parents (firstn (n_offsprings - n_parents) (extra k)))
      (seq 0 (length X)).
End Do.
