(** * Model of the SPEA2 survival: /repo/pymoo/algorithms/moo/spea2.py, SPEA2Survival.
    Positions in the population; [dist i j] the (possibly normalised) Euclidean distance of two individuals, the diagonal being infinite (None).
    np.argsort of the fitness values is a parameter.  The value -1 given to the fitness of extreme points (line 108) is used by the tournament only and not modelled. *)
From Coq Require Import List Arith Bool ZArith QArith.
From Verif Require Import Flt ListAux M_Dominator M_SMS.
Import ListNotations.
Local Open Scope nat_scope.

(** order of distances, infinity greatest *)
Definition olt (a b : option Q) : bool := match a, b with Some x, Some y => negb (Qle_bool y x) | Some _, None => true | None, _ => false end.
(** np.sort *)
Fixpoint oinsert (x : option Q) (l : list (option Q)) : list (option Q) := match l with [] => [x] | y :: r => if olt y x then y :: oinsert x r else x :: l end.
Definition osort (l : list (option Q)) : list (option Q) := fold_right oinsert [] l.
Fixpoint lex_lt (a b : list (option Q)) : bool :=
  match a, b with x :: a, y :: b => if olt x y then true else if olt y x then false else lex_lt a b | _, _ => false end.
(** the first row that is lexicographically least: np.lexsort(...)[0] (stable) *)
Fixpoint lexmin_from (best : list (option Q)) (bi i : nat) (rows : list (list (option Q))) : nat :=
  match rows with [] => bi | r :: rows => if lex_lt r best then lexmin_from r i (S i) rows else lexmin_from best bi (S i) rows end.
Definition lexmin (rows : list (list (option Q))) : nat := match rows with [] => 0 | r :: rows => lexmin_from r 0 1 rows end.

(** spea2.py:51-58: strength, raw fitness *)
Definition strength (M : list (list Z)) (n i : nat) : nat := length (where_ (fun j => (entry M i j =? 1)%Z) n).
Definition raw (M : list (list Z)) (n i : nat) : nat := list_sum (map (strength M n) (where_ (fun j => (entry M i j =? -1)%Z) n)).

Section SPEA2.
  Variable dist : nat -> nat -> option Q.
  (** distances of an individual to the members of [J], sorted; vectorized_cdist(..., fill_diag_with_inf=True) *)
  Definition drow (J : list nat) (i : nat) : list (option Q) := osort (map (fun j => if i =? j then None else dist i j) J).
  (** lines 60-63: the neighbour considered *)
  Definition kth (n : nat) : nat := if (n <=? Nat.sqrt n) then n - 1 else Nat.sqrt n.
  (** lines 82-88: density; 1 / (inf + 2) = 0 *)
  Definition density (n i : nat) : Q := match nth (kth n) (drow (seq 0 n) i) None with None => 0%Q | Some x => (1 / (x + 2))%Q end.
  Definition fitness (M : list (list Z)) (n i : nat) : Q := (inject_Z (Z.of_nat (raw M n i)) + density n i)%Q.
  (** spea2.py:19-28 [_truncation_candidate] *)
  Definition candidate (J : list nat) : nat := lexmin (map (drow J) J).
  (** lines 121-125 *)
  Fixpoint spea_drop (r : nat) (J : list nat) : list nat := match r with O => J | S r => spea_drop r (delete_at J (candidate J)) end.
  (** lines 43-127 [_do] *)
  Definition spea2_do (asort : list Q -> list nat) (F : list (list flt)) (n_survive : nat) : list nat :=
    let n := length F in
    let M := calc_domination_matrix F None f_zero in
    let surv := where_ (fun i => forallb (fun j => (0 <=? entry M i j)%Z) (seq 0 n)) n in
    let rem := where_ (fun i => negb (existsb (Nat.eqb i) surv)) n in
    if length surv <? n_survive then surv ++ firstn (n_survive - length surv) (gather 0 rem (asort (map (fitness M n) rem)))
    else spea_drop (length surv - n_survive) surv.
End SPEA2.
Definition spea2_inner {A} (obj : A -> list flt) (dist : list A -> nat -> nat -> option Q) (asort : list Q -> list nat) (pop : list A) (n : nat) : list nat :=
  spea2_do (dist pop) asort (map obj pop) n.
