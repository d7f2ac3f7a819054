(** * Specification side of the sorting properties: contracts of numpy's sorts and of moocore, notions used in statements *)
From Coq Require Import List Arith Permutation Bool ZArith.
From Verif Require Import Flt ListAux M_NDS S_Pareto.
Import ListNotations.

(** lexicographic order, first objective first (order of [np.lexsort(F.T[::-1])]) *)
Fixpoint lexlt (a b : list flt) : bool :=
  match a, b with
  | x :: a', y :: b' => if fltb x y then true else if fltb y x then false else lexlt a' b'
  | _, _ => false
  end.

Definition prefix {A} (p l : list A) : Prop := exists r, l = p ++ r.

(** all fronts, from the ranks: front r = the points of rank r *)
Definition fronts_of_ranks (ranks : list nat) : list (list nat) :=
  map (fun r => where_ (fun i => nth i ranks 0 =? r) (length ranks)) (seq 0 (fold_left Nat.max ranks 0 + 1)).

(** the contract of moocore.pareto_rank: rank = number of the front in the Pareto peeling *)
Definition is_pareto_rank (F : fltmat) (ranks : list nat) : Prop :=
  length ranks = length F /\ exists fronts, is_peeling (length F) (row_dom F) fronts /\
    forall i k, i < length F -> (nth i ranks 0 = k <-> In i (nth k fronts [])).

(** number of objectives in which i is no worse than j *)
Definition degree (M : nat) (F : fltmat) (i j : nat) : nat :=
  length (filter (fun k => fleb (cell F i k) (cell F j k)) (seq 0 M)).

(** one ascending argsort per objective *)
Definition argsort_columns (m : nat) (F : fltmat) (b : list (list nat)) : Prop :=
  forall k, k < m -> is_argsort fltb f_nan (column F k) (nth k b []).

(** first objectives pairwise different *)
Definition distinct_first (F : fltmat) : Prop :=
  forall i j, i < length F -> j < length F -> i <> j -> feqb (cell F i 0) (cell F j 0) = false.

(** the objective sequences: row [k] is an ordering of the objectives 1..m-1 *)
Definition obj_seq_ok (m n : nat) (oseq : list (list nat)) : Prop :=
  forall k, k < n -> Permutation (nth k oseq []) (seq 1 (m - 1)).

(** no two rows agree in every objective *)
Definition distinct_rows (m : nat) (F : fltmat) : Prop :=
  forall i j, i < length F -> j < length F -> i <> j -> exists k, k < m /\ feqb (cell F i k) (cell F j k) = false.
