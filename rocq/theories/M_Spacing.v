(** * Model of /repo/pymoo/indicators/spacing.py through core/indicator.py:18-31 (no normalisation, the default zero_to_one=False). Exact reals. *)
From Coq Require Import List Arith Reals.
From Verif Require Import ListAux.
Import ListNotations.
Local Open Scope R_scope.

Definition rsum_ (l : list R) : R := fold_right Rplus 0 l.
(** spacing.py:46: pdist(F, "cityblock") *)
Definition cityblock (a b : list R) : R := rsum_ (map2 (fun x y => Rabs (x - y)) a b).
(** spacing.py:47: np.partition(D, 1, axis=1)[:, 1], the second smallest entry of a row ([None]: kth out of bounds) *)
Definition second_smallest (l : list R) : option R :=
  match l with
  | x :: y :: l => Some (snd (fold_left (fun ab v => (Rmin (fst ab) v, Rmin (snd ab) (Rmax (fst ab) v))) l (Rmin x y, Rmax x y)))
  | _ => None
  end.
Fixpoint all_some {A} (l : list (option A)) : option (list A) :=
  match l with [] => Some [] | Some x :: l => match all_some l with Some r => Some (x :: r) | None => None end | None :: _ => None end.
(** spacing.py:41-54 [_do] and core/indicator.py:18-31: 0.0 without points; [None] = an error *)
Definition spacing (F : list (list R)) : option R :=
  match F with
  | [] => Some 0
  | _ => match all_some (map (fun x => second_smallest (map (cityblock x) F)) F) with
         | None => None
         | Some d => let dm := rsum_ d / INR (length d) in Some (sqrt (rsum_ (map (fun v => (v - dm) ^ 2) d) / INR (length F)))
         end
  end.
