(** * Model of the SMS-EMOA survival: /repo/pymoo/algorithms/moo/sms.py, LeastHypervolumeContributionSurvival.
    A population is given by its objective matrix; fronts and survivors are lists of positions.  moocore.hv_contributions (an external library) and the
    non-dominated sorter are parameters; [contrib front] are the contributions of the members of [front], after normalisation, to its hypervolume. *)
From Coq Require Import List Arith Bool QArith.
From Verif Require Import Flt ListAux M_NDS M_Norm.
Import ListNotations.
Local Open Scope nat_scope.

(** np.delete(a, k) *)
Definition delete_at {A} (l : list A) (k : nat) : list A := firstn k l ++ skipn (S k) l.
(** sms.py:73-76, the while loop; [r] the number of individuals too many *)
Fixpoint sms_drop (contrib : list nat -> list Q) (r : nat) (front : list nat) : list nat :=
  match r with O => front | S r => sms_drop contrib r (delete_at front (argminQ (contrib front))) end.
(** sms.py:58-79, the loop over the fronts *)
Definition sms_front (contrib : list nat -> list Q) (n : nat) (surv front : list nat) : list nat :=
  surv ++ (if n <? length surv + length front then sms_drop contrib (length surv + length front - n) front else front).
(** sms.py:31-83 [_do] *)
Definition sms_do (nds : fltmat -> nat -> list (list nat)) (contrib : list nat -> list Q) (F : fltmat) (n : nat) : list nat :=
  fold_left (sms_front contrib n) (nds F n) [].
Definition sms_inner {A} (obj : A -> list flt) (nds : fltmat -> nat -> list (list nat)) (contrib : list A -> list nat -> list Q) (pop : list A) (n : nat) : list nat :=
  sms_do nds (contrib pop) (map obj pop) n.
