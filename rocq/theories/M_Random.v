(** * Model of RandomSearch: /repo/pymoo/algorithms/soo/nonconvex/random_search.py, with the parts of Algorithm it uses
    (/repo/pymoo/core/algorithm.py:207-246 [advance], 308-309 [_set_optimum]).  The solutions of an iteration (sampled, evaluated) are arbitrary. *)
From Coq Require Import List.
From Verif Require Import Flt M_NDS M_Optimum.
Import ListNotations.

Section RS.
  Context {A : Type} (d : A) (obj : A -> list flt) (cv : A -> flt) (feas : A -> bool) (pr : fltmat -> list nat) (n_obj : nat).
  (** random_search.py:28-29 [_advance]; population.py:145-164 [merge]; in the first iteration (algorithm.py:220) the population is the infills, opt being None *)
  Definition rs_pop (opt : option (list A)) (infills : list A) : list A := match opt with None => infills | Some o => infills ++ o end.
  (** algorithm.py:235-239: then [_set_optimum] *)
  Definition rs_advance (opt : option (list A)) (infills : list A) : option (list A) :=
    filter_optimum d obj cv feas pr n_obj (Some (rs_pop opt infills)) true.
  (** opt after some iterations *)
  Definition rs_run (iters : list (list A)) : option (list A) := fold_left rs_advance iters None.
End RS.
