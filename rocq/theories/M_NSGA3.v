(** * Model of /repo/pymoo/algorithms/moo/nsga3.py: ReferenceDirectionSurvival, niching, associate_to_niches, calc_niche_count, and of
    /repo/pymoo/functions/standard/calc_perpendicular_distance.py.
    Individuals are positions; a niche is the index of a reference direction.  Distances are binary64 numbers; how they are computed is
    modelled separately in exact real arithmetic (M_NSGA3R).  Random numbers: [perm k n] is the permutation of n drawn when k survivors have
    been chosen, [shuf k l] the shuffled list. *)
From Coq Require Import List Arith Bool.
From Verif Require Import Flt ListAux M_NDS M_Survival M_Optimum.
Import ListNotations.
Local Open Scope nat_scope.

(** np.unique on integers: the different values in increasing order *)
Definition mem_nat (x : nat) (l : list nat) : bool := existsb (Nat.eqb x) l.
Definition np_unique (l : list nat) : list nat := where_ (fun v => mem_nat v l) (S (list_max l)).
(** nsga3.py:280-284 [calc_niche_count] *)
Definition calc_niche_count (n_niches : nat) (niches : list nat) : list nat :=
  fold_left (fun c v => upd c v (count_occ Nat.eq_dec niches v)) (np_unique niches) (repeat 0 n_niches).

Section Niching.
  Variables (perm : nat -> nat -> list nat) (shuf : nat -> list nat -> list nat).
  Variables (niche : list nat) (dist : list flt).      (* of the members of the last front *)

  Record nst := { n_surv : list nat; n_mask : list bool; n_count : list nat }.
  (** nsga3.py:241-259, body of the inner loop *)
  Definition niche_step (st : nst) (nn : nat) : nst :=
    let next_ind := where_ (fun i => (nth i niche 0 =? nn) && nth i (n_mask st) false) (length niche) in
    let next_ind := shuf (length (n_surv st)) next_ind in
    let k := if nth nn (n_count st) 0 =? 0
             then nth (np_argmin (map (fun i => nth i dist f_nan) next_ind)) next_ind 0
             else nth 0 next_ind 0 in
    {| n_mask := upd (n_mask st) k false; n_surv := n_surv st ++ [k]; n_count := upd (n_count st) nn (S (nth nn (n_count st) 0)) |}.
  (** nsga3.py:227-259, body of the outer loop; [None]: the minimum of an empty array *)
  Definition niche_round (n_remaining : nat) (st : nst) : option nst :=
    let n_select := n_remaining - length (n_surv st) in
    let next_list := np_unique (map (fun i => nth i niche 0) (where_ (fun i => nth i (n_mask st) false) (length niche))) in
    match map (fun v => nth v (n_count st) 0) next_list with
    | [] => None
    | c :: cs =>
        let mn := fold_left Nat.min cs c in
        let next := filter (fun v => nth v (n_count st) 0 =? mn) next_list in
        let next := gather 0 next (firstn n_select (perm (length (n_surv st)) (length next))) in
        Some (fold_left niche_step next st)
    end.
  (** nsga3.py:226-261; fuel: one per round *)
  Fixpoint niching_go (fuel n_remaining : nat) (st : nst) : option nst :=
    if length (n_surv st) <? n_remaining then
      match fuel with
      | 0 => None
      | S fuel => match niche_round n_remaining st with None => None | Some st => niching_go fuel n_remaining st end
      end
    else Some st.
  Definition niching (n_remaining : nat) (count : list nat) : option nst :=
    niching_go n_remaining n_remaining {| n_surv := []; n_mask := repeat true (length niche); n_count := count |}.
End Niching.

(** nsga3.py:274-275: niche and distance of every individual from its row of the distance matrix *)
Definition niche_of (row : list flt) : nat := np_argmin row.
Definition dist_of (row : list flt) : flt := nth (np_argmin row) row f_nan.

(** nsga3.py:163-168: the fronts are renumbered in the order of the concatenation *)
Fixpoint renumber (counter : nat) (fronts : list (list nat)) : list (list nat) :=
  match fronts with [] => [] | fr :: fronts => seq counter (length fr) :: renumber (counter + length fr) fronts end.
(** misc.py:665-684 [intersect] *)
Definition intersect (a b : list nat) : list nat := filter (fun x => mem_nat x b) a.

Section RefSurvival.
  Variables (perm : nat -> nat -> list nat) (shuf : nat -> list nat -> list nat).
  Variables (nds : fltmat -> nat -> list (list nat)) (n_dirs : nat).
  (** a row of the distance matrix: distances of a point to the [n_dirs] directions, for the ideal and nadir point computed in lines 154-157
      (computed in M_NSGA3R) *)
  Variable (drow : list flt -> list flt).

  (** nsga3.py:145-209 [ReferenceDirectionSurvival._do]: positions of the survivors and of [self.opt] in the population; [None]: an exception *)
  Definition ref_dir_survival (F : fltmat) (n_survive : nat) : option (list nat * list nat) :=
    let fronts := nds F n_survive in
    let J := concat fronts in
    let F' := gather [] F J in
    let fronts := renumber 0 fronts in
    let D := map drow F' in
    let niches := map niche_of D in
    let dists := map dist_of D in
    (* lines 177-181 *)
    let closest := np_unique (map (fun v => np_argmin (map (fun row => nth v row f_nan) D)) (np_unique niches)) in
    let opt := intersect (nth 0 fronts []) closest in
    let opt := if length opt =? 0 then nth 0 fronts [] else opt in
    (* lines 183-207 *)
    if n_survive <? length J then
      let last_front := last fronts [] in
      let until_last := if length fronts =? 1 then [] else concat (removelast fronts) in
      let count := if length fronts =? 1 then repeat 0 n_dirs else calc_niche_count n_dirs (gather 0 niches until_last) in
      let n_remaining := if length fronts =? 1 then n_survive else n_survive - length until_last in
      match niching perm shuf (gather 0 niches last_front) (gather f_nan dists last_front) n_remaining count with
      | None => None
      | Some st => Some (gather 0 J (until_last ++ gather 0 last_front (n_surv st)), gather 0 J opt)
      end
    else Some (J, gather 0 J opt).
End RefSurvival.

