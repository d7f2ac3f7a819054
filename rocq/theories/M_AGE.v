(** * Model of /repo/pymoo/algorithms/moo/age.py ([AGEMOEASurvival], [find_corner_solutions], [AGEMOEA._set_optimum]) and of the parts of
      /repo/pymoo/algorithms/moo/age2.py that differ.
      Modelled: ranks, which crowding values are computed, the cut of the last front, the reported optimum (for sorters meeting their contract);
      the corner solutions and the greedy survival scores in exact arithmetic, for an arbitrary distance matrix; the clipping of p.
      Not modelled: the p-norms and geodesic distances themselves, the normalisation by the hyperplane, Newton's iteration of AGE-MOEA2. *)
From Coq Require Import List Arith Bool QArith.
From Verif Require Import Flt ListAux M_NDS M_Survival M_Optimum M_RefDirs2.
Import ListNotations.
Local Open Scope nat_scope.

(** age.py:106-111: the rank of solution [i], [None] for those left unranked (iinfo.max in the code) *)
Definition front_no (fronts : list (list nat)) (i : nat) : option nat := find (fun k => existsb (Nat.eqb i) (nth k fronts [])) (seq 0 (length fronts)).
Definition is_rank (fronts : list (list nat)) (k i : nat) : bool := match front_no fronts i with Some r => r =? k | None => false end.
(** age.py:115-119: the largest rank given (every front has a member); [selected] *)
Definition last_rank (fronts : list (list nat)) : nat := length fronts - 1.
Definition below (fronts : list (list nat)) (i : nat) : bool := match front_no fronts i with Some r => r <? last_rank fronts | None => false end.
(** position in a list *)
Fixpoint place (i : nat) (l : list nat) : nat := match l with [] => 0 | x :: l => if x =? i then 0 else S (place i l) end.

Section AGE.
  (** np.argsort; the sorter; [score front] = survival_score of the rows of the first front; [mink front row] = the crowding value of a row of a later front *)
  Variables (asort : list flt -> list nat) (nds : fltmat -> nat -> list (list nat)) (score : fltmat -> list flt) (mink : fltmat -> list flt -> flt).

  (** age.py:123-140: the loop over range(1, max_f_no) leaves out the last front *)
  Definition age_crowding (F : fltmat) (fronts : list (list nat)) : list flt :=
    let first := where_ (is_rank fronts 0) (length F) in
    let c0 := score (gather [] F first) in
    map (fun i => match front_no fronts i with
                  | Some 0 => nth (place i first) c0 f_nan
                  | Some (S k) => if S k <? last_rank fronts then mink (gather [] F first) (nth i F []) else f_zero
                  | None => f_zero
                  end) (seq 0 (length F)).
  (** age.py:142-151 *)
  Definition age_select (F : fltmat) (fronts : list (list nat)) (n : nat) : list nat :=
    let crowd := age_crowding F fronts in
    let lst := where_ (is_rank fronts (last_rank fronts)) (length F) in
    let rank := rev (asort (gather f_nan crowd lst)) in
    let chosen := gather 0 lst (firstn (n - length (where_ (below fronts) (length F))) rank) in
    where_ (fun i => below fronts i || existsb (Nat.eqb i) chosen) (length F).
  (** age.py:95-151 [_do] *)
  Definition age_do (F : fltmat) (n : nat) : list nat := age_select F (nds F n) n.

  Context {A : Type} (d : A) (cv : A -> flt) (feas : A -> bool) (obj : A -> list flt).
  Definition age_inner (pop : list A) (n : nat) : list nat := age_do (map obj pop) n.
  (** core/survival.py [do] with filter_infeasible = True *)
  Definition age_survival (hc : bool) (n : nat) (pop : list A) : list nat := survival_do d cv feas asort age_inner true hc (Some n) pop.
  (** the attribute "rank" = 0 after the survival: the ranks are those of the population [_do] was called with (without constraints the whole one, otherwise the
      feasible ones); infeasible solutions have no rank *)
  Definition rank_zero (hc : bool) (n : nat) (pop : list A) (i : nat) : bool :=
    if hc then
      let fe := fst (split_by_feasibility d cv feas asort pop) in
      feas (nth i pop d) && is_rank (nds (map obj (gather d pop fe)) (Nat.min (length fe) (Nat.min n (length pop)))) 0 (place i fe)
    else is_rank (nds (map obj pop) (Nat.min n (length pop))) 0 i.
  (** age.py:78-82 [_set_optimum] after one survival of [pop] *)
  Definition age_optimum (hc : bool) (n : nat) (pop : list A) : list nat :=
    let S := age_survival hc n pop in
    if existsb (fun i => feas (nth i pop d)) S then filter (rank_zero hc n pop) S
    else [nth (np_argmin (map (fun i => cv (nth i pop d)) S)) S 0].
End AGE.

(** ** the scores of the first front, exact arithmetic *)
Local Open Scope Q_scope.
Definition qsum (l : list Q) : Q := fold_right Qplus 0 l.
Definition dotq (a b : list Q) : Q := qsum (map2 Qmult a b).
(** age.py:276-286 [point_2_line_distance] with A = 0: the squared distance to the line through 0 and [b] *)
Definition line_dist (p b : list Q) : Q := let t := dotq p b / dotq b b in qsum (map (fun x => x * x) (map2 (fun x y => x - t * y) p b)).
(** age.py:263: row [i] of 1e-6 + eye(n) *)
Definition axis (n i : nat) : list Q := map (fun j => (1 # 1000000) + (if (i =? j)%nat then 1 else 0)) (seq 0 n).
(** the first least one *)
Definition least (f : nat -> Q) (x0 : nat) (l : list nat) : nat := fold_left (fun b x => if Qle_bool (f b) (f x) then b else x) l x0.
(** age.py:254-273 [find_corner_solutions]: the distances of those already taken are set to infinity *)
Definition corner_step (front : list (list Q)) (n : nat) (taken : list nat) (i : nat) : list nat :=
  match filter (fun j => negb (existsb (Nat.eqb j) taken)) (seq 0 (length front)) with
  | [] => taken ++ [0%nat]
  | x0 :: l => taken ++ [least (fun j => line_dist (nth j front []) (axis n i)) x0 l]
  end.
Definition corners (front : list (list Q)) (n : nat) : list nat :=
  if (length front <=? n)%nat then seq 0 (length front) else fold_left (corner_step front n) (seq 0 n) [].

(** age.py:199-206: np.argpartition: the sum of the two smallest entries, or the only one *)
Definition ins2 (ab : Q * Q) (x : Q) : Q * Q := if Qle_bool (fst ab) x then (if Qle_bool (snd ab) x then ab else (fst ab, x)) else (x, fst ab).
Definition two_smallest (l : list Q) : Q :=
  match l with
  | [] => 0
  | [a] => a
  | a :: b :: l => let '(u, v) := fold_left ins2 l (if Qle_bool a b then (a, b) else (b, a)) in u + v
  end.
(** age.py:186-210 the loop: [D s r] = distances[s, r] (divided by the norm of the selected one); returns (solution, score) in the order of the picks *)
Definition gap (D : nat -> nat -> Q) (sel : list nat) (r : nat) : Q := two_smallest (map (fun s => D s r) sel).
Fixpoint greedy (D : nat -> nat -> Q) (k : nat) (sel rem : list nat) : list (nat * Q) :=
  match k with
  | O => []
  | S k =>
      match argmaxQ (map (gap D sel) rem) with
      | None => []
      | Some i => let best := nth i rem 0%nat in (best, gap D sel best) :: greedy D k (sel ++ [best]) (firstn i rem ++ skipn (S i) rem)
      end
  end.
(** age.py:153-212 [survival_score] for [m] solutions and [n] objectives: [None] is infinity *)
Definition survival_scores (D : nat -> nat -> Q) (m n : nat) (extreme : list nat) : list (option Q) :=
  if (m <? n)%nat then repeat (Some 0) m
  else
    let rem := filter (fun j => negb (existsb (Nat.eqb j) extreme)) (seq 0 m) in
    let picks := greedy D (length rem) extreme rem in
    map (fun j => if existsb (Nat.eqb j) extreme then None else Some (match find (fun p => (fst p =? j)%nat) picks with Some p => snd p | None => 0 end)) (seq 0 m).

(** age.py:214-229, age2.py:147-166 [compute_geometry]: the exponent found ([None]: NaN) is clipped *)
Definition clip_p (p : option Q) : Q :=
  match p with None => 1 | Some p => if Qle_bool p (1 # 10) then 1 else if Qle_bool p 20 then p else 20 end.
