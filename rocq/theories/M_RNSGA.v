(** * Model of /repo/pymoo/algorithms/moo/rnsga2.py: [RankAndModifiedCrowdingSurvival._do] and [calc_norm_pref_distance].
      Modelled: ranking by distance to the reference points, epsilon clearing, cut of the splitting front, crowding; the reference points over the generations; the distance in real arithmetic.
      The distance matrices are arguments of the survival (binary64 numbers); the set of reference points must not be empty (np.argmin raises otherwise).
      Not modelled: [get_extreme_points_c] (C61), what np.round does to non-integers beyond halves. *)
From Coq Require Import List Arith Bool Reals.
From Verif Require Import Flt ListAux M_NDS M_Survival M_AGE.
Import ListNotations.
Local Open Scope nat_scope.

(** np.argsort(np.argsort(keys)): the argsort of a permutation is its inverse *)
Definition double_argsort (asort : list flt -> list nat) (keys : list flt) : list nat := map (fun i => place i (asort keys)) (seq 0 (length keys)).
(** np.round(n / 2): half to even *)
Definition round_half (n : nat) : nat := if Nat.even n then n / 2 else if Nat.even (n / 2) then n / 2 else S (n / 2).
(** comparison of crowding values, [None] = NaN, sorted to the end *)
Definition olt (a b : option nat) : bool := match a, b with Some a, Some b => a <? b | Some _, None => true | None, _ => false end.
Definition min_list (l : list nat) : nat := match l with [] => 0 | x :: l => fold_left Nat.min l x end.

Section RNSGA2.
  Variables (asort : list flt -> list nat) (isort : list nat -> list nat) (osort : list (option nat) -> list nat).
  (** [dref i] = row i of dist_to_ref_points ([n_ref] columns); [doth i j] = normalised distance of solutions i and j; epsilon *)
  Variables (n_ref : nat) (dref : nat -> list flt) (doth : nat -> nat -> flt) (eps : flt).

  (** rnsga2.py:119-126: position p of the front: its best rank over the reference points *)
  Definition rn_column (front : list nat) (j : nat) : list nat := double_argsort asort (map (fun i => nth j (dref i) f_nan) front).
  Definition rn_ranking (front : list nat) : list nat :=
    map (fun p => min_list (map (fun j => nth p (rn_column front j) 0) (seq 0 n_ref))) (seq 0 (length front)).
  (** rnsga2.py:134-137 *)
  Definition rn_dist (front : list nat) (p q : nat) : flt := if p =? q then f_inf else doth (nth p front 0) (nth q front 0).
  (** rnsga2.py:146-168, the loop; fuel: one per round *)
  Fixpoint rn_clear (fuel : nat) (front : list nat) (ranking : list nat) (ns : list nat) (cr : list (option nat)) : list (option nat) :=
    match fuel, ns with
    | S fuel, idx :: _ =>
        let cr := upd cr idx (Some (nth idx ranking 0)) in
        let group := filter (fun q => fltb (rn_dist front idx q) eps) ns in
        let cr := fold_left (fun c q => upd c q (Some (nth q ranking 0 + round_half (length front)))) group cr in
        rn_clear fuel front ranking (filter (fun q => negb ((q =? idx) || existsb (Nat.eqb q) group)) ns) cr
    | _, _ => cr
    end.
  Definition rn_crowding (front : list nat) : list (option nat) :=
    let ranking := rn_ranking front in
    rn_clear (length front) front ranking (isort ranking) (repeat None (length front)).
  (** rnsga2.py:111-180, one front; the state is the survivors and the crowding values (before they are negated in line 183) *)
  Definition rn_front (n : nat) (st : list nat * list (option nat)) (front : list nat) : list nat * list (option nat) :=
    let '(surv, crowd) := st in
    let n_rem := n - length surv in
    let '(c, idx) := if length front <=? n_rem then (map Some (rn_ranking front), seq 0 (length front))
                     else let c := rn_crowding front in (c, firstn n_rem (osort c)) in
    (surv ++ gather 0 front idx, fold_left (fun r pi => upd r (snd pi) (nth (fst pi) c None)) (combine (seq 0 (length front)) front) crowd).
  (** all fronts are processed (no early stop) *)
  Definition rn_do (n : nat) (N : nat) (fronts : list (list nat)) : list nat * list (option nat) :=
    fold_left (rn_front n) fronts ([], repeat None N).
End RNSGA2.

(** rnsga2.py:77-182 [_do]: full non-dominated sorting (line 84, no early stop); the distances are functions of the objective values.  Survivors, and who has rank 0 (line 113) *)
Definition rn_inner {A} asort isort osort (n_ref : nat) (dref : fltmat -> nat -> list flt) (doth : fltmat -> nat -> nat -> flt) eps (nds : fltmat -> list (list nat)) (obj : A -> list flt) (pop : list A) (n : nat) : list nat :=
  let F := map obj pop in fst (rn_do asort isort osort n_ref (dref F) (doth F) eps n (length pop) (nds F)).
Definition rn_rank0 {A} (nds : fltmat -> list (list nat)) (obj : A -> list flt) (pop : list A) (n i : nat) : bool := existsb (Nat.eqb i) (hd [] (nds (map obj pop))).

(** rnsga2.py:104-105: with extreme_points_as_reference_points the extreme points of every generation are added to those of all generations before *)
Definition rn_ref_points {P} (extreme : bool) (ref : list P) (gens : list (list P)) : list P := fold_left (fun r e => if extreme then r ++ e else r) gens ref.

(** rnsga2.py:89-102: ideal and nadir, by column; [None]: not set yet (+-infinity).  [F] the values of one objective, [first] those of the first front *)
Inductive rn_norm := Ever | Front | NoNorm.
Definition rn_points (norm : rn_norm) (old : option (R * R)) (F first : list R) : option (R * R) :=
  match norm with
  | Ever => match F with
            | [] => old
            | x :: l => Some (match old with
                        | None => (fold_left Rmin l x, fold_left Rmax l x)
                        | Some (lo, hi) => (fold_left Rmin F lo, fold_left Rmax F hi)
                        end)
            end
  | Front => match first with x :: y :: l => Some (fold_left Rmin (y :: l) x, fold_left Rmax (y :: l) x) | _ => old end
  | NoNorm => Some (0, 1)%R
  end.
(** rnsga2.py:185-189 [calc_norm_pref_distance], one pair of rows; [sc] = nadir - ideal *)
Local Open Scope R_scope.
Definition rsumR (l : list R) : R := fold_right Rplus 0 l.
Definition pref_dist (w sc a b : list R) : R :=
  sqrt (rsumR (map2 Rmult (map (fun x => x * x) (map2 Rdiv (map2 Rminus a b) sc)) w) * INR (length w)).
