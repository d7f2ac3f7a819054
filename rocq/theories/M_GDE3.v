(** * Model of GDE3 and NSDE: /repo/pymoo/algorithms/moo/gde3.py:49-69 [GDE3._advance] and /repo/pymoo/algorithms/moo/nsde.py:63-125 [VariantDE._do, _sample_F].
    Individuals are of an arbitrary type; the survivors of [Survival.do] are those of M_Survival.  A set of individuals is the list of their positions in [pop ++ infills].
    The variables of a trial vector are rational numbers (exact arithmetic); random numbers are arguments.  Not modelled: parsing of the variant string, a posterior mutation. *)
From Coq Require Import List Arith Bool ZArith QArith.
From Verif Require Import Flt ListAux M_Dominator M_NDS M_Survival M_Bounds.
Import ListNotations.
Local Open Scope nat_scope.

Section GDE3.
  Context {A : Type}.
  Variables (d : A) (cv : A -> flt) (feas : A -> bool) (obj : A -> list flt).
  Variables (asort dsort : list flt -> list nat) (nds : fltmat -> nat -> list (list nat)) (crowding : fltmat -> nat -> list flt).

  (** gde3.py:57-65, slot k *)
  Definition gde3_slot (pop infills : list A) (k : nat) : list nat :=
    let off := nth k infills d in
    let parent := nth k pop d in
    let rel := get_relation_ind (obj parent, cv parent) (obj off, cv off) in
    if Z.eqb rel 0 then [k; length pop + k]
    else if Z.eqb rel (-1) then [length pop + k]
    else [k].
  (** gde3.py:55-67; infills[k] raises IndexError if there are too few ([None]) *)
  Definition gde3_pool (pop infills : list A) : option (list nat) :=
    if (length infills <? length pop) then None else Some (flat_map (gde3_slot pop infills) (seq 0 (length pop))).
  (** gde3.py:63-69: positions, in pop ++ infills, of the next population; [n] = self.n_offsprings, [hc] = problem.has_constraints() *)
  Definition gde3_advance (hc : bool) (n : nat) (pop infills : list A) : option (list nat) :=
    option_map (fun pool => gather 0 pool (survival_do d cv feas asort (rac_inner obj dsort nds crowding) true hc (Some n) (gather d (pop ++ infills) pool))) (gde3_pool pop infills).
  (** base/genetic.py:116-133 [GeneticAlgorithm._advance], as NSGA-II and NSDE run it: merge, then survival *)
  Definition nsga2_advance (hc : bool) (n : nat) (pop infills : list A) : list nat :=
    survival_do d cv feas asort (rac_inner obj dsort nds crowding) true hc (Some n) (pop ++ infills).

  (** generations: the offspring of generation t are [gens t]; [None]: an exception *)
  Fixpoint gde3_run (hc : bool) (n : nat) (pop : list A) (gens : list (list A)) : option (list A) :=
    match gens with
    | [] => Some pop
    | infills :: gens => match gde3_advance hc n pop infills with None => None | Some J => gde3_run hc n (gather d (pop ++ infills) J) gens end
    end.
  Fixpoint nsga2_run (hc : bool) (n : nat) (pop : list A) (gens : list (list A)) : list A :=
    match gens with
    | [] => pop
    | infills :: gens => nsga2_run hc n (gather d (pop ++ infills) (nsga2_advance hc n pop infills)) gens
    end.
End GDE3.

Local Open Scope Q_scope.
(** nsde.py:127-131 [_sample_F]: F a pair (lo, hi) or a number; [u] a random number *)
Definition sample_F (F : Q * Q + Q) (u : Q) : Q := match F with inl (lo, hi) => lo + u * (hi - lo) | inr f => f end.
(** nsde.py:75-87, variable j of one donor: [row] the parents (indices), [X] the population's variables, difference k uses the columns 2 + 2k, 3 + 2k;
    [uF k] the random number of F, [uG k] that of the jitter (used unless gamma is None) *)
Definition variant_donor (X : list (list Q)) (row : list nat) (F : Q * Q + Q) (gamma : option Q) (n_diffs : nat) (uF uG : nat -> Q) (j : nat) : Q :=
  let x c := nth j (nth (nth c row 0%nat) X []) 0 in
  fold_left (fun v k =>
    let f := sample_F F (uF k) in
    let f := match gamma with Some g => f * (1 + g * (uG k - (1#2))) | None => f end in
    v + f * (x (2 + 2 * k)%nat - x (3 + 2 * k)%nat)) (seq 0 n_diffs) (x 1%nat).
(** nsde.py:90-91 with dex.py:157-205 [DE_REPAIRS]; Xb is the base vector (column 1) *)
Inductive de_repair := BounceBack | Midway | RandInit | ToBounds.
Definition repair_donor (r : de_repair) (v base xl xu r1 r2 : Q) : Q :=
  match r with
  | BounceBack => repair_random_init v base xl xu r1 r2
  | Midway => midway v base xl xu
  | RandInit => rand_init v xl xu r1 r2
  | ToBounds => to_bounds v xl xu
  end.
(** nsde.py:94-122, one trial vector: [M] the crossover mask; [bounds] = problem.bounds() if it has any *)
Definition variant_trial (X : list (list Q)) (n_var : nat) (row : list nat) (F : Q * Q + Q) (gamma : option Q) (n_diffs : nat) (uF : nat -> Q) (uG : nat -> nat -> Q)
    (rep : de_repair) (bounds : option (list Q * list Q)) (r1 r2 : nat -> Q) (M : list bool) : list Q :=
  map (fun j =>
    let v := variant_donor X row F gamma n_diffs uF (uG j) j in
    let v := match bounds with Some (xl, xu) => repair_donor rep v (nth j (nth (nth 1 row 0%nat) X []) 0) (nth j xl 0) (nth j xu 0) (r1 j) (r2 j) | None => v end in
    if nth j M false then v else nth j (nth (nth 0 row 0%nat) X []) 0) (seq 0 n_var).
