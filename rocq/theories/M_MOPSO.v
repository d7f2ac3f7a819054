(** * Model of the particle swarms for several objectives: /repo/pymoo/algorithms/moo/mopso_cd.py ([MOPSO_CD]) and
      /repo/pymoo/algorithms/moo/cmopso.py ([CrowdingDistanceTournamentSurvival], [cmopso_equation], [CMOPSO]), with the
      archive update of /repo/pymoo/core/algorithm.py:243-245.
      Modelled: the crowding tournaments, the archive updates, the optimum after each iteration, personal bests, leaders,
      velocities and positions, the elite archive of CMOPSO.
      Not modelled: the extra population that [MOPSO_CD._setup] samples and evaluates (it is replaced by the initial infills and
      reaches neither archive nor optimum), the [except] branches (the guarded code does not raise), the angle computation
      (its result is the parameter [key]), the mutation of CMOPSO.  Velocities and positions in exact arithmetic. *)
From Coq Require Import List Arith Bool QArith.
From Verif Require Import Flt ListAux M_NDS M_Duplicate M_Survival M_Optimum M_CTAEA.
Import ListNotations.
Local Open Scope nat_scope.

(** list.remove(x): drops the first occurrence *)
Fixpoint remove_first (x : nat) (l : list nat) : list nat :=
  match l with [] => [] | y :: l => if x =? y then l else y :: remove_first x l end.

(** mopso_cd.py:186-199, cmopso.py:44-61: [n] more winners out of [rem]; [draw n rem] = random_state.choice(rem, size=min(3, len(rem)),
    replace=False) in the round in which [n] are missing; [crowd] = the crowding distances *)
Fixpoint tournaments (draw : nat -> list nat -> list nat) (crowd : list flt) (n : nat) (rem : list nat) : list nat :=
  match n with
  | 0 => []
  | S k =>
      if length rem =? 0 then []
      else let t := draw n rem in
           let best := nth (fargmax (map (fun i => nth i crowd f_nan) t)) t 0 in
           best :: tournaments draw crowd k (remove_first best rem)
  end.

Section MOPSO.
  Context {A : Type} (d : A) (obj : A -> list flt) (cv : A -> flt) (feas : A -> bool).
  (** Pareto ranks (moocore), duplicate test of the archive, crowding distances, and for each iteration the random truncation and the random
      tournament draws *)
  Variables (pr : fltmat -> list nat) (close : A -> A -> bool) (crowd : fltmat -> list flt)
    (trunc : nat -> list A -> nat -> list A) (draw : nat -> nat -> list nat -> list nat).

  (** mopso_cd.py:165-203 [_update_archive] (the same whether or not the archive is empty: merge with an empty one is [pop]) *)
  Definition mo_update (it size : nat) (arch pop : list A) : list A :=
    if length pop =? 0 then arch
    else
      let combined := arch ++ pop in
      let nd := gather d combined (first_front pr (map obj combined)) in
      if size <? length nd then gather d nd (tournaments (draw it) (crowd (map obj nd)) size (seq 0 (length nd))) else nd.

  (** algorithm.py:243-245: afterwards the archive is told the infills again ([MultiObjectiveArchive.add]; truncate_size = 100) *)
  Definition mo_archive_add (it size : nat) (arch infills : list A) : option (list A) :=
    archive_add d obj cv feas pr true (Some (fun l => dup_do (default_dup d close) l [] true)) (Some size) (Some 100) (trunc it) arch infills.

  (** the archive at the next iteration, the current particles, the reported optimum *)
  Record mo_state := { mo_arch : list A; mo_pop : list A; mo_opt : list A }.
  (** one iteration of [advance]: [_initialize_advance] / [_advance] (mopso_cd.py:105-114, 150-163), [_set_optimum] (281-286), then the archive
      receives the infills; the initial call is the one with empty archive and particles *)
  Definition mo_advance (it size : nat) (st : mo_state) (infills : list A) : option mo_state :=
    let arch := mo_update it size (mo_arch st) (mo_pop st ++ infills) in
    option_map (fun arch' => {| mo_arch := arch'; mo_pop := infills; mo_opt := arch |}) (mo_archive_add it size arch infills).
  Definition mo_start : mo_state := {| mo_arch := []; mo_pop := []; mo_opt := [] |}.
  Fixpoint mo_run (it size : nat) (st : mo_state) (gens : list (list A)) : option mo_state :=
    match gens with
    | [] => Some st
    | g :: gens => match mo_advance it size st g with None => None | Some st' => mo_run (S it) size st' gens end
    end.

  (** mopso_cd.py:276-278 [_dominates] *)
  Definition np_dominates (f1 f2 : list flt) : bool :=
    forallb (fun p => fleb (fst p) (snd p)) (combine f1 f2) && existsb (fun p => fltb (fst p) (snd p)) (combine f1 f2).
  (** mopso_cd.py:248-274 [_update_pbest], one particle *)
  Definition pbest_step (pb new : A) : A :=
    if np_dominates (obj new) (obj pb) then new
    else if np_dominates (obj pb) (obj new) then pb
    else let c := crowd [obj pb; obj new] in if fltb (nth 0 c f_nan) (nth 1 c f_nan) then new else pb.

  (** mopso_cd.py:205-246 [_select_diverse_leaders], one particle: [i1], [i2] the two numbers drawn *)
  Definition leader (arch : list A) (i1 i2 : nat) : A :=
    if length arch =? 1 then nth 0 arch d
    else if i1 =? i2 then nth i1 arch d
    else let c := crowd (map obj arch) in if fltb (nth i2 c f_nan) (nth i1 c f_nan) then nth i1 arch d else nth i2 arch d.

  (** cmopso.py:28-61: [_do] as the inner part of a survival, and the truncation made of it (archive.py:35-36) *)
  Definition tournament_inner (it : nat) (pop : list A) (n : nat) : list nat := tournaments (draw it) (crowd (map obj pop)) n (seq 0 (length pop)).
  Definition elite_truncation (it : nat) (asort : list flt -> list nat) (has_constraints : bool) (sols : list A) (k : nat) : list A :=
    gather d sols (survival_do d cv feas asort (tournament_inner it) true has_constraints (Some k) sols).
  (** cmopso.py:184-215 the elite archive of CMOPSO: [add(pop)] initially, then [add(merge(pop, infills))]; [survival pop] = the SPEA2 survival *)
  Fixpoint cm_run (it : nat) (asort : list flt -> list nat) (has_constraints : bool) (pop_size elite_size : nat) (survival : list A -> list A)
      (elites pop : list A) (gens : list (list A)) : option (list A * list A) :=
    match gens with
    | [] => Some (elites, pop)
    | g :: gens =>
        let particles := pop ++ g in
        match archive_add d obj cv feas pr true (Some (fun l => dup_do (default_dup d close) l [] true)) (Some pop_size) (Some elite_size)
                (elite_truncation it asort has_constraints) elites particles with
        | None => None
        | Some elites' => cm_run (S it) asort has_constraints pop_size elite_size survival elites' (survival particles) gens
        end
    end.
End MOPSO.

Local Open Scope Q_scope.
(** to_bound.py [set_to_bounds_if_outside], one entry *)
Definition to_bounds (x l u : Q) : Q := let x := if Qle_bool l x then x else l in if Qle_bool x u then x else u.
(** mopso_cd.py:117-147 [_infill], one coordinate: velocity and position *)
Definition mo_velocity (w c1 c2 r1 r2 v x pb leader v_max : Q) : Q :=
  to_bounds (w * v + c1 * r1 * (pb - x) + c2 * r2 * (leader - x)) (- v_max) v_max.
Definition mo_position (xl xu x v : Q) : Q := to_bounds (x + v) xl xu.
Definition mo_vmax (rate xl xu : Q) : Q := rate * (xu - xl).
(** cmopso.py:70-119 [cmopso_equation], one coordinate (the repair of the position follows after the mutation) *)
Definition cm_velocity (r1 r2 v x winner v_max : Q) : Q := to_bounds (r1 * v + r2 * (winner - x)) (- v_max) v_max.
(** cmopso.py:104-110: the winner of two elites, [key] = the angle to the particle; Python's min keeps the first on ties *)
Definition cm_winner {B} (key : B -> Q) (a b : B) : B := if Qle_bool (key a) (key b) then a else b.
