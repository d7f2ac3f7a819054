(** * Model of BRKGA (/repo/pymoo/algorithms/soo/nonconvex/brkga.py: EliteSurvival, EliteBiasedSelection, BRKGA._advance) and of
    G3PCX (/repo/pymoo/algorithms/soo/nonconvex/g3pcx.py: G3PCX._next after the yield, _initialize_advance, _set_optimum).
    Individuals are of an arbitrary type.  A population of BRKGA carries the attribute "type" (true: "elite", false: "non_elite").  Random indices are arguments; [None]: an exception.
    Not modelled: the branch of EliteSurvival for a custom DuplicateElimination object (brkga.py:37-48), the operators of the mating (see C21-C31). *)
From Coq Require Import List Arith Bool.
From Verif Require Import Flt ListAux M_NDS M_Duplicate M_Survival M_Optimum.
Import ListNotations.
Local Open Scope nat_scope.

Section BRKGA.
  Context {A : Type}.
  Variables (d : A) (obj : A -> list flt) (cv : A -> flt) (feas : A -> bool).
  Variables (asort : list flt -> list nat) (lex : list (flt * flt) -> list nat) (pr : fltmat -> list nat) (close : A -> A -> bool) (hc : bool).

  (** brkga.py:34-35 [DefaultDuplicateElimination(func=lambda p: p.get("F")).do(pop)]: [close a b] = the objective vectors are at most 1e-16 apart *)
  Definition elite_dedup (dedup : bool) (pop : list A) : list A := if dedup then dup_do (default_dup d close) pop [] true else pop.
  (** brkga.py:50-53, one objective: FitnessSurvival().do(problem, pop, n_survive=len(pop)), then a slice *)
  Definition split_single (n_elites : nat) (pop : list A) : list (A * bool) :=
    let sorted := gather d pop (survival_do d cv feas asort (fitness_survival obj cv lex) false hc (Some (length pop)) pop) in
    map (fun a => (a, true)) (firstn n_elites sorted) ++ map (fun a => (a, false)) (skipn n_elites sorted).
  (** brkga.py:54-57, several objectives: the first front of F; the order of the population is unchanged *)
  Definition split_multi (pop : list A) : list (A * bool) :=
    let J := first_front pr (map obj pop) in
    map (fun k => (nth k pop d, existsb (Nat.eqb k) J)) (seq 0 (length pop)).
  (** brkga.py:31-61 [EliteSurvival._do] through Survival.do with filter_infeasible = False (an empty population is returned as it is) *)
  Definition elite_survival (n_obj n_elites : nat) (dedup : bool) (pop : list A) : list (A * bool) :=
    if length pop =? 0 then []
    else
      let pop := elite_dedup dedup pop in
      if n_obj =? 1 then split_single n_elites pop else split_multi pop.

  Definition elites (st : list (A * bool)) : list A := map fst (filter snd st).
  Definition non_elites (st : list (A * bool)) : list A := map fst (filter (fun p => negb (snd p)) st).
  (** brkga.py:149-159 [BRKGA._advance] *)
  Definition brkga_advance (n_obj n_elites : nat) (dedup : bool) (st : list (A * bool)) (infills : list A) : list (A * bool) :=
    elite_survival n_obj n_elites dedup (elites st ++ infills).
  (** advance_after_initial_infill=True: base/genetic.py:82-91 runs the survival on the initial population; then one [_advance] per generation *)
  Definition brkga_run (n_obj n_elites : nat) (dedup : bool) (init : list A) (gens : list (list A)) : list (A * bool) :=
    fold_left (fun st infills => brkga_advance n_obj n_elites dedup st infills) gens (elite_survival n_obj n_elites dedup init).

  (** random_state.choice(a, size=n): [u k] is the k-th random index; an empty [a] raises unless nothing is drawn *)
  Definition rand_choice (a : list nat) (n : nat) (u : nat -> nat) : option (list nat) :=
    if n =? 0 then Some [] else if length a =? 0 then None else Some (map (fun k => nth (u k) a 0) (seq 0 n)).
  (** brkga.py:65-79 [EliteBiasedSelection._do]: rows (elite parent, other parent) *)
  Definition elite_select (types : list bool) (n_select : nat) (u v : nat -> nat) : option (list (nat * nat)) :=
    let e := where_ (fun i => nth i types false) (length types) in
    let ne := where_ (fun i => negb (nth i types true)) (length types) in
    let ne := if length ne =? 0 then e else ne in
    match rand_choice e n_select u, rand_choice ne n_select v with
    | Some s, Some t => Some (combine s t)
    | _, _ => None
    end.
End BRKGA.

Section G3PCX.
  Context {A : Type}.
  Variables (d : A) (obj : A -> list flt) (cv : A -> flt) (feas : A -> bool).
  Variables (asort : list flt -> list nat) (lex : list (flt * flt) -> list nat) (hc : bool).

  (** core/replacement.py:11-22 [is_better] with eps = 0; x - y > 0 for floats iff x > y *)
  Definition is_better0 (new old : A) : bool :=
    if negb (feas old) && negb (feas new) && fltb (cv new) (cv old) then true
    else if negb (feas old) && feas new then true
    else feas old && feas new && fltb (nth 0 (obj new) f_nan) (nth 0 (obj old) f_nan).
  (** g3pcx.py:107-111, one round of the swap loop *)
  Definition g3_swap (pop : list A) (i : nat) : list A :=
    if is_better0 (nth i pop d) (nth 0 pop d) then upd (upd pop 0 (nth i pop d)) i (nth 0 pop d) else pop.
  (** pop[rnd] = vals *)
  Fixpoint assign_at (pop : list A) (rnd : list nat) (vals : list A) : list A :=
    match rnd, vals with
    | i :: rnd, v :: vals => assign_at (upd pop i v) rnd vals
    | _, _ => pop
    end.
  (** g3pcx.py:101-111: what happens to the population once the offspring of one loop are evaluated; [rnd] = the random family of [family_size] different members *)
  Definition g3_update (pop : list A) (rnd : list nat) (off : list A) : list A :=
    let family := gather d pop rnd ++ off in
    let best := gather d family (survival_do d cv feas asort (fitness_survival obj cv lex) false hc (Some (length rnd)) family) in
    fold_left g3_swap rnd (assign_at pop rnd best).
  (** g3pcx.py:70-71 [_initialize_advance] and then any number of loops *)
  Definition g3_init (infills : list A) : list A :=
    gather d infills (survival_do d cv feas asort (fitness_survival obj cv lex) false hc (Some (length infills)) infills).
  Definition g3_run (infills : list A) (loops : list (list nat * list A)) : list A :=
    fold_left (fun pop l => g3_update pop (fst l) (snd l)) loops (g3_init infills).
  (** g3pcx.py:115-116 [_set_optimum] *)
  Definition g3_opt (pop : list A) : A := nth 0 pop d.
  (** g3pcx.py:73-77: number of loops per iteration *)
  Definition g3_loops (pop_size n_offsprings : nat) : nat := pop_size / n_offsprings.
End G3PCX.
