(** * Model of adaptive parameter control: /repo/pymoo/operators/control.py (ParameterControl, NoParameterControl, RandomParameterControl, EvolutionaryParameterControl,
    AgeBasedTournamentSelection, ParameterControlMating) together with [get] and [Variable.sample] of /repo/pymoo/core/variable.py.
    The controlled parameters are given as the flattened dictionary of the variables found in the operators (names and kinds, M_Mixed.vars; how they are found: M_Params.get_params).
    Individuals carry a dictionary of data ([Individual.data]).  Random numbers are arguments.  None: an exception. *)
From Coq Require Import String List Arith Bool ZArith QArith.
From Verif Require Import ListAux M_Params M_Mixed M_Selection.
Import ListNotations.
Local Open Scope nat_scope.

(** the arrays held by the parameters, by name *)
Notation pvals := (list (string * list mval)).
(** the random numbers of [Variable.sample] for the parameters: number k of parameter i (uniform in [0, 1), resp. an integer draw) *)
Record pdraws := { p_u : nat -> nat -> Q; p_j : nat -> nat -> nat }.

(** control.py:67-70 [RandomParameterControl._do]; variable.py:38-59 [sample] with n given *)
Definition random_control (ps : vars) (N : nat) (r : pdraws) : pvals :=
  map (fun i => (fst (nth i ps dvar), map (fun k => sample_var (snd (nth i ps dvar)) (p_u r i k) (p_j r i k)) (seq 0 N))) (seq 0 (length ps)).
(** control.py:59-64 [NoParameterControl._do] (its [params] are those of None: there are none) *)
Definition no_control : pvals := [].

(** Individual.get(name): None if there is no such entry (individual.py:475-506) *)
Definition data_get (x : dict) (name : string) : mval := match dget x name with Some v => v | None => VOpt PNone end.
Definition is_missing (v : mval) : bool := match v with VOpt PNone => true | _ => false end.
(** control.py:82-86: one parameter; the q-th individual without a value gets the q-th sample *)
Fixpoint fill_one (name : string) (v : mvar) (u : nat -> Q) (j : nat -> nat) (q : nat) (pop : list dict) : list dict :=
  match pop with
  | [] => []
  | x :: pop => if is_missing (data_get x name) then dset x name (sample_var v (u q) (j q)) :: fill_one name v u j (S q) pop
                else x :: fill_one name v u j q pop
  end.
(** control.py:82-86: all parameters *)
Definition fill_missing (ps : vars) (r : pdraws) (pop : list dict) : list dict :=
  fold_left (fun pop i => fill_one (fst (nth i ps dvar)) (snd (nth i ps dvar)) (p_u r i) (p_j r i) 0 pop) (seq 0 (length ps)) pop.
(** control.py:128-150 [age_binary_tournament], one row; tournament.py:73-123 [compare] with larger_is_better: the younger one, a coin if equally old *)
Definition younger (gens : list nat) (row : list nat) (coin : bool) : nat :=
  let a := nth 0 row 0 in let b := nth 1 row 0 in
  if nth b gens 0 <? nth a gens 0 then a else if nth a gens 0 <? nth b gens 0 then b else if coin then a else b.
(** control.py:122-125 and tournament.py:41-70: N matings of two parents each, from tournaments of two *)
Definition age_selection (gens : list nat) (N : nat) (perm : nat -> list nat) (coin : nat -> bool) : list (list nat) :=
  let rows := tournaments (length gens) N 2 2 perm in
  reshape N 2 (map (fun t => younger gens (nth t rows []) (coin t)) (seq 0 (length rows))).
(** the random numbers of one call of [EvolutionaryParameterControl._do] *)
Record edraws := { e_fill : pdraws; e_perm : nat -> list nat; e_coin : nat -> bool; e_ops : vars -> draws }.
(** control.py:78-119 [EvolutionaryParameterControl._do]: the values, and the population with the missing values filled in (in place).
    [gens]: the generation in which each individual was created.  The mating of the values is MixedVariableMating with its default operators (M_Mixed);
    with N matings of two children each it delivers N offspring at once *)
Definition evolutionary_control (ps : vars) (N : nat) (pop : list dict) (gens : list nat) (e : edraws) : option (pvals * list dict) :=
  let pop := fill_missing ps (e_fill e) pop in
  let parents := map (map (fun p => map (fun kv => (fst kv, data_get (nth p pop []) (fst kv))) ps)) (age_selection gens N (e_perm e) (e_coin e)) in
  match mixed_mating (cross_default (e_ops e)) (mut_default (e_ops e)) ps parents N with
  | None => None
  | Some off => option_map (fun vals => (vals, pop))
      (osequence (map (fun kv => option_map (fun l => (fst kv, l)) (osequence (map (fun X => dget X (fst kv)) off))) ps))
  end.

(** the random generator actually used: util/__init__.py:11-46 [default_random_state]: the one passed, or else a new one seeded by the operating system *)
Definition generator {R} (passed : option R) (fresh : R) : R := match passed with Some r => r | None => fresh end.

(** ** ParameterControlMating *)
(** np.repeat(a, o) *)
Definition np_repeat {A} (l : list A) (o : nat) : list A := flat_map (fun x => repeat x o) l.
(** the parameter values for the k-th mating (or offspring), as [get(param, size=n)] hands them to an operator *)
Definition row (vals : pvals) (k : nat) : dict := map (fun kv => (fst kv, nth k (snd kv) dval)) vals.
(** math.ceil(n / o), line 163 *)
Definition matings (n o : nat) : nat := (n + (o - 1)) / o.
(** control.py:51-56 [ParameterControl.advance]: the values are attached to the individuals; AssertionError if the sizes differ *)
Definition advance {A} (ps : vars) (vals : pvals) (infills : list (A * dict)) : option (list (A * dict)) :=
  fold_left (fun infills kv =>
    match infills, dget vals (fst kv) with
    | Some infills, Some v => if length v =? length infills then Some (map2 (fun x v => (fst x, dset (snd x) (fst kv) v)) infills v) else None
    | _, _ => None
    end) ps (Some infills).
Section Mating.
  Context {A : Type}.
  Variable a0 : A.
  (** a crossover with [o] children per mating: child i of mating k, given the values of the parameters for that mating; a mutation: what becomes of offspring p, given the values for it *)
  Variable o : nat.
  Variable cross_op : dict -> nat -> nat -> A.
  Variable mut_op : dict -> nat -> A -> A.
  (** core/crossover.py:27-73: the children in the order in which Crossover.do returns them (the array has the axes offspring, mating: line 67) *)
  Definition children (vals : pvals) (n : nat) : list A :=
    flat_map (fun i => map (fun k => cross_op (row vals k) i k) (seq 0 n)) (seq 0 o).
  (** control.py:160-187 [ParameterControlMating._do] for n matings, with the values [vals] set by control.do *)
  Definition control_mating (ps : vars) (vals : pvals) (n : nat) : option (list (A * dict)) :=
    let off := children vals n in
    let vals := map (fun kv => (fst kv, np_repeat (snd kv) o)) vals in
    let off := map (fun p => mut_op (row vals p) p (nth p off a0)) (seq 0 (length off)) in
    advance ps vals (map (fun x => (x, [])) off).
  (** ... with RandomParameterControl; line 168: control.do(n_matings) gets no random state *)
  Definition random_mating (ps : vars) (n_offsprings : nat) (random_state fresh : pdraws) : option (list (A * dict)) :=
    let n := matings n_offsprings o in control_mating ps (random_control ps n (generator None fresh)) n.
  (** ... with EvolutionaryParameterControl; also returns the population, whose missing values were filled in *)
  Definition evolutionary_mating (ps : vars) (n_offsprings : nat) (pop : list dict) (gens : list nat) (random_state fresh : edraws) : option (list (A * dict) * list dict) :=
    let n := matings n_offsprings o in
    match evolutionary_control ps n pop gens (generator None fresh) with
    | None => None
    | Some (vals, pop) => option_map (fun off => (off, pop)) (control_mating ps vals n)
    end.
  (** ... with NoParameterControl *)
  Definition plain_mating (n_offsprings : nat) : option (list (A * dict)) := control_mating [] no_control (matings n_offsprings o).
End Mating.
