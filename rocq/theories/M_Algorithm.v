(** * Model of /repo/pymoo/core/algorithm.py (class Algorithm): the loop, ask/tell, history, archive, callback.
    [I] is everything that belongs to the concrete algorithm (population, offspring, random state, the individual objects, the evaluator);
    [P] is a population as handed around; [Ar] the archive.  The methods to be overwritten are arbitrary functions.  A method may force the
    termination (GeneticAlgorithm does when no offspring could be generated): its last result is that flag.  The callback sees the
    iteration number and the inner state and may force the termination too; that a callback or display changes the algorithm otherwise is
    not modelled.  [None] as a result is an exception raised by the termination criterion. *)
From Coq Require Import List Arith Bool QArith.
From Verif Require Import M_Termination.
Import ListNotations.
Local Open Scope nat_scope.

Section Algo.
  Context {I P Ar S : Type}.
  (** hooks: [_initialize_infill], [_infill], [_initialize_advance], [_advance] (with n_iter) *)
  Record hooks := {
    init_infill : nat -> I -> I * option P * bool;
    infill_ : nat -> I -> I * option P * bool;
    init_advance : nat -> I -> option P -> I * bool;
    advance_ : nat -> I -> option P -> I * option bool * bool;
    evaluate : I -> P -> I;                                  (* evaluator.eval(problem, infills) *)
    n_evals : I -> nat;                                      (* evaluator.n_eval *)
    tag : I -> P -> nat -> I;                                (* infills.set("n_gen", n_iter); set("n_iter", n_iter) *)
    initialize : I -> I;                                     (* _initialize: pop := empty, opt := None (the counter is framework state) *)
    set_pop : I -> option P -> I;                            (* self.pop = infills *)
    set_off : I -> option P -> I;                            (* self.off = infills *)
    set_optimum : I -> option P;                             (* _set_optimum *)
    arch_add : Ar -> P -> Ar;                                (* archive.add(infills) *)
    callback : nat -> I -> bool }.
  Variable H : hooks.
  (** what a termination criterion sees *)
  Record obs := { ob_gen : nat; ob_inner : I; ob_opt : option P }.
  Variable step : S -> obs -> option (S * Q).
  Definition o_eval (o : obs) : nat := n_evals H (ob_inner o).
  Notation update := (update ob_gen o_eval step).

  (** snapshot kept in the history: deep copy of the algorithm *)
  Record snapshot := { sn_iter : nat; sn_inner : I; sn_opt : option P; sn_term : crit S }.
  Record alg := {
    is_init : bool; n_iter : nat; inner : I; opt : option P; term : crit S; archive : option Ar;
    save_history : bool; history : list snapshot;
    seen : list obs;            (* what the callback saw, one entry per call *)
    told : list (option P) }.   (* ghost: the arguments of [advance] so far *)
  Definition start (i : I) (t : crit S) (ar : option Ar) (save : bool) : alg :=
    {| is_init := false; n_iter := 0; inner := i; opt := None; term := t; archive := ar; save_history := save; history := []; seen := []; told := [] |}.

  Definition with_inner (a : alg) (i : I) (f : bool) : alg :=
    {| is_init := is_init a; n_iter := n_iter a; inner := i; opt := opt a; term := if f then terminate (term a) else term a;
       archive := archive a; save_history := save_history a; history := history a; seen := seen a; told := told a |}.

  (** lines 146-148 *)
  Definition has_next (a : alg) : bool := negb (has_terminated (term a)).

  (** lines 181-202 [infill] (171-179 [_initialize]) *)
  Definition infill (a : alg) : alg * option P :=
    let a := if is_init a then a
             else {| is_init := false; n_iter := 1; inner := initialize H (inner a); opt := None; term := term a; archive := archive a;
                     save_history := save_history a; history := history a; seen := seen a; told := told a |} in
    let '(i, infills, f) := (if is_init a then infill_ H else init_infill H) (n_iter a) (inner a) in
    match infills with
    | None => (with_inner a i f, None)
    | Some p => (with_inner a (tag H i p (n_iter a)) f, Some p)
    end.

  (** lines 311-334 [_post_advance] *)
  Definition post_advance (a : alg) : option alg :=
    let o := set_optimum H (inner a) in
    let ob := {| ob_gen := n_iter a; ob_inner := inner a; ob_opt := o |} in
    match update (term a) ob with
    | None => None
    | Some t =>
        let hist := if save_history a then history a ++ [{| sn_iter := n_iter a; sn_inner := inner a; sn_opt := o; sn_term := t |}] else history a in
        Some {| is_init := is_init a; n_iter := n_iter a + 1; inner := inner a; opt := o;
                term := if callback H (n_iter a) (inner a) then terminate t else t;
                archive := archive a; save_history := save_history a; history := hist; seen := seen a ++ [ob]; told := told a |}
    end.

  (** lines 204-247 [advance]: the new state and the returned value: the result (with the archive it carries) or the optimum *)
  Inductive ret := Result (r_opt : option P) (r_archive : option Ar) | CurrentOpt (o : option P).
  Definition advance (a : alg) (infills : option P) : option (alg * ret) :=
    let a := {| is_init := is_init a; n_iter := n_iter a; inner := set_off H (inner a) infills; opt := opt a; term := term a; archive := archive a;
                save_history := save_history a; history := history a; seen := seen a; told := told a ++ [infills] |} in
    let a' :=
      if is_init a then
        let '(i, val, f) := advance_ H (n_iter a) (inner a) infills in
        let a := with_inner a i f in
        match val with None | Some true => post_advance a | Some false => Some a end
      else
        let a := {| is_init := false; n_iter := 1; inner := set_pop H (inner a) infills; opt := opt a; term := term a; archive := archive a;
                    save_history := save_history a; history := history a; seen := seen a; told := told a |} in
        let '(i, f) := init_advance H 1 (inner a) infills in
        let a := with_inner a i f in
        post_advance {| is_init := true; n_iter := n_iter a; inner := inner a; opt := opt a; term := term a; archive := archive a;
                        save_history := save_history a; history := history a; seen := seen a; told := told a |} in
    match a' with
    | None => None
    | Some a =>
        let r := if has_terminated (term a) then Result (opt a) (archive a) else CurrentOpt (opt a) in
        let ar := match archive a, infills with Some ar, Some p => Some (arch_add H ar p) | _, _ => archive a end in
        Some ({| is_init := is_init a; n_iter := n_iter a; inner := inner a; opt := opt a; term := term a; archive := ar;
                 save_history := save_history a; history := history a; seen := seen a; told := told a |}, r)
    end.

  (** lines 157-169 [next] *)
  Definition next (a : alg) : option alg :=
    let '(a, infills) := infill a in
    match infills with
    | Some p => option_map fst (advance (with_inner a (evaluate H (inner a) p) false) (Some p))
    | None => option_map fst (advance a None)
    end.
  (** ask, evaluate with the algorithm's evaluator, tell (lines 302-306) *)
  Definition ask_eval_tell (a : alg) : option (alg * ret) :=
    let '(a, infills) := infill a in
    match infills with
    | Some p => advance (with_inner a (evaluate H (inner a) p) false) (Some p)
    | None => advance a None
    end.

  (** lines 141-144 [run] without the result: state and number of calls of [next]; [None]: exception or fuel exhausted *)
  Fixpoint run (fuel : nat) (a : alg) : option (alg * nat) :=
    if has_next a then
      match fuel with
      | O => None
      | Datatypes.S fuel => match next a with
                  | None => None
                  | Some a => option_map (fun r => (fst r, snd r + 1)) (run fuel a)
                  end
      end
    else Some (a, 0).
  Fixpoint nexts (k : nat) (a : alg) : option alg :=
    match k with O => Some a | Datatypes.S k => match next a with None => None | Some a => nexts k a end end.
End Algo.
Arguments hooks : clear implicits.
Arguments alg : clear implicits.
Arguments snapshot : clear implicits.
