(** * Model of /repo/pymoo/algorithms/moo/dnsga2.py:18-87 [DNSGA2.setup, _infill, _advance] (dynamic NSGA-II)
    An individual is its variables and its stored objectives.  The objective function in force during a generation is an argument [f] (it may differ from generation to generation: the callback of
    problems/dyn.py ticks the problem's clock between generations).  Floating point numbers are binary64 (SpecFloat with precision 53); the order of numpy's summation is left open (M: [fsum_of]).
    The random draws, what the sampling, the mutation and the mating return are arguments; the survival is NSGA-II's (M_Survival, M_GDE3 [nsga2_advance]) and the optimum is M_RankOpt's. *)
From Coq Require Import List Arith Bool ZArith QArith Qround Floats.SpecFloat.
From Verif Require Import Flt ListAux M_NDS M_Survival M_GDE3 M_Optimum M_RankOpt M_Repro.
Import ListNotations.
Local Open Scope nat_scope.

(** binary64 arithmetic *)
Definition fsub64 : flt -> flt -> flt := SFsub 53 1024.
Definition fadd64 : flt -> flt -> flt := SFadd 53 1024.
Definition fmul64 : flt -> flt -> flt := SFmul 53 1024.
Definition fdiv64 : flt -> flt -> flt := SFdiv 53 1024.
(** [s] is a floating point sum of the list, the numbers being added in some order and association (numpy: pairwise, in blocks) *)
Inductive fsum_of : list flt -> flt -> Prop :=
| fs_nil : fsum_of [] f_zero
| fs_one x : fsum_of [x] x
| fs_add l1 l2 a b : fsum_of l1 a -> fsum_of l2 b -> fsum_of (l1 ++ l2) (fadd64 a b)
| fs_swap l1 l2 a : fsum_of (l1 ++ l2) a -> fsum_of (l2 ++ l1) a.

(** dnsga2.py:32: int(np.ceil(len(pop) * perc)), exact arithmetic *)
Definition n_samples (N : nat) (perc : Q) : nat := Z.to_nat (Qceiling (inject_Z (Z.of_nat N) * perc)).

Inductive version := VA | VB | VOther.

Section DNSGA.
  Context {X : Type}.
  Variables (dx : X) (fsum : list flt -> flt).
  Variables (asort dsort : list flt -> list nat) (nds : fltmat -> nat -> list (list nat)) (crowding : fltmat -> nat -> list flt).
  Definition dind : Type := X * list flt.
  Definition dd : dind := (dx, []).
  (** core/evaluator.py:38-103 on individuals without values: the problem's values are stored *)
  Definition devaluate (f : X -> list flt) (xs : list X) : list dind := map (fun x => (x, f x)) xs.

  (** dnsga2.py:35-39: the drawn positions [J] are evaluated again; mean of the squared differences *)
  Definition squares (f : X -> list flt) (pop : list dind) (J : list nat) : list flt :=
    flat_map (fun i => map2 (fun new old => let d := fsub64 new old in fmul64 d d) (f (fst (nth i pop dd))) (snd (nth i pop dd))) J.
  Definition delta (f : X -> list flt) (pop : list dind) (J : list nat) : flt :=
    let sq := squares f pop J in fdiv64 (fsum sq) (fz (Z.of_nat (length sq))).
  (** dnsga2.py:42 *)
  Definition change_detected (eps : flt) (f : X -> list flt) (pop : list dind) (J : list nat) : bool := fltb eps (delta f pop J).

  (** dnsga2.py:46-59: the variables after the replacement; [u] the random numbers, [sampled] what the sampling operator returns, [mutate] what the mutation stores in the picked individuals *)
  Definition picked (perc_diversity : Q) (u : list Q) : list nat := filter (fun i => match nth i u 0%Q ?= perc_diversity with Lt => true | _ => false end)%Q (seq 0 (length u)).
  Definition replace_at (xs : list X) (J : list nat) (new : list X) : list X := fold_left (fun l p => upd l (fst p) (snd p)) (combine J new) xs.
  Definition diversify (v : version) (J : list nat) (sampled : list X) (mutate : list X -> list X) (xs : list X) : option (list X) :=
    match v with
    | VA => if length sampled =? length J then Some (replace_at xs J sampled) else None
    | VB => Some (replace_at xs J (mutate (gather dx xs J)))
    | VOther => None
    end.

  (** everything random or user-supplied in one generation *)
  Record dstep := { ds_f : X -> list flt; ds_sample : list nat; ds_u : list Q; ds_new : list X; ds_mutate : list X -> list X; ds_mating : list dind -> list X }.
  Record dconf := { dc_perc_div : Q; dc_eps : flt; dc_version : version; dc_size : nat }.

  (** nsga2 survival of an unconstrained problem: all violations 0, all feasible *)
  Definition dsurvive (n : nat) (pop off : list dind) : list dind :=
    gather dd (pop ++ off) (nsga2_advance dd (fun _ => f_zero) (fun _ => true) snd asort dsort nds crowding false n pop off).
  Definition doptimum (n : nat) (pop off : list dind) : list dind :=
    gather dd (pop ++ off) (rank_optimum dd (fun _ => f_zero) (fun _ => true) asort (rac_inner snd dsort nds crowding) (rac_rank0 snd dsort nds crowding) false n (pop ++ off)).
  (** dnsga2.py:28-65: the parents: the population as it is, or - if a change was detected - re-created, diversified, evaluated and sorted by a survival of everybody *)
  Definition dparents (c : dconf) (s : dstep) (pop : list dind) : option (list dind) :=
    if change_detected (dc_eps c) (ds_f s) pop (ds_sample s) then
      option_map (fun xs => dsurvive (length xs) (devaluate (ds_f s) xs) []) (diversify (dc_version c) (picked (dc_perc_div c) (ds_u s)) (ds_new s) (ds_mutate s) (map fst pop))
    else Some pop.
  (** dnsga2.py:68-87: offspring, merge, survival; [None]: an exception.  With it: the optimum reported (nsga2.py:123-127) and the evaluations counted (core/evaluator.py:82-84) *)
  Record dresult := { dr_pop : list dind; dr_opt : list dind; dr_evals : nat }.
  Definition dadvance (c : dconf) (s : dstep) (pop : list dind) : option dresult :=
    match dparents c s pop with
    | None => None
    | Some par => let off := devaluate (ds_f s) (ds_mating s par) in
        Some {| dr_pop := dsurvive (dc_size c) par off; dr_opt := doptimum (dc_size c) par off;
                dr_evals := length (ds_sample s) + (if change_detected (dc_eps c) (ds_f s) pop (ds_sample s) then length pop else 0) + length off |}
    end.
  (** core/algorithm.py [run]: generations one after the other *)
  Fixpoint drun (c : dconf) (steps : list dstep) (pop : list dind) : option (list dind) :=
    match steps with
    | [] => Some pop
    | s :: steps => match dadvance c s pop with None => None | Some r => drun c steps (dr_pop r) end
    end.
  (** dnsga2.py:22-24 *)
  Definition dsetup (has_constraints : bool) : option unit := if has_constraints then None else Some tt.
End DNSGA.
Arguments dstep : clear implicits.
Arguments dresult : clear implicits.
Arguments dind : clear implicits.

(** where the random numbers of the replacement come from (language of M_Repro): the sampling gets the algorithm's generator (dnsga2.py:53), the mutation gets none (dnsga2.py:57, core/mutation.py:18-21) *)
Definition p_diversify {X} (v : version) (n : nat) (picks : list Q -> list nat) (sampling : nat -> prog (list X)) (mutation : list nat -> prog (list X)) : prog (option (list nat * list X)) :=
  u <- draw (Random n) ;;
  let J := picks u in
  match v with
  | VA => xs <- call None Passed (sampling (length J)) ;; Ret (Some (J, xs))
  | VB => xs <- call None Neither (mutation J) ;; Ret (Some (J, xs))
  | VOther => Ret None
  end.

(** dnsga2.py:39-42 in exact arithmetic: [new], [old] the objective rows of the drawn individuals *)
Local Open Scope Q_scope.
Definition squares_q (new old : list (list Q)) : list Q := concat (map2 (map2 (fun a b => (a - b) * (a - b))) new old).
Definition delta_q (new old : list (list Q)) : Q := let sq := squares_q new old in fold_right Qplus 0 sq / inject_Z (Z.of_nat (length sq)).
Definition change_detected_q (eps : Q) (new old : list (list Q)) : bool := match eps ?= delta_q new old with Lt => true | _ => false end.
