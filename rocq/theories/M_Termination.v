(** * Model of /repo/pymoo/core/termination.py, /repo/pymoo/termination/*.py, /repo/pymoo/util/sliding_window.py.
    Progress values are exact rationals ([n / N] is a float in Python; see C34_binary64 for the effect of rounding).
    [None] as a result is an exception (failed assertion, division by zero, max of an empty list). *)
From Coq Require Import List Arith Bool QArith.
Import ListNotations.
Local Open Scope nat_scope.

(** max([...]) and min([...]) of a non-empty Python list *)
Fixpoint py_max (x : Q) (l : list Q) : Q := match l with [] => x | y :: l => py_max (if Qle_bool y x then x else y) l end.
Fixpoint py_min (x : Q) (l : list Q) : Q := match l with [] => x | y :: l => py_min (if Qle_bool x y then x else y) l end.

(** util/sliding_window.py:21-31 [SlidingWindow.append]: the while loop removes from the front *)
Fixpoint shrink {A} (size : nat) (l : list A) : list A :=
  match l with
  | [] => []
  | x :: r => if size <? length l then shrink size r else l
  end.
Definition window_append {A} (size : option nat) (l : list A) (x : A) : list A :=
  let l := l ++ [x] in match size with None => l | Some s => shrink s l end.

(** the limit of max_gen / max_eval: None, infinity (the default), or a number *)
Inductive limit := NoLimit | Infinite | Limit (n : nat).
(** termination/max_gen.py:11-15, termination/max_eval.py:11-15 *)
Definition ratio (n : nat) (l : limit) : option Q :=
  match l with
  | NoLimit | Infinite => Some 0%Q
  | Limit 0 => None
  | Limit (S k) => Some (inject_Z (Z.of_nat n) / inject_Z (Z.of_nat (S k)))%Q
  end.

Section Term.
  Context {O S : Type}.
  Variables (o_gen o_eval : O -> nat).
  (** any other criterion: own state, progress computed from the observed algorithm ([None]: it raises) *)
  Variable step : S -> O -> option (S * Q).

  (** core/termination.py:9-13: every criterion has [force_termination] and [perc] *)
  Inductive crit := Crit (force : bool) (perc : Q) (b : body)
  with body :=
  | NoTermination                                          (* core/termination.py:50-55 *)
  | MaxGen (l : limit)                                     (* termination/max_gen.py *)
  | MaxEval (l : limit)                                    (* termination/max_eval.py *)
  | Other (s : S)
  | AnyOf (cs : list crit)                                 (* TerminateIfAny, TerminationCollection, DefaultTermination *)
  | AllOf (cs : list crit)                                 (* TerminateIfAll *)
  | Robust (c : crit) (period : nat) (history : list Q).   (* termination/robust.py *)

  Definition force (c : crit) : bool := let '(Crit f _ _) := c in f.
  Definition perc (c : crit) : Q := let '(Crit _ p _) := c in p.
  Definition cbody (c : crit) : body := let '(Crit _ _ b) := c in b.
  (** a newly created criterion *)
  Definition new (b : body) : crit := Crit false 0 b.
  (** core/termination.py:33-35 [has_terminated], 42-44 [terminate] *)
  Definition has_terminated (c : crit) : bool := Qle_bool 1 (perc c).
  Definition terminate (c : crit) : crit := Crit true (perc c) (cbody c).

  (** core/termination.py:15-31 [update] and the [_update] methods *)
  Fixpoint update (c : crit) (o : O) {struct c} : option crit :=
    let '(Crit f p b) := c in
    if f then Some (Crit f 1 b)
    else match update_body b o with
         | None => None
         | Some (b', q) => if Qle_bool 0 q then Some (Crit f q b') else None
         end
  with update_body (b : body) (o : O) {struct b} : option (body * Q) :=
    let update_all := fix update_all (cs : list crit) : option (list crit) :=
      match cs with
      | [] => Some []
      | c :: cs => match update c o with
                   | None => None
                   | Some c' => match update_all cs with None => None | Some cs' => Some (c' :: cs') end
                   end
      end in
    match b with
    | NoTermination => Some (NoTermination, 0%Q)
    | MaxGen l => option_map (fun q => (MaxGen l, q)) (ratio (o_gen o) l)
    | MaxEval l => option_map (fun q => (MaxEval l, q)) (ratio (o_eval o) l)
    | Other s => option_map (fun r => (Other (fst r), snd r)) (step s o)
    | AnyOf cs => match update_all cs with
                  | None | Some [] => None
                  | Some (c :: cs) => Some (AnyOf (c :: cs), py_max (perc c) (map perc cs))
                  end
    | AllOf cs => match update_all cs with
                  | None | Some [] => None
                  | Some (c :: cs) => Some (AllOf (c :: cs), py_min (perc c) (map perc cs))
                  end
    | Robust c period history =>
        match update c o with
        | None => None
        | Some c' => match window_append (Some period) history (perc c') with
                     | [] => None
                     | x :: l => Some (Robust c' period (x :: l), py_min x l)
                     end
        end
    end.

  (** the states after each of a sequence of updates *)
  Fixpoint trace (c : crit) (os : list O) : option (list crit) :=
    match os with
    | [] => Some []
    | o :: os => match update c o with
                 | None => None
                 | Some c' => option_map (cons c') (trace c' os)
                 end
    end.
  Fixpoint updates (c : crit) (os : list O) : option crit :=
    match os with [] => Some c | o :: os => match update c o with None => None | Some c' => updates c' os end end.
End Term.
Arguments crit : clear implicits.
Arguments body : clear implicits.

(** ** termination/fmin.py:11-17 combined with [Termination.update]: outcome of one update.
    numpy's division by zero gives an infinity or NaN. *)
Inductive progress := Fin (q : Q) | PosInf | NegInf | NaN.
Definition np_div (a b : Q) : progress :=
  if Qeq_bool b 0 then (if Qeq_bool a 0 then NaN else if Qle_bool 0 a then PosInf else NegInf) else Fin (a / b).
(** [feas] : some solution of the optimum is feasible; [best] = opt.get("F").min() *)
Definition fmin_progress (fmin : Q) (feas : bool) (best : Q) : progress := if feas then np_div fmin best else Fin 0.
(** [None]: the assertion [progress >= 0.0] fails; otherwise whether the criterion has terminated *)
Definition decide (p : progress) : option bool :=
  match p with
  | Fin q => if Qle_bool 0 q then Some (Qle_bool 1 q) else None
  | PosInf => Some true
  | NegInf | NaN => None
  end.

(** ** termination/delta.py:25-56 [DeltaToleranceTermination._update].  [delta prev current] is [None] when infinite.
    [pc] is the criterion's [perc] (set by [update] to the progress returned last). *)
Section Delta.
  Context {D : Type}.
  Variables (delta : D -> D -> option Q) (tol : Q) (n_skip : nat).
  Record dstate := { d_data : option D; d_counter : nat; d_perc : Q }.
  Definition d_new : dstate := {| d_data := None; d_counter := 0; d_perc := 0 |}.
  Definition d_remember (st : dstate) (cur : D) (p : Q) : dstate := {| d_data := Some cur; d_counter := d_counter st + 1; d_perc := p |}.
  Definition delta_update (st : dstate) (cur : D) : dstate :=
    match d_data st with
    | None => d_remember st cur 0
    | Some prev =>
        if (0 <? d_counter st) && negb (d_counter st mod (n_skip + 1) =? 0) then d_remember st cur (d_perc st)
        else match delta prev cur with
             | None => d_remember st cur 0                                    (* 1 / (1 + inf) *)
             | Some dl => if Qle_bool dl tol then {| d_data := d_data st; d_counter := d_counter st; d_perc := 1 |}
                          else d_remember st cur (1 / (1 + (dl - tol)))
             end
    end.
End Delta.
