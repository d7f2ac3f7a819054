(** * Model of the pattern search, /repo/pymoo/algorithms/soo/nonconvex/pattern.py (with base/local.py and util/optimum.py for one objective).
    Same conventions as M_Nelder: exact rational arithmetic, finite bounds, generators as values of [co], arbitrary evaluation.  The order
    [K] of the variables in an exploration comes from a generator that is NOT the algorithm's (see [exploration_move]); it is an argument. *)
From Coq Require Import List Arith Bool QArith Qabs.
From Verif Require Import ListAux M_Individual M_Survival M_RefDirs2 M_Nelder.
Import ListNotations.
Local Open Scope nat_scope.

(** pattern.py:153-163 *)
Definition step_along_axis (b : bnds) (x delta : list Q) (axis : nat) : list Q := to_bounds b (upd x axis (nth axis x 0 + nth axis delta 0)%Q).
(** pattern.py:106-135.  default_random_state: no random_state is passed by [_next], so a fresh, unseeded generator draws [K] *)
Fixpoint exploration_move (b : bnds) (sign delta : list Q) (rho : Q) (K : list nat) (center : nind) : co nind :=
  match K with
  | [] => Ret center
  | k :: K =>
      let _delta := vscale (nth k sign 0 * rho)%Q delta in
      Yield [step_along_axis b (n_x center) _delta k] (fun a =>
        let e := nth 0 a nind0 in
        if better e center then exploration_move b sign delta rho K e
        else Yield [step_along_axis b (n_x center) (vscale (-1) _delta) k] (fun a =>
               let e := nth 0 a nind0 in exploration_move b sign delta rho K (if better e center then e else center)))
  end.
(** pattern.py:138-144: the array is clipped in place *)
Definition pattern_move (b : bnds) (current : nind) (direction : list Q) (step_size : Q) : list Q := to_bounds b (vadd (n_x current) (vscale step_size direction)).
(** pattern.py:154-157 *)
Definition calc_sign (direction : list Q) : list Q := map (fun d => if Qle_bool d 0 then -1 else 1)%Q direction.

Record pst := { p_center : nind; p_explr : nind; p_sign : list Q; p_rho : Q; p_nni : nat }.
Section Pattern.
  Variables (b : bnds) (init_delta init_rho step_size : Q) (n_var : nat).
  (** pattern.py:46-47, 54-64: the state after initialisation and the step lengths *)
  Definition pattern_init (x0 : nind) : pst := {| p_center := x0; p_explr := x0; p_sign := repeat 1%Q n_var; p_rho := init_rho; p_nni := 0 |}.
  Definition pattern_delta (x0 : nind) : list Q :=
    match b with
    | (Some xl, Some xu) => vscale init_delta (vsub xu xl)
    | _ => map (fun x => let d := (Qabs x / 2)%Q in if Qle_bool d 1 then 1%Q else d) (n_x x0)
    end.
  Fixpoint qpow (q : Q) (n : nat) : Q := match n with O => 1%Q | S n => (q * qpow q n)%Q end.
  (** pattern.py:66-99; the new population is [p_center; p_explr] *)
  Definition pattern_next (delta : list Q) (K : list nat) (st : pst) : co pst :=
    if negb (better (p_explr st) (p_center st)) then
      let nni := S (p_nni st) in
      let rho := qpow init_rho nni in
      bind (exploration_move b (p_sign st) delta rho K (p_center st)) (fun e =>
        Ret {| p_center := p_center st; p_explr := e; p_sign := p_sign st; p_rho := rho; p_nni := nni |})
    else
      let direction := vsub (n_x (p_explr st)) (n_x (p_center st)) in
      let center := p_explr st in
      Yield [pattern_move b center direction step_size] (fun a =>
        let trial := nth 0 a nind0 in
        let sign := calc_sign direction in
        bind (exploration_move b sign delta (p_rho st) K trial) (fun e =>
          Ret {| p_center := center; p_explr := e; p_sign := sign; p_rho := p_rho st; p_nni := p_nni st |})).
End Pattern.
Definition p_pop (st : pst) : list nind := [p_center st; p_explr st].

(** util/optimum.py:10-43 with one objective and least_infeasible = True *)
Fixpoint first_min (key : nind -> Q) (cur : nind) (l : list nind) : nind := match l with [] => cur | a :: l => first_min key (if Qle_bool (key cur) (key a) then cur else a) l end.
Definition optimum (pop : list nind) : nind :=
  match filter n_feas pop with
  | a :: l => first_min n_f a l
  | [] => match pop with a :: l => first_min n_cv a l | [] => nind0 end
  end.
(** pattern.py:101-103 (and core/algorithm.py:308-309 for the initial population): opt is merged with the population *)
Definition pattern_opt (opt : nind) (st : pst) : nind := optimum (opt :: p_pop st).
