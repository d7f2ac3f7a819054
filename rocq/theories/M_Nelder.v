(** * Model of the Nelder-Mead search, /repo/pymoo/algorithms/soo/nonconvex/nelder.py, of max_alpha (/repo/pymoo/util/vectors.py:6-42) and of the
    parts of the local search framework it uses (/repo/pymoo/algorithms/base/local.py, core/replacement.py:11-22, ga.py:25-34,
    core/algorithm.py:371-395).
    Exact rational arithmetic; bounds are finite numbers (an entry of a bound vector is never infinite).  A generator function is a value of
    type [co]: it returns, or hands out points to be evaluated and continues with the evaluated individuals.  Evaluation is arbitrary (it may
    even answer differently when asked twice).  The termination (nelder.py:24-63) is not part of the model. *)
From Coq Require Import List Arith Bool QArith.
From Verif Require Import ListAux M_Individual M_Survival M_RefDirs2.
Import ListNotations.
Local Open Scope nat_scope.

(** an individual: X, F[0] and CV[0]; FEAS is CV <= 0 (core/individual.py) *)
Record nind := { n_x : list Q; n_f : Q; n_cv : Q }.
Definition nind0 : nind := {| n_x := []; n_f := 0; n_cv := 0 |}.
Definition n_feas (a : nind) : bool := Qle_bool (n_cv a) 0.
(** core/replacement.py:11-22 with eps = 0 *)
Definition better (new old : nind) : bool := is_better 0 (n_f new) (n_cv new) (n_feas new) (n_f old) (n_cv old) (n_feas old).

(** a Python generator that yields X values and returns an [R] *)
Inductive co (R : Type) : Type :=
| Ret (r : R)
| Yield (xs : list (list Q)) (k : list nind -> co R).
Arguments Ret {R}. Arguments Yield {R}.
(** [yield from] *)
Fixpoint bind {R T} (c : co R) (f : R -> co T) : co T := match c with Ret r => f r | Yield xs k => Yield xs (fun a => bind (k a) f) end.

(** bounds of the problem: problem.bounds(), each of them may be None *)
Definition bnds := (option (list Q) * option (list Q))%type.
Definition has_bounds (b : bnds) : bool := match b with (Some _, Some _) => true | _ => false end.
(** operators/repair/to_bound.py:9-33, one row *)
Definition to_bounds (b : bnds) (X : list Q) : list Q :=
  let X := match fst b with Some xl => map2 (fun x l => if Qle_bool l x then x else l) X xl | None => X end in
  match snd b with Some xu => map2 (fun x u => if Qle_bool x u then x else u) X xu | None => X end.

(** util/vectors.py:6-42, mode "one_hits_bound"; None is np.inf.  Entries with a zero direction become -inf and are not >= 0 *)
Definition max_alpha (point direction : list Q) (b : bnds) : option Q :=
  let bs := (match fst b with Some xl => [xl] | None => [] end) ++ (match snd b with Some xu => [xu] | None => [] end) in
  match bs with
  | [] => None
  | _ => if length point =? 0 then None else
      let vals := concat (map (fun j => if Qeq_bool (nth j direction 0%Q) 0 then []
                                        else map (fun bd => ((nth j bd 0 - nth j point 0) / nth j direction 0)%Q) bs) (seq 0 (length point))) in
      match filter (Qle_bool 0) vals with [] => Some 0%Q | l => Some (qmin_list l) end
  end.
Definition qmin_inf (a : Q) (u : option Q) : Q := match u with None => a | Some u => if Qle_bool a u then a else u end.

(** vector arithmetic of numpy *)
Definition vadd := map2 Qplus.
Definition vsub := map2 Qminus.
Definition vscale (t : Q) := map (Qmult t).
(** pop[:k].get("X").mean(axis=0) *)
Definition mean (n_var : nat) (pop : list nind) : list Q :=
  map (fun j => (qsum (map (fun a => nth j (n_x a) 0%Q) pop) / inject_Z (Z.of_nat (length pop)))%Q) (seq 0 n_var).

(** nelder.py:66-80; (alpha, beta, gamma, delta) *)
Definition params := (Q * Q * Q * Q)%type.
Definition adaptive_params (n : nat) : params :=
  let n := inject_Z (Z.of_nat n) in ((1, 1 + 2 / n, (3 # 4) - 1 / (2 * n)), 1 - 1 / n)%Q.
Definition default_params : params := (1, 2, 1 # 2, 1 # 20)%Q.

(** nelder.py:83-107 *)
Definition initialize_simplex (b : bnds) (x0 : list Q) (scale : Q) : list (list Q) :=
  let delta := match b with
               | (Some xl, Some xu) => vscale scale (vsub xu xl)
               | _ => map (fun d => if Qeq_bool d 0 then 1 # 4000 else d) (vscale scale x0)
               end in
  map (fun k => let x := nth k x0 0%Q in let d := nth k delta 0%Q in
                upd x0 k (match b with
                          | (Some _, Some xu) => if negb (Qle_bool (nth k xu 0) (x + d))%Q then x + d else x - d
                          | _ => x + d
                          end)%Q) (seq 0 (length x0)).
(** nelder.py:139-140: the scale given to the constructor is not used.  The generator of the first call of [_next] (lines 141-144): x0 is
    already evaluated and is kept as it is by the evaluator *)
Definition initial_simplex (init_simplex_scale : Q) (b : bnds) (x0 : nind) : co (list nind) :=
  Yield (initialize_simplex b (n_x x0) (1 # 20)) (fun inds => Ret (x0 :: inds)).

(** ga.py:25-34 FitnessSurvival with n_survive = len(pop): np.lexsort([F, cv]), a stable sort by cv, ties by F *)
Definition key_le (a b : nind) : bool := if negb (Qle_bool (n_cv b) (n_cv a)) then true else if negb (Qle_bool (n_cv a) (n_cv b)) then false else Qle_bool (n_f a) (n_f b).
Fixpoint insert_ind (a : nind) (l : list nind) : list nind := match l with [] => [a] | b :: l => if key_le a b then a :: b :: l else b :: insert_ind a l end.
Definition fitness_sort (l : list nind) : list nind := fold_right insert_ind [] l.

Section Step.
  Variables (n_var : nat) (b : bnds) (p : params).
  Let alpha := fst (fst (fst p)).
  Let beta := snd (fst (fst p)).
  Let gamma := snd (fst p).
  Let delta := snd p.
  Definition one (xs : list Q) (k : nind -> co (list nind)) : co (list nind) := Yield [xs] (fun a => k (nth 0 a nind0)).
  (** nelder.py:233-238 *)
  Definition shrink_step (pop : list nind) : co (list nind) :=
    let x_best := n_x (nth 0 pop nind0) in
    Yield (map (fun a => vadd x_best (vscale delta (vsub (n_x a) x_best))) (tl pop)) (fun inds => Ret (fitness_sort (nth 0 pop nind0 :: inds))).
  (** nelder.py:153-242; with n = n_var - 1 the code's pop[n + 1] is pop[n_var].  self.pop is assigned (and changed in place) only after the
      last point of the step has been evaluated *)
  Definition nm_step (pop : list nind) : co (list nind) :=
    let worst := nth n_var pop nind0 in
    let second_worst := nth (n_var - 1) pop nind0 in
    let best := nth 0 pop nind0 in
    let keep a := Ret (fitness_sort (upd pop n_var a)) in
    let centroid := mean n_var (firstn n_var pop) in
    let dir := vsub centroid (n_x worst) in
    let alphaU := max_alpha centroid dir b in
    let x_reflect := to_bounds b (vadd centroid (vscale (qmin_inf alpha alphaU) dir)) in
    one x_reflect (fun reflect =>
      if better reflect best then
        let betaU := max_alpha centroid (vsub x_reflect centroid) b in
        let x_expand := to_bounds b (vadd centroid (vscale (qmin_inf beta betaU) (vsub x_reflect centroid))) in
        one x_expand (fun expand => if better expand reflect then keep expand else keep reflect)
      else if better reflect second_worst then keep reflect
      else if better reflect worst then
        one (vadd centroid (vscale gamma (vsub x_reflect centroid))) (fun contract =>
          if better contract reflect then keep contract else shrink_step pop)
      else
        one (vsub centroid (vscale gamma (vsub x_reflect centroid))) (fun contract =>
          if better contract worst then keep contract else shrink_step pop)).
End Step.
