(** * Specification vocabulary for local searches: running a generator, the box, "better" *)
From Coq Require Import List Arith QArith.
From Verif Require Import M_Nelder.
Import ListNotations.

(** [exec c tr r]: the generator [c] is driven to its end with some evaluations; [tr] lists the evaluated individuals in order, [r] is what it
    returns.  An evaluated individual has the X that was handed out and a constraint violation >= 0; F and CV are otherwise arbitrary *)
Inductive exec {R} : co R -> list nind -> R -> Prop :=
| exec_ret r : exec (Ret r) [] r
| exec_yield xs k inds tr r : map n_x inds = xs -> Forall (fun a => 0 <= n_cv a)%Q inds -> exec (k inds) tr r -> exec (Yield xs k) (inds ++ tr) r.

(** a point of the box; a missing bound does not restrict *)
Definition in_box (n_var : nat) (b : bnds) (x : list Q) : Prop :=
  length x = n_var /\
  (forall xl, fst b = Some xl -> forall j, (j < n_var)%nat -> (nth j xl 0 <= nth j x 0)%Q) /\
  (forall xu, snd b = Some xu -> forall j, (j < n_var)%nat -> (nth j x 0 <= nth j xu 0)%Q).
Definition bounds_ok (n_var : nat) (b : bnds) : Prop :=
  (forall xl, fst b = Some xl -> length xl = n_var) /\ (forall xu, snd b = Some xu -> length xu = n_var).

(** [a] is a strictly better solution than [b]: less violation while [b] is infeasible, or feasible with a smaller objective *)
Definition strictly_better (a b : nind) : Prop :=
  ((0 < n_cv b)%Q /\ (n_cv a < n_cv b)%Q) \/ ((n_cv a <= 0)%Q /\ (n_cv b <= 0)%Q /\ (n_f a < n_f b)%Q).
Definition at_least_as_good (a b : nind) : Prop := ~ strictly_better b a.
(** the point a step of length [t] from [x] in direction [d] *)
Definition along (x d : list Q) (t : Q) (y : list Q) : Prop :=
  length y = length x /\ forall j, (j < length x)%nat -> (nth j y 0 == nth j x 0 + t * nth j d 0)%Q.

(** ** Nelder-Mead *)
(** parameters for which the contractions and the shrink are convex combinations *)
Definition params_ok (p : params) : Prop :=
  let '(alpha, beta, gamma, delta) := p in (0 <= alpha)%Q /\ (0 <= beta)%Q /\ (0 <= gamma <= 1)%Q /\ (alpha * gamma <= 1)%Q /\ (0 <= delta <= 1)%Q.
(** a simplex: n_var + 1 evaluated points of the box *)
Definition simplex (n_var : nat) (b : bnds) (pop : list nind) : Prop :=
  length pop = S n_var /\ Forall (fun a => in_box n_var b (n_x a) /\ (0 <= n_cv a)%Q) pop.
(** sorted from best to worst: by constraint violation, then by objective *)
Definition ordered (pop : list nind) : Prop :=
  forall i j, (i < j < length pop)%nat -> let a := nth i pop nind0 in let c := nth j pop nind0 in (n_cv a < n_cv c)%Q \/ ((n_cv a == n_cv c)%Q /\ (n_f a <= n_f c)%Q).
(** a number of steps: from one population to a later one, with all points evaluated on the way *)
Inductive nm_steps (n_var : nat) (b : bnds) (p : params) : list nind -> list nind -> list nind -> Prop :=
| nms_0 pop : nm_steps n_var b p pop [] pop
| nms_S pop tr pop' tr' pop'' : exec (nm_step n_var b p pop) tr pop' -> nm_steps n_var b p pop' tr' pop'' -> nm_steps n_var b p pop (tr ++ tr') pop''.
