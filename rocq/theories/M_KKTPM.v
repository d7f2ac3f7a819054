(** * Model of the Karush-Kuhn-Tucker proximity measure: /repo/pymoo/indicators/kktpm.py.
    Arrays are functions of their indices, with the dimensions given separately; real arithmetic.
    np.linalg.qr and np.linalg.solve are represented by an exact solver, given as an argument (None: LinAlgError, the matrix is singular). *)
From Coq Require Import List Arith Bool Reals.
Import ListNotations.
Local Open Scope R_scope.

(** sum of f over the indices below n *)
Fixpoint vsum (n : nat) (f : nat -> R) : R := match n with O => 0 | S n => vsum n f + f n end.
(** what the problem returns for a solution: objectives F, constraints G (feasible: not positive) and the gradients dF (objective, variable), dG (constraint, variable) *)
Record point := { n_var : nat; n_obj : nat; n_ieq : nat; F : nat -> R; G : nat -> R; dF : nat -> nat -> R; dG : nat -> nat -> R }.
Definition solver := nat -> (nat -> nat -> R) -> (nat -> R) -> option (nat -> R).
Inductive outcome := Value (r : R) | Raises | Running.

Section Measure.
  Variable solve : solver.
  Variables (rho : R) (z : nat -> R) (pt : point).
  (** line 59: w = sqrt(sum((f - z) ** 2)) / (f - z) *)
  Definition w (m : nat) : R := sqrt (vsum (n_obj pt) (fun l => (F pt l - z l) ^ 2)) / (F pt m - z m).
  (** lines 60, 66-67: the rows of a_m, followed by those of a_j *)
  Definition arow (q k : nat) : R :=
    if (q <? n_obj pt)%nat then dF pt q k * w q + rho * vsum (n_obj pt) (fun m => dF pt m k * w m) else dG pt (q - n_obj pt) k.
  (** lines 62, 70-79: the matrix *)
  Definition A0 (p q : nat) : R :=
    (if (p <? n_obj pt)%nat && (q <? n_obj pt)%nat then 1 else 0) + vsum (n_var pt) (fun k => arow p k * arow q k)
    + (if (p =? q)%nat && negb (p <? n_obj pt)%nat then G pt (p - n_obj pt) * G pt (p - n_obj pt) else 0).
  (** lines 63, 80 *)
  Definition b0 (p : nat) : R := if (p <? n_obj pt)%nat then 1 else 0.
  Definition size : nat := (n_obj pt + n_ieq pt)%nat.
  (** lines 92-93: A[j, :], A[:, j], A[j, j] = 0, 0, 1; b[j] = 0 *)
  Definition fix_matrix (A : nat -> nat -> R) (j p q : nat) : R := if (p =? j)%nat || (q =? j)%nat then (if (p =? j)%nat && (q =? j)%nat then 1 else 0) else A p q.
  Definition fix_rhs (b : nat -> R) (j p : nat) : R := if (p =? j)%nat then 0 else b p.
  Definition state := ((nat -> nat -> R) * (nat -> R) * (nat -> R))%type.
  (** lines 88-96: one index *)
  Definition fix_step (st : option state) (j : nat) : option state :=
    match st with
    | None => None
    | Some (A, b, u) => if Rlt_dec (u j) 0 then option_map (fun u => (fix_matrix A j, fix_rhs b j, u)) (solve size (fix_matrix A j) (fix_rhs b j)) else st
    end.
  (** np.any(u < 0) *)
  Definition any_negative (u : nat -> R) : bool := existsb (fun j => if Rlt_dec (u j) 0 then true else false) (seq 0 size).
  Inductive multipliers := Done (u : nat -> R) | Singular | Loops.
  (** lines 86-96: the while loop; Loops: not over after [fuel] passes *)
  Fixpoint fix_loop (fuel : nat) (st : option state) : multipliers :=
    match st with
    | None => Singular
    | Some (_, _, u) => if any_negative u then match fuel with O => Loops | S fuel => fix_loop fuel (fold_left fix_step (seq 0 size) st) end else Done u
    end.
  (** lines 82-83 *)
  Definition find_multipliers (fuel : nat) : multipliers := fix_loop fuel (option_map (fun u => (A0, b0, u)) (solve size A0 b0)).
  (** lines 99-112: the measure, given the multipliers *)
  Definition direct (u : nat -> R) : R := (1 - vsum (n_obj pt) u) ^ 2 + vsum (n_var pt) (fun k => vsum size (fun q => arow q k * u q) ^ 2).
  Definition measure (u : nat -> R) : R :=
    let ug := vsum (n_ieq pt) (fun j => G pt j * u (n_obj pt + j)%nat) in
    let gg := vsum (n_ieq pt) (fun j => G pt j * G pt j) in
    if Rlt_dec 1 (vsum (n_obj pt) u + - ug * (1 + - ug)) then (direct u + - ug + (direct u * gg - ug) / (1 + gg)) / 3 else direct u.
  (** line 44; individual.py:559-620 [calc_cv] with the default configuration *)
  Definition cv : R := vsum (n_ieq pt) (fun j => Rmax 0 (G pt j)).
  (** lines 47-115, one solution; without constraints, line 108 uses g before it is assigned (UnboundLocalError) *)
  Definition kktpm (fuel : nat) : outcome :=
    if Rlt_dec 0 cv then Value (1 + cv)
    else match find_multipliers fuel with
         | Done u => if (n_ieq pt =? 0)%nat then Raises else Value (measure u)
         | Singular => Raises
         | Loops => Running
         end.
End Measure.
(** [calc]: line 37 (z -= utopian_eps) changes the array of the ideal point it is given (resp. the one cached by problem.ideal_point()); returned: that array afterwards, and the outcomes *)
Definition calc (solve : solver) (fuel : nat) (rho utopian_eps : R) (ideal : nat -> R) (pts : list point) : (nat -> R) * list outcome :=
  let z := fun m => ideal m - utopian_eps in (z, map (fun pt => kktpm solve rho z pt fuel) pts).
(** k calls one after the other with the same array (e.g. all with the ideal point of the problem): the outcomes of each *)
Fixpoint calls (solve : solver) (fuel : nat) (rho utopian_eps : R) (ideal : nat -> R) (xs : list (list point)) : (nat -> R) * list (list outcome) :=
  match xs with
  | [] => (ideal, [])
  | pts :: xs => let r := calc solve fuel rho utopian_eps ideal pts in let rs := calls solve fuel rho utopian_eps (fst r) xs in (fst rs, snd r :: snd rs)
  end.
