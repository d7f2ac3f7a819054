(** * Specification for the pattern search *)
From Coq Require Import List Arith QArith.
From Verif Require Import M_Nelder M_Pattern S_Local.
Import ListNotations.

(** a number of iterations from a state and a reported optimum; [tr]: everything evaluated on the way.  Each iteration may use its own order of
    the variables *)
Inductive pattern_steps (b : bnds) (init_rho step_size : Q) (delta : list Q) (n_var : nat) : pst * nind -> list nind -> pst * nind -> Prop :=
| pas_0 s : pattern_steps b init_rho step_size delta n_var s [] s
| pas_S st opt K tr st' tr' s'' : Forall (fun k => (k < n_var)%nat) K -> exec (pattern_next b init_rho step_size delta K st) tr st' ->
    pattern_steps b init_rho step_size delta n_var (st', pattern_opt opt st') tr' s'' -> pattern_steps b init_rho step_size delta n_var (st, opt) (tr ++ tr') s''.
