(** * Model of the adaptive inertia weight of particle swarm optimisation, /repo/pymoo/algorithms/soo/nonconvex/pso.py:338, over the real numbers *)
From Coq Require Import Reals.
Local Open Scope R_scope.
(** pso.py:338: w = 1 / (1 + 1.5 * np.exp(-2.6 * f)) *)
Definition pso_inertia (f : R) : R := 1 / (1 + 3 / 2 * exp (- (13 / 5) * f)).
