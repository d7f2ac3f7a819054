(** * Model of the single-objective benchmark functions with a reported optimum: /repo/pymoo/problems/single/{sphere,ackley,griewank,rastrigin,rosenbrock,zakharov,himmelblau,schwefel}.py,
    one row of X at a time, in exact real arithmetic (the floating point evaluation is not modelled; decimal literals are the decimal numbers).  None: an exception.
    Each problem: [_evaluate], the bounds, [_calc_pareto_front] (the optimal value) and [_calc_pareto_set]. *)
From Coq Require Import Reals List.
From Verif Require Import ListAux M_NSGA3R.
Import ListNotations.
Local Open Scope R_scope.

(** anp.prod *)
Definition rprod (l : list R) : R := fold_right Rmult 1 l.
(** anp.arange(1, n + 1), paired with the entries of x *)
Definition numbered (x : list R) : list (R * R) := combine (map (fun i => INR (S i)) (seq 0 (length x))) x.

(** sphere.py:9-20 *)
Definition sphere (x : list R) : R := rsum (map (fun xi => (xi - 1/2)^2) x).
Definition sphere_box : R * R := (0, 1).
Definition sphere_set (n : nat) : list R := repeat (1/2) n.
(** ackley.py:18-36 *)
Definition ackley (a b c : R) (n : nat) (x : list R) : R :=
  let part1 := -1 * a * exp (-1 * b * sqrt (1 / INR n * rsum (map (fun xi => xi * xi) x))) in
  let part2 := -1 * exp (1 / INR n * rsum (map (fun xi => cos (c * xi)) x)) in
  part1 + part2 + a + exp 1.
Definition ackley_box : R * R := (- (32768 / 1000), 32768 / 1000).
Definition ackley_set (n : nat) : list R := repeat 0 n.
(** griewank.py:9-24 *)
Definition griewank (x : list R) : R :=
  1 + 1 / 4000 * rsum (map (fun xi => xi^2) x) - rprod (map (fun ix => cos (snd ix / sqrt (fst ix))) (numbered x)).
Definition griewank_box : R * R := (-600, 600).
Definition griewank_set (n : nat) : list R := repeat 0 n.
(** rastrigin.py:9-22 *)
Definition rastrigin (A : R) (n : nat) (x : list R) : R :=
  A * INR n + rsum (map (fun xi => xi^2 - A * cos (2 * PI * xi)) x).
Definition rastrigin_box : R * R := (-5, 5).
Definition rastrigin_set (n : nat) : list R := repeat 0 n.
(** rosenbrock.py:9-24; with one variable column_stack([]) raises *)
Fixpoint rosen_terms (x : list R) : list R :=
  match x with
  | a :: ((b :: _) as x') => (100 * (b - a^2)^2 + (1 - a)^2) :: rosen_terms x'
  | _ => []
  end.
Definition rosenbrock (x : list R) : option R := match rosen_terms x with [] => None | t => Some (rsum t) end.
Definition rosenbrock_box : R * R := (- (2048 / 1000), 2048 / 1000).
Definition rosenbrock_set (n : nat) : list R := repeat 1 n.
(** zakharov.py:9-21 *)
Definition zakharov (x : list R) : R :=
  let a := rsum (map (fun ix => 1/2 * fst ix * snd ix) (numbered x)) in
  rsum (map (fun xi => xi^2) x) + a^2 + a^4.
Definition zakharov_box : R * R := (-10, 10).
Definition zakharov_set (n : nat) : list R := repeat 0 n.
(** himmelblau.py:6-22 *)
Definition himmelblau (x y : R) : R := (x^2 + y - 11)^2 + (x + y^2 - 7)^2.
Definition himmelblau_box : R * R := (-6, 6).
Definition himmelblau_set : list (R * R) :=
  [(3, 2); (- (2805118 / 1000000), 3131312 / 1000000); (- (3779310 / 1000000), - (3283186 / 1000000)); (3584428 / 1000000, - (1848126 / 1000000))].
(** schwefel.py:9-20 *)
Definition schwefel (n : nat) (x : list R) : R := 4189829 / 10000 * INR n - rsum (map (fun xi => xi * sin (sqrt (Rabs xi))) x).
Definition schwefel_box : R * R := (-500, 500).
Definition schwefel_set (n : nat) : list R := repeat (4209687 / 10000) n.
(** [_calc_pareto_front] of all of them *)
Definition bench_front : R := 0.
