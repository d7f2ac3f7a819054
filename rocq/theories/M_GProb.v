(** * Model of problems of the CEC 2006 suite: /repo/pymoo/problems/single/g.py (G1, G3, G4, G6, G7, G11, G12, G24).
    Solutions are functions of the index of the variable; real arithmetic.  A problem: number of variables, bounds, objective, inequality constraints (feasible: not positive),
    equality constraints (feasible: zero), and what pareto_set() reports.  pareto_front(): the objective there (lines 18-21; G1: -15, line 54). *)
From Coq Require Import List Arith Reals.
From Verif Require Import M_KKTPM.
Import ListNotations.
Local Open Scope R_scope.

Notation sol := (nat -> R).
Record gproblem := { g_n : nat; g_lo : sol; g_hi : sol; g_f : sol -> R; g_ineq : list (sol -> R); g_eq : list (sol -> R); g_reported : sol }.
Fixpoint vprod (n : nat) (f : nat -> R) : R := match n with O => 1 | S n => vprod n f * f n end.
Definition at_ (l : list R) : sol := fun i => nth i l 0.

(** lines 24-57 *)
Definition G1 : gproblem := {|
  g_n := 13; g_lo := fun _ => 0; g_hi := at_ [1; 1; 1; 1; 1; 1; 1; 1; 1; 100; 100; 100; 1];
  g_f := fun x => 5 * vsum 4 x - 5 * vsum 4 (fun j => x j ^ 2) - vsum 9 (fun j => x (4 + j)%nat);
  g_ineq := [(fun x => 2 * x 0%nat + 2 * x 1%nat + x 9%nat + x 10%nat - 10); (fun x => 2 * x 0%nat + 2 * x 2%nat + x 9%nat + x 11%nat - 10); (fun x => 2 * x 1%nat + 2 * x 2%nat + x 10%nat + x 11%nat - 10);
             (fun x => -8 * x 0%nat + x 9%nat); (fun x => -8 * x 1%nat + x 10%nat); (fun x => -8 * x 2%nat + x 11%nat);
             (fun x => -2 * x 3%nat - x 4%nat + x 9%nat); (fun x => -2 * x 5%nat - x 6%nat + x 10%nat); (fun x => -2 * x 7%nat - x 8%nat + x 11%nat)];
  g_eq := []; g_reported := at_ [1; 1; 1; 1; 1; 1; 1; 1; 1; 3; 3; 3; 1] |}.
(** lines 126-142 *)
Definition G3 (n : nat) : gproblem := {|
  g_n := n; g_lo := fun _ => 0; g_hi := fun _ => 1;
  g_f := fun x => - (sqrt (INR n) ^ n) * vprod n x; g_ineq := []; g_eq := [(fun x => vsum n (fun i => x i ^ 2) - 1)];
  g_reported := fun _ => 1 / sqrt (INR n) |}.
(** lines 145-171 *)
Definition G4_u (x : sol) := 85334407 / 1000000 + 56858 / 10000000 * x 1%nat * x 4%nat + 6262 / 10000000 * x 0%nat * x 3%nat - 22053 / 10000000 * x 2%nat * x 4%nat.
Definition G4_v (x : sol) := 8051249 / 100000 + 71317 / 10000000 * x 1%nat * x 4%nat + 29955 / 10000000 * x 0%nat * x 1%nat + 21813 / 10000000 * x 2%nat ^ 2.
Definition G4_w (x : sol) := 9300961 / 1000000 + 47026 / 10000000 * x 2%nat * x 4%nat + 12547 / 10000000 * x 0%nat * x 2%nat + 19085 / 10000000 * x 2%nat * x 3%nat.
Definition G4 : gproblem := {|
  g_n := 5; g_lo := at_ [78; 33; 27; 27; 27]; g_hi := at_ [102; 45; 45; 45; 45];
  g_f := fun x => 53578547 / 10000000 * x 2%nat ^ 2 + 8356891 / 10000000 * x 0%nat * x 4%nat + 37293239 / 1000000 * x 0%nat - 40792141 / 1000;
  g_ineq := [(fun x => - G4_u x); (fun x => G4_u x - 92); (fun x => - G4_v x + 90); (fun x => G4_v x - 110); (fun x => - G4_w x + 20); (fun x => G4_w x - 25)];
  g_eq := []; g_reported := at_ [78; 33; 299952560256815985 / 10000000000000000; 45; 367758129057882073 / 10000000000000000] |}.
(** lines 208-226 *)
Definition G6 : gproblem := {|
  g_n := 2; g_lo := at_ [13; 0]; g_hi := at_ [100; 100]; g_f := fun x => (x 0%nat - 10) ^ 3 + (x 1%nat - 20) ^ 3;
  g_ineq := [(fun x => - ((x 0%nat - 5) ^ 2) - (x 1%nat - 5) ^ 2 + 100); (fun x => (x 0%nat - 6) ^ 2 + (x 1%nat - 5) ^ 2 - 8281 / 100)];
  g_eq := []; g_reported := at_ [14095 / 1000; 5 - sqrt (100 - (14095 / 1000 - 5) ^ 2)] |}.
(** lines 229-282 *)
Definition G7 : gproblem := {|
  g_n := 10; g_lo := fun _ => -10; g_hi := fun _ => 10;
  g_f := fun x => x 0%nat ^ 2 + x 1%nat ^ 2 + x 0%nat * x 1%nat - 14 * x 0%nat - 16 * x 1%nat + (x 2%nat - 10) ^ 2 + 4 * (x 3%nat - 5) ^ 2 + (x 4%nat - 3) ^ 2 + 2 * (x 5%nat - 1) ^ 2 + 5 * x 6%nat ^ 2 + 7 * (x 7%nat - 11) ^ 2 + 2 * (x 8%nat - 10) ^ 2 + (x 9%nat - 7) ^ 2 + 45;
  g_ineq := [(fun x => 4 * x 0%nat + 5 * x 1%nat - 3 * x 6%nat + 9 * x 7%nat - 105);
             (fun x => 10 * x 0%nat - 8 * x 1%nat - 17 * x 6%nat + 2 * x 7%nat);
             (fun x => -8 * x 0%nat + 2 * x 1%nat + 5 * x 8%nat - 2 * x 9%nat - 12);
             (fun x => 3 * (x 0%nat - 2) ^ 2 + 4 * (x 1%nat - 3) ^ 2 + 2 * x 2%nat ^ 2 - 7 * x 3%nat - 120);
             (fun x => 5 * x 0%nat ^ 2 + 8 * x 1%nat + (x 2%nat - 6) ^ 2 - 2 * x 3%nat - 40);
             (fun x => x 0%nat ^ 2 + 2 * (x 1%nat - 2) ^ 2 - 2 * x 0%nat * x 1%nat + 14 * x 4%nat - 6 * x 5%nat);
             (fun x => 1 / 2 * (x 0%nat - 8) ^ 2 + 2 * (x 1%nat - 4) ^ 2 + 3 * x 4%nat ^ 2 - x 5%nat - 30);
             (fun x => -3 * x 0%nat + 6 * x 1%nat + 12 * (x 8%nat - 8) ^ 2 - 7 * x 9%nat)];
  g_eq := [];
  g_reported := at_ [2171997834812 / 1000000000000; 2363679362798 / 1000000000000; 8773925117415 / 1000000000000; 5095984215855 / 1000000000000; 990655966387 / 1000000000000;
                     1430578427576 / 1000000000000; 1321647038816 / 1000000000000; 9828728107011 / 1000000000000; 8280094195305 / 1000000000000; 8375923511901 / 1000000000000] |}.
(** lines 378-392 (an inequality here, an equality in the CEC suite) *)
Definition G11 : gproblem := {|
  g_n := 2; g_lo := fun _ => -1; g_hi := fun _ => 1; g_f := fun x => x 0%nat ^ 2 + (x 1%nat - 1) ^ 2; g_ineq := [(fun x => x 1%nat - x 0%nat ^ 2)]; g_eq := [];
  g_reported := at_ [- sqrt (1 / 2); 1 / 2] |}.
(** lines 395-417; the minimum over the spheres starts with the first one instead of infinity *)
Definition sphere (x : sol) (c : nat * nat * nat) : R := let '(i, j, k) := c in (x 0%nat - INR i) ^ 2 + (x 1%nat - INR j) ^ 2 + (x 2%nat - INR k) ^ 2 - 625 / 10000.
Definition centres : list (nat * nat * nat) := flat_map (fun i => flat_map (fun j => map (fun k => (i, j, k)) (seq 1 9)) (seq 1 9)) (seq 1 9).
Definition G12 : gproblem := {|
  g_n := 3; g_lo := fun _ => 0; g_hi := fun _ => 10; g_f := fun x => -1 + 1 / 100 * ((x 0%nat - 5) ^ 2 + (x 1%nat - 5) ^ 2 + (x 2%nat - 5) ^ 2);
  g_ineq := [(fun x => fold_left (fun g c => Rmin g (sphere x c)) centres (sphere x (1, 1, 1)%nat))]; g_eq := []; g_reported := fun _ => 5 |}.
(** lines 1252-1267 *)
Definition G24 : gproblem := {|
  g_n := 2; g_lo := fun _ => 0; g_hi := at_ [3; 4]; g_f := fun x => - x 0%nat - x 1%nat;
  g_ineq := [(fun x => -2 * x 0%nat ^ 4 + 8 * x 0%nat ^ 3 - 8 * x 0%nat ^ 2 + x 1%nat - 2); (fun x => -4 * x 0%nat ^ 4 + 32 * x 0%nat ^ 3 - 88 * x 0%nat ^ 2 + 96 * x 0%nat + x 1%nat - 36)];
  g_eq := []; g_reported := at_ [2329520197477607 / 1000000000000000; 317849307411768 / 100000000000000] |}.
