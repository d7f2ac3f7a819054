(** * Model of /repo/pymoo/algorithms/soo/nonconvex/pso_ep.py ([EPPSO], [Swarm], [get_neighbors]) and
      /repo/pymoo/algorithms/soo/nonconvex/nrbo.py ([NRBO]).
      Modelled: ranks, personal and local bests, messages between neighbours, the reported optimum; velocity and position of EPPSO and the final repair
      of NRBO in exact arithmetic; NRBO's step factor.
      Not modelled: the parameter control of the swarm (w, c1, c2 are arbitrary), the sliding windows [delta] (never read), the topology "random-adaptive"
      (not among the options of the class), NRBO's search rule (its result is an arbitrary vector). *)
From Coq Require Import List Arith Bool QArith.
From Verif Require Import Flt ListAux M_Survival M_Bounds M_Swarm.
Import ListNotations.
Local Open Scope nat_scope.

(** pso_ep.py:153-167 [get_neighbors] *)
Definition star_neighbors (N : nat) : list (list nat) := map (fun _ => seq 0 N) (seq 0 N).
Definition ring_neighbors (N : nat) : list (list nat) := map (fun k => map (fun j => (j + k + N - 1) mod N) [0; 1; 2]) (seq 0 N).

(** pso_ep.py:271-274: the messages particle [k] receives, in order *)
Definition messages (neighbors : list (list nat)) (k : nat) : list nat :=
  flat_map (fun j => map (fun _ => j) (filter (Nat.eqb k) (nth j neighbors []))) (seq 0 (length neighbors)).
(** msg[rank[msg].argmin()], the first of the smallest *)
Definition min_rank (rank : nat -> nat) (i0 : nat) (msg : list nat) : nat := fold_left (fun b j => if rank j <? rank b then j else b) msg i0.

Section EPPSO.
  Context {A : Type} (d : A) (view : A -> ind1) (close : A -> A -> bool) (hc : bool).
  (** np.lexsort([F, cv]) on the pairs (cv, F) *)
  Variable lex : list (flt * flt) -> list nat.

  (** ga.py:29-34 / nrbo.py:26-31 [FitnessSurvival._do]: the order [S] and the ranks np.argsort(S), i.e. the inverse permutation; pso_ep.py:289-291 and nrbo.py:177-179 [_set_optimum], the individuals of rank 0, is [de_opt] of M_Swarm *)
  Definition order (pop : list A) : list nat := lex (map (fun a => (o_cv (view a), o_f (view a))) pop).
  Definition rank (pop : list A) (i : nat) : nat := pos i (order pop).
  (** core/replacement.py:11-22 [is_better] with eps = 0 *)
  Definition isb (new old : A) : bool :=
    if negb (o_feas (view old)) && negb (o_feas (view new)) && fltb (o_cv (view new)) (o_cv (view old)) then true
    else if negb (o_feas (view old)) && o_feas (view new) then true
    else o_feas (view old) && o_feas (view new) && fltb (o_f (view new)) (o_f (view old)).

  (** pso_ep.py:276-285: the new local best of particle [k] *)
  Definition receive (neighbors : list (list nat)) (pbest lbest : list A) (k : nat) : A :=
    let l := nth k lbest d in
    match messages neighbors k with
    | [] => l
    | i0 :: msg => let i := min_rank (rank pbest) i0 msg in if isb (nth i pbest d) l then nth i pbest d else l
    end.
  (** pso_ep.py:249-287 [_advance]: personal bests (in place) and local bests *)
  Definition ep_advance (neighbors : list (list nat)) (st : list A * list A) (infills : list A) : list A * list A :=
    let pbest := pso_advance d view close hc (fst st) infills in
    (pbest, map (receive neighbors pbest (snd st)) (seq 0 (length pbest))).
  (** pso_ep.py:237-247 [_initialize_advance] and then any number of iterations *)
  Definition ep_run (neighbors : list (list nat)) (init : list A) (gens : list (list A)) : list A * list A :=
    fold_left (ep_advance neighbors) gens (init, init).

  (** nrbo.py:109-110 [_initialize_advance]: the population sorted; 170-175 [_advance] *)
  Definition nrbo_init (infills : list A) : list A := gather d infills (order infills).
  Definition nrbo_run (init : list A) (gens : list (list A)) : list A := pso_run d view close hc gens (nrbo_init init).
End EPPSO.

Local Open Scope Q_scope.
(** pso_ep.py:27-35 [pso_canonical] and 88-129 [Swarm.do], one coordinate: raw velocity, clamped velocity, repaired position, recomputed velocity; [u1], [u2] the random numbers of the repair *)
Definition ep_raw (v x p l w c1 c2 r1 r2 : Q) : Q := w * v + c1 * r1 * (p - x) + c2 * r2 * (l - x).
Definition clampQ (x l u : Q) : Q := let x := if Qltb x l then l else x in if Qltb u x then u else x.
Definition ep_move (v x p l w c1 c2 r1 r2 : Q) (V_max : option Q) (xl xu u1 u2 : Q) : Q * Q :=
  let raw := ep_raw v x p l w c1 c2 r1 r2 in
  let vp := match V_max with None => raw | Some m => clampQ raw (- m * (xu - xl)) (m * (xu - xl)) end in
  let xp := repair_random_init (x + vp) x xl xu u1 u2 in
  (xp, xp - x).
(** nrbo.py:113 the factor of the Newton step *)
Definition nrbo_delta (n_iter max_iteration : Q) : Q := (1 - (2 * n_iter) / max_iteration) ^ 5.
(** nrbo.py:161-163 *)
Definition nrbo_position (computed x xl xu u1 u2 : Q) : Q := repair_random_init computed x xl xu u1 u2.
