(** * Model of /repo/pymoo/algorithms/moo/moead.py (MOEAD, ParallelMOEAD, NeighborhoodSelection) on top of LoopwiseAlgorithm
    (/repo/pymoo/core/algorithm.py:371-395) and Decomposition.do (M_Decomp).
    Individuals carry an identity and their objectives; the offspring produced by the mating is arbitrary.  Objectives are finite
    (rational) numbers; the scalarisation [sc] and the rounding [rnd] are arbitrary.  Random numbers are arguments. *)
From Coq Require Import List Arith Bool ZArith QArith.
From Verif Require Import ListAux M_Individual M_Survival M_Decomp M_Norm.
Import ListNotations.
Local Open Scope nat_scope.

Record mind := { m_id : nat; m_f : list Q }.
Definition mind0 : mind := {| m_id := 0; m_f := [] |}.
Definition Qlt_b (a b : Q) : bool := negb (Qle_bool b a).

(** moead.py:101-103: [order] is the row-wise np.argsort of the distance matrix *)
Definition neighbors (order : list (list nat)) (n_neighbors : nat) : list (list nat) := map (firstn n_neighbors) order.

(** moead.py:25-46: [draw k] is the uniform number, [choice k l c] the choice without replacement (None: not enough candidates),
    [perm k n] the permutation; None: an exception.  n_select = length neigh (asserted in line 35) *)
Definition nb_select (prob : nat -> Q) (draw : nat -> Q) (choice : nat -> list nat -> nat -> option (list nat)) (perm : nat -> nat -> list nat)
  (n_pop n_parents : nat) (neigh : list (list nat)) : list (option (list nat)) :=
  map (fun k => if Qlt_b (draw k) (prob k) then choice k (nth k neigh []) n_parents else Some (firstn n_parents (perm k n_pop))) (seq 0 (length neigh)).

Section MOEAD.
  Variables (sc : scal) (rnd : Q -> Q) (eps : Q) (m : nat) (W : list (list Q)) (nb : list (list nat)).

  (** np.where(off_FV < FV)[0]: the rows; a first argument with one row is broadcast *)
  Definition where_less (o f : dout) : option (list nat) :=
    match o, f with
    | D1 o, D1 f => Some (where_ (fun i => Qlt_b (nth i o 0%Q) (nth i f 0%Q)) (length f))
    | D2 [o], D2 rows => Some (concat (map (fun i => repeat i (length (filter (fun j => Qlt_b (nth j o 0%Q) (nth j (nth i rows []) 0%Q)) (seq 0 (length o))))) (seq 0 (length rows))))
    | _, _ => None
    end.
  (** moead.py:149-165; None: an exception *)
  Definition replace (ideal : list Q) (k : nat) (off : mind) (pop : list mind) : option (list mind) :=
    let N := nth k nb [] in
    let FV := decomp_do sc rnd eps TAuto (A2 m (map m_f (gather mind0 pop N))) (A2 m (gather [] W N)) TAuto (Some ideal) None in
    let off_FV := decomp_do sc rnd eps TAuto (A2 m [m_f off]) (A2 m (gather [] W N)) TAuto (Some ideal) None in
    match off_FV, FV with
    | Some o, Some f => match where_less o f with
                        | Some J => Some (fold_left (fun p i => upd p i off) (gather 0 N J) pop)
                        | None => None
                        end
    | _, _ => None
    end.

  (** the state: population, ideal point, the generator of [_next] (the subproblems still to come in this sweep, and the one whose
      offspring is pending) and the iteration counter *)
  Record mst := { s_pop : list mind; s_ideal : list Q; s_todo : list nat; s_cur : option nat; s_iter : nat }.
  (** moead.py:109-111; core/algorithm.py: the population is the initial sample, the counter goes from 1 to 2 *)
  Definition moead_init (pop : list mind) : mst := {| s_pop := pop; s_ideal := col_min m (map m_f pop); s_todo := []; s_cur := None; s_iter := 2 |}.
  (** LoopwiseAlgorithm._infill: a finished generator is started again, moead.py:117 with the permutation [p] *)
  Definition moead_infill (p : list nat) (st : mst) : mst :=
    match s_cur st with
    | Some _ => st
    | None => match p with
              | [] => st
              | k :: p => {| s_pop := s_pop st; s_ideal := s_ideal st; s_todo := p; s_cur := Some k; s_iter := s_iter st |}
              end
    end.
  (** LoopwiseAlgorithm._advance with the evaluated offspring: moead.py:141-147 and on to the next subproblem; the iteration
      counter is increased only when the sweep is over (core/algorithm.py:229-233) *)
  Definition moead_advance (off : mind) (st : mst) : option mst :=
    match s_cur st with
    | None => None
    | Some k =>
        let ideal := col_min m [s_ideal st; m_f off] in
        match replace ideal k off (s_pop st) with
        | None => None
        | Some pop =>
            match s_todo st with
            | [] => Some {| s_pop := pop; s_ideal := ideal; s_todo := []; s_cur := None; s_iter := S (s_iter st) |}
            | k :: todo => Some {| s_pop := pop; s_ideal := ideal; s_todo := todo; s_cur := Some k; s_iter := s_iter st |}
            end
        end
    end.
  (** one call of [next]: the permutation that is drawn in case a sweep starts, and the offspring; the result also tells the
      subproblem treated *)
  Definition moead_next (p : list nat) (off : mind) (st : mst) : option (nat * mst) :=
    let st := moead_infill p st in
    match s_cur st, moead_advance off st with Some k, Some st => Some (k, st) | _, _ => None end.
  (** a run: the events are the arguments of [next], the trace the pairs (subproblem, offspring) *)
  Fixpoint moead_run (evs : list (list nat * mind)) (st : mst) : option (list (nat * mind) * mst) :=
    match evs with
    | [] => Some ([], st)
    | (p, off) :: evs =>
        match moead_next p off st with
        | None => None
        | Some (k, st) => match moead_run evs st with None => None | Some (tr, st) => Some ((k, off) :: tr, st) end
        end
    end.

  (** ParallelMOEAD._advance, moead.py:207-215: [infills] pairs of subproblem and offspring *)
  Fixpoint replace_all (ideal : list Q) (infills : list (nat * mind)) (pop : list mind) : option (list mind) :=
    match infills with
    | [] => Some pop
    | (k, off) :: infills => match replace ideal k off pop with None => None | Some pop => replace_all ideal infills pop end
    end.
  Definition parallel_advance (infills : list (nat * mind)) (st : list mind * list Q) : option (list mind * list Q) :=
    let ideal := col_min m (snd st :: map (fun ko => m_f (snd ko)) infills) in
    match replace_all ideal infills (fst st) with None => None | Some pop => Some (pop, ideal) end.
End MOEAD.

(** core/crossover.py:35, 65: [n] matings with [q] children each; the array of shape (q, n, n_var) is flattened.  An entry (k, j) is the
    j-th child of mating k *)
Definition crossover_layout (n q : nat) : list (nat * nat) := concat (map (fun j => map (fun k => (k, j)) (seq 0 n)) (seq 0 q)).
(** moead.py:200: np.reshape(off, (n_offsprings, -1)); [pick k] is the column drawn for row k *)
Definition parallel_pick (n q : nat) (pick : nat -> nat) : list (nat * nat) :=
  map2 (fun k pool => nth (pick k) pool (0, 0)) (seq 0 n) (reshape n q (crossover_layout n q)).
