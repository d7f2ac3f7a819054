(** * Model of the DIRECT algorithm, /repo/pymoo/algorithms/soo/nonconvex/direct.py.
    Exact arithmetic; objective values and constraint violations are finite.  The sorters it calls (NonDominatedSorting and
    RankAndCrowdingSurvival, modelled elsewhere) and np.argsort of the ranks are arbitrary functions. *)
From Coq Require Import List Arith Bool ZArith QArith.
From Verif Require Import ListAux M_Individual M_Survival M_RefDirs2 M_Norm.
Import ListNotations.
Local Open Scope Q_scope.

(** an individual of the archive with the attributes "xl", "xu", "depth" and its evaluation *)
Record dind := { d_x : list Q; d_xl : list Q; d_xu : list Q; d_depth : nat; d_f : list Q; d_cv : Q }.

(** direct.py:48-58 [_setup]: the centre of the search space, by denormalize(0.5) *)
Definition direct_setup (bs : list bnd) (xl xu : list Q) : dind :=
  {| d_x := nth 0 (zto_backward false bs [map (fun _ => 1 # 2) xl]) []; d_xl := xl; d_xu := xu; d_depth := 0; d_f := []; d_cv := 0 |}.
(** direct.py:14-17 [norm_bounds] for one individual, as the side lengths nxu - nxl *)
Definition sides (bs : list bnd) (i : dind) : list Q := map2 Qminus (map2 zto_forward1 bs (d_xu i)) (map2 zto_forward1 bs (d_xl i)).
(** direct.py:20-27 [update_bounds] *)
Definition update_bounds (i : dind) (xl xu : list Q) (k : nat) (delta : Q) : dind :=
  {| d_x := d_x i; d_xl := upd xl k (nth k (d_x i) 0 - delta); d_xu := upd xu k (nth k (d_x i) 0 + delta);
     d_depth := d_depth i; d_f := d_f i; d_cv := d_cv i |}.
(** direct.py:124-150: the divided individual and its two offspring (not yet evaluated); None: no variable *)
Definition divide (bs : list bnd) (i : dind) : option (dind * dind * dind) :=
  match argmaxQ (sides bs i) with
  | None => None
  | Some k =>
      let xl := d_xl i in let xu := d_xu i in
      let delta := (nth k xu 0 - nth k xl 0) / 6 in
      let new x := {| d_x := x; d_xl := []; d_xu := []; d_depth := S (d_depth i); d_f := []; d_cv := 0 |} in
      let left := new (upd (d_x i) k (nth k xl 0 + delta)) in
      let right := new (upd (d_x i) k (nth k xu 0 - delta)) in
      Some (update_bounds i xl xu k delta, update_bounds left xl xu k delta, update_bounds right xl xu k delta)
  end.
Definition d0 : dind := {| d_x := []; d_xl := []; d_xu := []; d_depth := 0; d_f := []; d_cv := 0 |}.
(** direct.py:117-156 [_infill]: the selected members (positions in the archive) are divided in place *)
Fixpoint direct_infill (bs : list bnd) (pop infills : list dind) (sel : list nat) : option (list dind * list dind) :=
  match sel with
  | [] => Some (pop, infills)
  | i :: sel =>
      match divide bs (nth i pop d0) with
      | None => None
      | Some (cur, l, r) => direct_infill bs (upd pop i cur) (infills ++ [l; r]) sel
      end
  end.

(** parameters: penalty, n_max_candidates, n_max_archive, int(archive_reduct * n_max_archive); the sorters *)
Record dconf := { c_penalty : Q; c_max_candidates : nat; c_max_archive : nat; c_truncated : nat;
                  c_front : list (list Q) -> list nat;              (* NonDominatedSorting().do(obj, only_non_dominated_front=True) *)
                  c_rank_order : list (list Q) -> list nat;         (* np.argsort of the ranks of NonDominatedSorting().do(obj, return_rank=True) *)
                  c_crowding : list dind -> nat -> list nat }.      (* RankAndCrowdingSurvival().do, as positions *)
(** direct.py:70-79: -val followed by F, for each member; [m] objectives; None: an assertion fails *)
Definition direct_obj (c : dconf) (bs : list bnd) (m : nat) (pop : list dind) : option (list (list Q)) :=
  match normalize false m (map d_f pop) None None with
  | None => None
  | Some nF => Some (map2 (fun i f => - (qsum (map (fun s => s / 2) (sides bs i)) / inject_Z (Z.of_nat (length bs)))
                                       :: map (fun y => y + c_penalty c * d_cv i) f) pop nF)
  end.
(** direct.py:63-115 [_potential_optimal]: the (possibly truncated) archive and the positions of the selected members *)
Definition potential_optimal (c : dconf) (bs : list bnd) (m : nat) (pop : list dind) : option (list dind * list nat) :=
  if (length pop =? 1)%nat then Some (pop, [0%nat])
  else match direct_obj c bs m pop with
       | None => None
       | Some obj =>
           let '(pop, obj) := if (c_max_archive c <? length pop)%nat
                              then let J := firstn (c_truncated c) (c_rank_order c obj) in (gather d0 pop J, gather [] obj J)
                              else (pop, obj) in
           let J := c_front c obj in
           if (length J =? 1)%nat then Some (pop, J)
           else if (c_max_candidates c <? length J)%nat then Some (pop, c_crowding c pop (c_max_candidates c))   (* pop, not candidates *)
           else Some (pop, J)
       end.
(** the evaluator fills in the values of the infills: an arbitrary function, which may differ between iterations *)
Definition evaluated (eval : dind -> list Q * Q) (infills : list dind) : list dind :=
  map (fun i => {| d_x := d_x i; d_xl := d_xl i; d_xu := d_xu i; d_depth := d_depth i; d_f := fst (eval i); d_cv := snd (eval i) |}) infills.
(** one iteration: _infill, evaluation, _advance (direct.py:158-160) *)
Definition direct_iter (c : dconf) (bs : list bnd) (m : nat) (pop : list dind) (eval : dind -> list Q * Q) : option (list dind) :=
  match potential_optimal c bs m pop with
  | None => None
  | Some (pop, sel) => match direct_infill bs pop [] sel with None => None | Some (pop, infills) => Some (pop ++ evaluated eval infills) end
  end.
