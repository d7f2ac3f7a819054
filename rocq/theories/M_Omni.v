(** * Model of /repo/pymoo/algorithms/moo/omni.py: the Omni-Optimizer.
    Exact rational arithmetic, finite values. *)
From Coq Require Import List Arith Bool ZArith QArith.
From Verif Require Import ListAux M_NDS M_Crowding M_Survival M_RefDirs2 M_Norm.
From Verif Require M_Default.
Import ListNotations.
Local Open Scope nat_scope.

Definition qlt (a b : Q) : bool := negb (Qle_bool b a).
Definition anyq (p : Q -> Q -> bool) (r s : list Q) : bool := existsb (fun xy => p (fst xy) (snd xy)) (combine r s).

(** omni.py:72 epsilon: delta times the range of each objective *)
Definition epsilon_of (delta : Q) (F : list (list Q)) : list Q := map (fun r => (delta * r)%Q) (map2 Qminus (M_Default.col_max F) (M_Default.col_min F)).
(** omni.py:75-90, one entry of the matrix *)
Definition loose_entry (eps l r : list Q) : Z :=
  let better := anyq qlt l r in
  let worse := anyq (fun a b => qlt b a) l r in
  let dominates := better && negb worse in
  let dominated := worse && negb better in
  let better_by_eps := anyq qlt (map2 Qplus l eps) r in
  let worse_by_eps := anyq (fun a b => qlt b a) l (map2 Qplus r eps) in
  ((if dominates && better_by_eps then 1 else 0) - (if dominated && worse_by_eps then 1 else 0))%Z.
(** omni.py:65-91 [LooseDominator.calc_domination_matrix] (only called with one set, fast_non_dominated_sort.py:22) *)
Definition loose_matrix (delta : Q) (F : list (list Q)) : list (list Z) := map (fun l => map (loose_entry (epsilon_of delta F) l) F) F.

(** omni.py:23 *)
Definition BOUNDARY : Q := 10.
Section Omni.
  (** np.argsort(kind="mergesort") of one column *)
  Variable asort : list Q -> list nat.
  (** omni.py:136-153: what column [v] adds to solution [i]; the positions [order] is a permutation of the solutions, so every solution is met once *)
  Definition obj_part (v : list Q) (i : nat) : Q :=
    let order := asort v in
    let s := gather 0%Q v order in
    let n := length v in
    let k := index_of i order in
    let span := (nth (n - 1) s 0 - nth 0 s 0)%Q in
    if Qeq_bool span 0 then 0%Q
    else if (k =? 0) || (k =? n - 1) then 0%Q
    else ((nth (k + 1) s 0 - nth (k - 1) s 0) / span)%Q.
  Definition var_part (v : list Q) (i : nat) : Q :=
    let order := asort v in
    let s := gather 0%Q v order in
    let n := length v in
    let k := index_of i order in
    let span := (nth (n - 1) s 0 - nth 0 s 0)%Q in
    if Qeq_bool span 0 then 0%Q
    else if k =? 0 then (2 * (nth 1 s 0 - nth 0 s 0) / span)%Q
    else if k =? n - 1 then (2 * (nth (n - 1) s 0 - nth (n - 2) s 0) / span)%Q
    else ((nth (k + 1) s 0 - nth (k - 1) s 0) / span)%Q.
  (** omni.py:143: the first solution of the order is marked *)
  Definition is_boundary (d : nat) (Y : list (list Q)) (i : nat) : bool := existsb (fun j => nth 0 (asort (colF j Y)) 0 =? i) (seq 0 d).
  Definition qsum_parts (d : nat) (part : nat -> Q) : Q := fold_right Qplus 0%Q (map part (seq 0 d)).
  (** omni.py:99-160 [calc_crowding_distance_in_space]: [d] columns *)
  Definition objective_crowding (d : nat) (Y : list (list Q)) : list Q :=
    if length Y <=? 2 then repeat BOUNDARY (length Y)
    else map (fun i => if is_boundary d Y i then BOUNDARY else (qsum_parts d (fun j => obj_part (colF j Y) i) / inject_Z (Z.of_nat d))%Q) (seq 0 (length Y)).
  Definition variable_crowding (d : nat) (Y : list (list Q)) : list Q :=
    if length Y <=? 2 then repeat BOUNDARY (length Y)
    else map (fun i => (qsum_parts d (fun j => var_part (colF j Y) i) / inject_Z (Z.of_nat d))%Q) (seq 0 (length Y)).
  Definition qmax2 (a b : Q) : Q := if Qle_bool a b then b else a.
  Definition qmin2 (a b : Q) : Q := if Qle_bool a b then a else b.
  (** omni.py:163-206 [calc_omni_crowding_distance]; [None] = ValueError *)
  Definition omni_crowding (obj_crowding var_crowding : bool) (m d : nat) (F X : list (list Q)) : option (list Q) :=
    match obj_crowding, var_crowding with
    | false, false => None
    | true, false => Some (objective_crowding m F)
    | false, true => Some (variable_crowding d X)
    | true, true =>
        let n := inject_Z (Z.of_nat (length F)) in
        let oc := objective_crowding m F in
        let vc := variable_crowding d X in
        let avg_obj := (fold_right Qplus 0 (filter (fun c => negb (Qeq_bool c BOUNDARY)) oc) / n / inject_Z (Z.of_nat m))%Q in
        let avg_var := (fold_right Qplus 0 vc / n / inject_Z (Z.of_nat d))%Q in
        Some (map2 (fun o v => if qlt avg_obj o || qlt avg_var v then qmax2 o v else qmin2 o v) oc vc)
    end.

  (** ** omni.py:214-283 [OmniOptimizerSurvival] on the feasible part (core/survival.py splits off the infeasible); an individual is (F, X) *)
  Record omni_state := { om_surv : list nat; om_rank : list (option nat); om_crowd : list (option Q) }.
  (** omni.py:253-281; [dsort] = randomized_argsort(order="descending") *)
  Definition omni_front (oc vc : bool) (m d : nat) (F X : list (list Q)) (dsort : list Q -> list nat) (n_survive : nat)
      (st : option omni_state) (kf : nat * list nat) : option omni_state :=
    match st with
    | None => None
    | Some st =>
        let '(k, front) := kf in
        match omni_crowding oc vc m d (gather [] F front) (gather [] X front) with
        | None => None
        | Some c =>
            let idx := if n_survive <? length (om_surv st) + length front then firstn (n_survive - length (om_surv st)) (dsort c) else seq 0 (length front) in
            Some {| om_rank := fold_left (fun r i => upd r i (Some k)) front (om_rank st);
                    om_crowd := fold_left (fun r ji => upd r (snd ji) (Some (nth (fst ji) c 0%Q))) (combine (seq 0 (length front)) front) (om_crowd st);
                    om_surv := om_surv st ++ gather 0 front idx |}
        end
    end.
  (** omni.py:242-283; the sorter is nds.do(F, n_stop_if_ranked=n_survive) with a dominator: non_dominated_sorting.py:49-64 *)
  Definition omni_do (oc vc : bool) (delta : Q) (m d : nat) (dsort : list Q -> list nat) (F X : list (list Q)) (n_survive : nat) : option omni_state :=
    match fast_nds_matrix (loose_matrix delta F) with
    | None => None
    | Some raw =>
        let fronts := do_dominator_loop raw n_survive 0 in
        fold_left (omni_front oc vc m d F X dsort n_survive) (combine (seq 0 (length fronts)) fronts)
          (Some {| om_surv := []; om_rank := repeat None (length F); om_crowd := repeat None (length F) |})
    end.
End Omni.

(** ** omni.py:320-357 [NeighborBasedTournamentSelection._do] up to the comparison *)
(** omni.py:327-331 *)
Definition normalised (X : list (list Q)) : list (list Q) :=
  let xl := M_Default.col_min X in
  let norm := map (fun d => if Qeq_bool d 0 then 1%Q else d) (map2 Qminus (M_Default.col_max X) xl) in
  map (fun x => map2 Qdiv (map2 Qminus x xl) norm) X.
Definition sqd (a b : list Q) : Q := fold_right Qplus 0%Q (map2 (fun x y => ((x - y) * (x - y))%Q) a b).
(** list.pop(k) *)
Definition drop_at {A} (k : nat) (l : list A) : list A := firstn k l ++ skipn (S k) l.
(** omni.py:341-352: one pass over [remaining] with room for [room] more pairs *)
Fixpoint nb_pass (fuel : nat) (Xn : list (list Q)) (remaining : list nat) (room : nat) : list (nat * nat) :=
  match fuel, room, remaining with
  | S fuel, S room, p :: r0 :: rest =>
      let nn := argminQ (map (fun r => sqd (nth r Xn []) (nth p Xn [])) (r0 :: rest)) in
      (p, nth nn (r0 :: rest) 0) :: nb_pass fuel Xn (drop_at nn (r0 :: rest)) room
  | _, _, _ => []
  end.
(** omni.py:337-352: [perms] are the successive random permutations; [None] = still short of pairs after the last of them *)
Fixpoint nb_pairs (Xn : list (list Q)) (perms : list (list nat)) (n_winners : nat) : option (list (nat * nat)) :=
  match n_winners, perms with
  | 0, _ => Some []
  | _, [] => None
  | _, P :: perms =>
      let ps := nb_pass (length P) Xn P n_winners in
      match nb_pairs Xn perms (n_winners - length ps) with None => None | Some r => Some (ps ++ r) end
  end.

(** omni.py:430-434 [_set_optimum]: np.argmin of the violations, or the members of rank 0 *)
Definition omni_opt (feas : list bool) (cv : list Q) (rank : list (option nat)) : list nat :=
  if existsb (fun b => b) feas then where_ (fun i => match nth i rank None with Some 0 => true | _ => false end) (length rank)
  else [argminQ cv].
