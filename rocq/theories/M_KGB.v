(** * Model of /repo/pymoo/algorithms/moo/kgb.py (KGB-DMOEA) in exact rational arithmetic.
    A solution is its list of variables.  The random draws, the classifier's answers (sklearn's GaussianNB), the objective
    function and the ranking of the non-dominated sort are arguments; the survival and the mating are those of NSGA-II and are
    not repeated here, nor is the dump of the archive to a file. *)
From Coq Require Import List Arith Bool ZArith QArith.
From Verif Require Import ListAux M_RMetric M_DNSGA.
Import ListNotations.
Local Open Scope nat_scope.

Notation sol := (list Q).
(** the archive: a dict from the keys "i-t" (here the pair of numbers) to clusters, in order of insertion *)
Record cluster := { c_sol : list sol; c_cen : sol }.
Definition key := (nat * nat)%type.
Definition key_eqb (a b : key) : bool := (fst a =? fst b) && (snd a =? snd b).
Definition archive := list (key * cluster).
Fixpoint put (k : key) (c : cluster) (ps : archive) : archive :=
  match ps with [] => [(k, c)] | (k', c') :: r => if key_eqb k k' then (k', c) :: r else (k', c') :: put k c r end.
Definition del (k : key) (ps : archive) : archive := filter (fun e => negb (key_eqb k (fst e))) ps.
Definition lookup (k : key) (ps : archive) : option cluster := option_map snd (find (fun e => key_eqb k (fst e)) ps).

(** lines 221-254 [calculate_cluster_centroid] of a list of solutions: the mean of every variable; of a single vector: itself *)
Definition centroid (sols : list sol) : sol :=
  let n := inject_Z (Z.of_nat (length sols)) in
  map (fun i => (fold_right Qplus 0 (map (fun s => nth i s 0) sols) / n)%Q) (seq 0 (length (hd [] sols))).
(** lines 188-203 [add_to_ps]: the i-th solution of the optimum under the key "i-t" *)
Definition add_to_ps (t : nat) (opt : list sol) (ps : archive) : archive :=
  fold_left (fun ps ix => put (fst ix, t) {| c_sol := [snd ix]; c_cen := snd ix |} ps) (combine (seq 0 (length opt)) opt) ps.

(** lines 76-97: the closest pair of different clusters, the first of those at the least distance; euclidean_distance (lines 13-16)
    is compared squared *)
Definition pairs (ps : archive) : list (key * key) :=
  flat_map (fun a => flat_map (fun b => if key_eqb (fst a) (fst b) then [] else [(fst a, fst b)]) ps) ps.
Definition cen_of (ps : archive) (k : key) : sol := match lookup k ps with Some c => c_cen c | None => [] end.
Definition sol_of (ps : archive) (k : key) : list sol := match lookup k ps with Some c => c_sol c | None => [] end.
Definition pdist (ps : archive) (p : key * key) : Q := dist2 (cen_of ps (fst p)) (cen_of ps (snd p)).
Definition closest (ps : archive) : option (key * key) :=
  fold_left (fun best p => match best with None => Some p | Some b => match (pdist ps p ?= pdist ps b)%Q with Lt => Some p | _ => Some b end end) (pairs ps) None.
(** lines 99-109: the second joins the first; None: min_distance_index[1] of an empty list *)
Definition merge_step (ps : archive) : option archive :=
  match closest ps with
  | None => None
  | Some (i, j) =>
      let sols := sol_of ps i ++ sol_of ps j in
      Some (del j (put i {| c_sol := sols; c_cen := centroid sols |} ps))
  end.
(** lines 69-112: while size > Nc *)
Fixpoint merge_loop (n : nat) (ps : archive) : option archive :=
  match n with O => Some ps | S n => match merge_step ps with Some ps => merge_loop n ps | None => None end end.
Definition condense (Nc : nat) (ps : archive) : option archive := merge_loop (length ps - Nc) ps.

(** lines 114-146: the centroids are ranked; the solutions of every cluster whose centroid equals one of rank 0 are useful, the
    others useless (a cluster is listed once for every equal centroid) *)
Definition sol_eqb (a b : sol) : bool := (length a =? length b) && forallb (fun p => Qeq_bool (fst p) (snd p)) (combine a b).
Definition centroids (ps : archive) : list sol := map (fun e => c_cen (snd e)) ps.
Definition members (ps : archive) (c : sol) : list sol := flat_map (fun e => if sol_eqb c (c_cen (snd e)) then c_sol (snd e) else []) ps.
Definition labelled (keep : nat -> bool) (ranks : list nat) (ps : archive) : list sol :=
  flat_map (fun cr => if keep (snd cr) then members ps (fst cr) else []) (combine (centroids ps) ranks).
Definition useful (ranks : list nat) (ps : archive) : list sol := labelled (fun r => r =? 0) ranks ps.
Definition useless (ranks : list nat) (ps : archive) : list sol := labelled (fun r => negb (r =? 0)) ranks ps.
(** [knowledge_reconstruction_examination]: the archive is condensed in place *)
Definition examine (Nc : nat) (f : sol -> list Q) (ranking : list (list Q) -> list nat) (ps : archive) : option (archive * (list sol * list sol * list sol)) :=
  match condense Nc ps with
  | None => None
  | Some ps => let ranks := ranking (map f (centroids ps)) in Some (ps, (useful ranks ps, useless ranks ps, centroids ps))
  end.

(** lines 256-276 [check_boundaries], 291-297 in [random_strategy]: one entry *)
Definition clip1 (l u x : Q) : Q := if negb (Qle_bool x u) then u else if negb (Qle_bool l x) then l else x.
Definition clip (xl xu : list Q) (x : sol) : sol := map2 (fun b v => clip1 (fst b) (snd b) v) (combine xl xu) x.
(** lines 278-299 [random_strategy]: [u] the numbers drawn from [0, 1) *)
Definition random_strategy (xl xu : list Q) (u : list (list Q)) : list sol := map (clip xl xu) u.
(** lines 205-219 [predicted_population] *)
Definition predicted (labels : list Z) (xs : list sol) : list sol := map snd (filter (fun p => Z.eqb (fst p) 1) (combine labels xs)).

(** lines 366-412: the new population.  [pick n k]: what random_state.choice(n, k, replace=False) returns, None its ValueError
    (k negative or greater than n); [rnd k]: k random solutions *)
Section Fill.
  Variables (pop_size c_size : nat).
  Definition np_choice (pick : nat -> nat -> list nat) (n : nat) (k : Z) : option (list nat) :=
    if (0 <=? k)%Z && (k <=? Z.of_nat n)%Z then Some (pick n (Z.to_nat k)) else None.
  Definition head_part (pick : nat -> nat -> list nat) (pred cents : list sol) : option (list sol) :=
    if (Z.of_nat pop_size - Z.of_nat c_size <=? Z.of_nat (length pred))%Z then
      match np_choice pick (length pred) (Z.of_nat pop_size - Z.of_nat c_size) with
      | Some idx => Some (gather [] pred idx ++ cents)
      | None => None
      end
    else Some (pred ++ cents).
  Definition add_useful (pick : nat -> nat -> list nat) (use init : list sol) : option (list sol) :=
    if length init <? pop_size then
      if pop_size - length init <=? length use then option_map (fun idx => init ++ gather [] use idx) (np_choice pick (length use) (Z.of_nat (pop_size - length init)))
      else Some (init ++ use)
    else Some init.
  Definition add_random (rnd : nat -> list sol) (init : list sol) : list sol :=
    if length init <? pop_size then init ++ rnd (pop_size - length init) else init.
  Definition init_pop (pick pick' : nat -> nat -> list nat) (rnd : nat -> list sol) (pred cents use : list sol) : option (list sol) :=
    match head_part pick pred cents with
    | None => None
    | Some h => match add_useful pick' use h with None => None | Some i => Some (add_random rnd i) end
    end.
End Fill.

(** everything random or external in one generation: the objective function and the ranking, the numbers of the random strategy, the
    noise, the labels the classifier gives, the choices; lines 318-335 the change test on the drawn individuals, exact arithmetic *)
Record kgb_step := { k_f : sol -> list Q; k_ranking : list (list Q) -> list nat; k_sample : list nat; k_u : list (list Q); k_noise : list Q;
                     k_labels : list Z; k_pick : nat -> nat -> list nat; k_pick' : nat -> nat -> list nat; k_rnd : nat -> list (list Q) }.
Record kgb_conf := { k_pop_size : nat; k_c_size : nat; k_eps : Q; k_xl : list Q; k_xu : list Q }.
(** one algorithm object: its time counter and archive *)
Record kgb_state := { s_t : nat; s_ps : archive }.
Definition kgb_changed (c : kgb_conf) (s : kgb_step) (pop : list (sol * list Q)) : bool :=
  change_detected_q (k_eps c) (map (fun i => k_f s (fst (nth i pop ([], [])))) (k_sample s)) (map (fun i => snd (nth i pop ([], []))) (k_sample s)).
(** lines 316-421 of [_advance] up to the mating: the optimum is archived (line 332) whether or not a change is detected; the parents are the population
    or, after a change, the new solutions evaluated; None: an exception *)
Definition kgb_parents (c : kgb_conf) (s : kgb_step) (opt : list sol) (pop : list (sol * list Q)) (st : kgb_state) : option (kgb_state * list (sol * list Q)) :=
  let ps := add_to_ps (s_t st) opt (s_ps st) in
  if kgb_changed c s pop then
    match examine (k_c_size c) (k_f s) (k_ranking s) ps with
    | None => None
    | Some (ps, (use, _, cents)) =>
        let tests := random_strategy (k_xl c) (k_xu c) (k_u s) ++ map (fun x => clip (k_xl c) (k_xu c) (map2 Qplus x (k_noise s))) use in
        match init_pop (k_pop_size c) (k_c_size c) (k_pick s) (k_pick' s) (fun k => random_strategy (k_xl c) (k_xu c) (k_rnd s k)) (predicted (k_labels s) tests) cents use with
        | None => None
        | Some xs => Some ({| s_t := S (s_t st); s_ps := ps |}, map (fun x => (x, k_f s x)) xs)
        end
    end
  else Some ({| s_t := s_t st; s_ps := ps |}, pop).

(** ** The default argument [ps={}] (line 26) is one dict for all the objects made without it.  A small heap: dicts by address, address 0 the default's *)
Record kgb_obj := { o_ps : nat; o_t : nat }.
Record kgb_heap := { h_dicts : list archive; h_objs : list kgb_obj }.
Definition heap0 : kgb_heap := {| h_dicts := [[]]; h_objs := [] |}.
Inductive kgb_op := New (own : option archive)   (** KGB() or KGB(ps=own), a dict of the caller used for nothing else *)
                  | Update (i : nat) (g : nat -> archive -> nat * archive)  (** object i changes its counter and, in place, its archive (lines 188-203, 63-146, 339) *)
                  | Copy (i : nat).              (** copy.deepcopy of object i, as [minimize] does *)
Definition kgb_do (h : kgb_heap) (o : kgb_op) : kgb_heap :=
  match o with
  | New None => {| h_dicts := h_dicts h; h_objs := h_objs h ++ [{| o_ps := 0; o_t := 0 |}] |}
  | New (Some ps) => {| h_dicts := h_dicts h ++ [ps]; h_objs := h_objs h ++ [{| o_ps := length (h_dicts h); o_t := 0 |}] |}
  | Update i g =>
      match nth_error (h_objs h) i with
      | None => h
      | Some ob => let r := g (o_t ob) (nth (o_ps ob) (h_dicts h) []) in
          {| h_dicts := upd (h_dicts h) (o_ps ob) (snd r); h_objs := upd (h_objs h) i {| o_ps := o_ps ob; o_t := fst r |} |}
      end
  | Copy i =>
      match nth_error (h_objs h) i with
      | None => h
      | Some ob => {| h_dicts := h_dicts h ++ [nth (o_ps ob) (h_dicts h) []]; h_objs := h_objs h ++ [{| o_ps := length (h_dicts h); o_t := o_t ob |}] |}
      end
  end.
Definition kgb_ops (h : kgb_heap) (os : list kgb_op) : kgb_heap := fold_left kgb_do os h.
Definition archive_of (h : kgb_heap) (i : nat) : option archive := option_map (fun ob => nth (o_ps ob) (h_dicts h) []) (nth_error (h_objs h) i).
