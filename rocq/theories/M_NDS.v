(** * Model of /repo/pymoo/functions/standard/non_dominated_sorting.py and /repo/pymoo/util/nds/*.py *)
From Coq Require Import List ZArith Bool Arith Floats.SpecFloat.
From Verif Require Import Flt ListAux M_Dominator.
Import ListNotations.

Definition fltmat := list (list flt).

(** [F[i, k]] *)
Definition cell (F : fltmat) (i k : nat) : flt := nth k (nth i F []) f_nan.

(* ------------------------------------------------------------------------------------------------ *)
(** ** fast_non_dominated_sort *)

(** lists of dominated points [is_dominating] and counters [n_dominated] (standard/non_dominated_sorting.py:48-51,
    util/nds/fast_non_dominated_sort.py:36-39); the float counters are integers here. *)
Definition fstate : Type := (list (list nat) * list Z)%type.

(** body of the inner loop: standard/non_dominated_sorting.py:57-63 = util/nds/fast_non_dominated_sort.py:45-51 *)
Definition fast_pair (M : list (list Z)) (i : nat) (st : fstate) (j : nat) : fstate :=
  let '(isd, nd) := st in
  let rel := entry M i j in
  if Z.eqb rel 1 then (upd isd i (nth i isd [] ++ [j]), upd nd j (nth j nd 0 + 1)%Z)
  else if Z.eqb rel (-1) then (upd isd j (nth j isd [] ++ [i]), upd nd i (nth i nd 0 + 1)%Z)
  else st.

(** body of the outer loop: standard/non_dominated_sorting.py:55-68 = util/nds/fast_non_dominated_sort.py:43-56;
    the array [ranked] is written but never read and is lft out *)
Definition fast_outer (M : list (list Z)) (n : nat) (st : fstate * list nat * nat) (i : nat)
  : fstate * list nat * nat :=
  let '(s, cur, n_ranked) := st in
  let s := fold_left (fast_pair M i) (seq (i + 1) (n - (i + 1))) s in
  if Z.eqb (nth i (snd s) 0%Z) 0 then (s, cur ++ [i], n_ranked + 1) else (s, cur, n_ranked).

(** body of the loop over [is_dominating[i]]: standard:80-85 = util/nds:68-73.  State: counters, next front, n_ranked *)
Definition fast_relax (st : list Z * list nat * nat) (j : nat) : list Z * list nat * nat :=
  let '(nd, next, n_ranked) := st in
  let nd := upd nd j (nth j nd 0 - 1)%Z in
  if Z.eqb (nth j nd 0%Z) 0 then (nd, next ++ [j], n_ranked + 1) else (nd, next, n_ranked).

(** one pass of the [while] body over the current front: standard:75-85 = util/nds:63-73 *)
Definition fast_pass (isd : list (list nat)) (nd : list Z) (cur : list nat) (n_ranked : nat)
  : list Z * list nat * nat :=
  fold_left (fun st i => fold_left fast_relax (nth i isd []) st) cur (nd, [], n_ranked).

(** [while n_ranked < n]: standard:74-90 = util/nds:62-78; [None] = out of fuel (non-termination) *)
Fixpoint fast_while (fuel : nat) (n : nat) (isd : list (list nat)) (nd : list Z) (cur : list nat)
    (n_ranked : nat) (fronts : list (list nat)) : option (list (list nat)) :=
  if n_ranked <? n then
    match fuel with
    | O => None
    | S fuel =>
        let '(nd, next, n_ranked) := fast_pass isd nd cur n_ranked in
        fast_while fuel n isd nd next n_ranked (fronts ++ [next])
    end
  else Some fronts.

(** util/nds/fast_non_dominated_sort.py:26-78, from the domination matrix on.  Fuel [n]: proved sufficient. *)
Definition fast_nds_matrix (M : list (list Z)) : option (list (list nat)) :=
  let n := length M in
  if n =? 0 then Some []
  else
    let '(isd, nd, cur, n_ranked) :=
      fold_left (fast_outer M n) (seq 0 n) (repeat [] n, repeat 0%Z n, [], 0) in
    fast_while n n isd nd cur n_ranked [cur].

(** util/nds/fast_non_dominated_sort.py:10-78; [calc] is the dominator's [calc_domination_matrix] *)
Definition fast_nds (calc : fltmat -> list (list Z)) (F : fltmat) : option (list (list nat)) :=
  fast_nds_matrix (calc F).

(* ------------------------------------------------------------------------------------------------ *)
(** ** the specialised bi-objective sort, standard/non_dominated_sorting.py:93-148.
    [I] is the result of [np.argsort(F[:, 0])] (line 108). *)

(** body of the sweep (lines 122-141).  State: front (original indices), front (sorted positions), assigned, min_second_obj *)
Definition biobj_step (I : list nat) (sF : fltmat) (st : list nat * list nat * list bool * flt) (i : nat)
  : list nat * list nat * list bool * flt :=
  let '(front, idx, assigned, msec) := st in
  if nth i assigned false then st
  else
    let is_dominated := match idx with [] => false | _ => fleb msec (cell sF i 1) end in
    if is_dominated then st
    else (front ++ [nth i I 0], idx ++ [i], upd assigned i true,
          if fltb (cell sF i 1) msec then cell sF i 1 else msec).

(** the [while] loop (lines 115-146); n_assigned = number of assigned points *)
Fixpoint biobj_while (fuel n : nat) (I : list nat) (sF : fltmat) (assigned : list bool) (n_assigned : nat)
    (fronts : list (list nat)) : option (list (list nat)) :=
  if n_assigned <? n then
    match fuel with
    | O => None
    | S fuel =>
        let '(front, idx, assigned, _) := fold_left (biobj_step I sF) (seq 0 n) ([], [], assigned, f_inf) in
        match front with
        | [] => Some fronts                                             (* break *)
        | _ => biobj_while fuel n I sF assigned (n_assigned + length front) (fronts ++ [front])
        end
    end
  else Some fronts.

Definition biobj_nds (I : list nat) (F : fltmat) : option (list (list nat)) :=
  let n := length F in
  if n =? 0 then Some []
  else biobj_while n n I (gather [] F I) (repeat false n) 0 [].

(** standard/non_dominated_sorting.py:11-90: early exits (lines 20-31), then as in util/nds.
    [F.size == 0]: no rows or rows without columns. *)
Definition std_fast_nds (calc : fltmat -> list (list Z)) (native : bool) (I0 : list nat) (F : fltmat)
  : option (list (list nat)) :=
  let n_objectives := length (nth 0 F []) in
  if (length F =? 0) || (n_objectives =? 0) then Some []
  else if length F <=? 1 then Some [seq 0 (length F)]
  else if native && (n_objectives =? 2) then biobj_nds I0 F
  else fast_nds_matrix (calc F).

(* ------------------------------------------------------------------------------------------------ *)
(** ** find_non_dominated *)

(** standard/non_dominated_sorting.py:178-183: loop over the objectives; result (dominates, at_least_one_better) *)
Fixpoint dom_scan (eps : flt) (fj fi : list flt) (better : bool) : bool * bool :=
  match fj, fi with
  | x :: fj, y :: fi =>
      if fltb (fadd x eps) y then dom_scan eps fj fi true
      else if fltb (fadd y eps) x then (false, better)
      else dom_scan eps fj fi better
  | _, _ => (true, better)
  end.

(** standard/non_dominated_sorting.py:151-194 *)
Definition find_non_dominated_std (F : fltmat) (eps : flt) : list nat :=
  filter (fun i =>
    negb (existsb (fun j =>
      negb (i =? j) &&
      let '(d, b) := dom_scan eps (nth j F []) (nth i F []) false in d && b) (seq 0 (length F))))
    (seq 0 (length F)).

(** util/nds/non_dominated_sorting.py:83-90; [is_nd] is moocore's [is_nondominated(.., keep_weakly=True)] *)
Definition find_non_dominated (is_nd : fltmat -> list bool) (F : fltmat) (F' : option fltmat) : list nat :=
  if length F =? 0 then []
  else match F' with
       | None => where_ (fun i => nth i (is_nd F) false) (length F)
       | Some G => let M := calc_domination_matrix F (Some G) f_zero in
                   where_ (fun i => forallb (fun v => (0 <=? v)%Z) (nth i M [])) (length F)
       end.

(* ------------------------------------------------------------------------------------------------ *)
(** ** efficient non-dominated sort *)

(** scanning one front in reverse order for a dominator of [cur] (lines 257-265 and 295-304) *)
Definition front_non_dominated (F : fltmat) (cur : list flt) (front : list nat) : bool :=
  negb (existsb (fun f => Z.eqb (get_relation cur f None None) (-1)) (gather [] F (rev front))).

(** standard/non_dominated_sorting.py:240-272, [while True] with fuel *)
Fixpoint sequential_loop (fuel : nat) (F : fltmat) (cur : list flt) (fronts : list (list nat)) (k : nat) : option nat :=
  match fuel with
  | O => None
  | S fuel =>
      let nff := length fronts in
      if nff =? 0 then Some 0
      else if front_non_dominated F cur (nth k fronts []) then Some k
      else if nff <=? k + 1 then Some nff
      else sequential_loop fuel F cur fronts (k + 1)
  end.
Definition sequential_search (F : fltmat) (fronts : list (list nat)) (i : nat) : option nat :=
  sequential_loop (S (length fronts)) F (nth i F []) fronts 0.

(** [floor((k_max + k_min) / 2 + 0.5)] (exact in floating point below 2^52) *)
Definition mid (kmin kmax : nat) : nat := (kmax + kmin + 1) / 2.

(** standard/non_dominated_sorting.py:275-320 *)
Fixpoint binary_loop (fuel : nat) (F : fltmat) (cur : list flt) (fronts : list (list nat)) (kmin kmax k : nat) : option nat :=
  match fuel with
  | O => None
  | S fuel =>
      let nff := length fronts in
      if front_non_dominated F cur (nth (k - 1) fronts []) then
        if k =? kmin + 1 then Some (k - 1)
        else binary_loop fuel F cur fronts kmin k (mid kmin k)
      else
        let kmin := k in
        if (kmax =? kmin + 1) && (kmax <? nff) then Some (kmax - 1)
        else if kmin =? nff then Some nff
        else binary_loop fuel F cur fronts kmin kmax (mid kmin kmax)
  end.
Definition binary_search (F : fltmat) (fronts : list (list nat)) (i : nat) : option nat :=
  let nff := length fronts in
  if nff =? 0 then Some 0
  else binary_loop (2 * nff + 2) F (nth i F []) fronts 0 nff (mid 0 nff).

Inductive strategy := Sequential | Binary.

(** one iteration of lines 219-230 *)
Definition ens_step (s : strategy) (F : fltmat) (acc : option (list (list nat))) (i : nat) : option (list (list nat)) :=
  match acc with
  | None => None
  | Some fronts =>
      match (match s with Sequential => sequential_search F fronts i | Binary => binary_search F fronts i end) with
      | None => None
      | Some k =>
          let fronts := if length fronts <=? k then fronts ++ [[]] else fronts in
          Some (upd fronts k (nth k fronts [] ++ [i]))
      end
  end.

(** standard/non_dominated_sorting.py:197-237; [I] is the result of [np.lexsort(F.T[::-1])] *)
Definition ens_nds (s : strategy) (I : list nat) (F : fltmat) : option (list (list nat)) :=
  match fold_left (ens_step s (gather [] F I)) (seq 0 (length F)) (Some []) with
  | None => None
  | Some fronts => Some (map (gather 0 I) fronts)
  end.

(* ------------------------------------------------------------------------------------------------ *)
(** ** tree-based sort *)

(** standard/non_dominated_sorting.py:326-329 [Tree]: [TNone] is Python's [None]; the children list is a [forest] of
    M-1 slots (a mutual type only because Coq's induction principles are simpler for it); weak parent references are unused *)
Inductive tree := TNone | TNode (key : nat) (ch : forest)
with forest := FNil | FCons (t : tree) (f : forest).

Fixpoint nones (k : nat) : forest := match k with O => FNil | S k => FCons TNone (nones k) end.

(** lines 427-429: smallest m < M-1 with F[p, seq[m]] < F[key, seq[m]], else M-1.  [oseq] = obj_seq[tree.key] (length M-1) *)
Fixpoint find_m (F : fltmat) (p key : nat) (oseq : list nat) : nat :=
  match oseq with
  | [] => 0
  | o :: oseq' => if fleb (cell F key o) (cell F p o) then S (find_m F p key oseq') else 0
  end.

(** lines 408-444 [check_tree]; returns the boolean and the updated tree.  [check_forest] is the loop 436-443 over
    children 0..m ([r] = distance to m) *)
Fixpoint check_tree (F : fltmat) (M : nat) (oseq : list (list nat)) (p : nat) (t : tree) (add_pos : bool) : bool * tree :=
  match t with
  | TNone => (true, TNone)
  | TNode key ch =>
      let m := find_m F p key (nth key oseq []) in
      if m =? M - 1 then (false, t)
      else let '(b, ch) := check_forest F M oseq p ch m add_pos in (b, TNode key ch)
  end
with check_forest (F : fltmat) (M : nat) (oseq : list (list nat)) (p : nat) (f : forest) (r : nat) (add_pos : bool)
  : bool * forest :=
  match f with
  | FNil => (true, FNil)
  | FCons c rest =>
      match r with
      | O => let '(b, c') := check_tree F M oseq p c add_pos in
             if b then
               match c' with
               | TNone => (true, FCons (if add_pos then TNode p (nones (M - 1)) else TNone) rest)
               | _ => (true, FCons c' rest)
               end
             else (false, FCons c' rest)
      | S r' => let '(b, c') := check_tree F M oseq p c false in
                if b then let '(b2, rest') := check_forest F M oseq p rest r' add_pos in (b2, FCons c' rest')
                else (false, FCons c' rest)
      end
  end.

(** lines 389-405 [update_tree] *)
Definition update_tree (F : fltmat) (M : nat) (oseq : list (list nat)) (st : tree * list bool) (p : nat) : tree * list bool :=
  let '(t, lft) := st in
  if nth p lft false then
    match t with
    | TNone => (TNode p (nones (M - 1)), upd lft p false)
    | _ => let '(b, t') := check_tree F M oseq p t true in
           (t', if b then upd lft p false else lft)
    end
  else st.

(** lines 344-351 [Tree.traversal]: pre-order keys *)
Fixpoint keys (t : tree) : list nat :=
  match t with TNone => [] | TNode k ch => k :: fkeys ch end
with fkeys (f : forest) : list nat :=
  match f with FNil => [] | FCons t f => keys t ++ fkeys f end.

(** lines 374-380 *)
Fixpoint tree_while (fuel n : nat) (F : fltmat) (M : nat) (oseq : list (list nat)) (lft : list bool) (trees : list tree)
  : option (list tree) :=
  if existsb (fun b => b) lft then
    match fuel with
    | O => None
    | S fuel =>
        let '(t, lft) := fold_left (update_tree F M oseq) (seq 0 n) (TNone, lft) in
        tree_while fuel n F M oseq lft (trees ++ [t])
    end
  else Some trees.

(** lines 354-386; [I] = np.lexsort(F.T[::-1]), [oseq] = np.argsort(F[:, :0:-1], axis=1) + 1 (of the sorted F) *)
Definition tree_nds (I : list nat) (oseq : list (list nat)) (F : fltmat) : option (list (list nat)) :=
  let n := length F in
  let M := length (nth 0 F []) in
  match tree_while n n (gather [] F I) M oseq (repeat true n) [] with
  | None => None
  | Some trees => Some (map (fun t => gather 0 I (keys t)) trees)
  end.

(* ------------------------------------------------------------------------------------------------ *)
(** ** dominance degree sorts *)

(** lines 461-468: build the rows of the comparison matrix; [srt] = argsort of [vec] *)
Definition comp_row_step (vec : list flt) (srt : list nat) (c : list (list Z)) (i : nat) : list (list Z) :=
  let si := nth i srt 0 in
  let sp := nth (i - 1) srt 0 in
  if feqb (nth si vec f_nan) (nth sp vec f_nan) then upd c si (nth sp c [])
  else upd c si (fold_left (fun row j => upd row j 1%Z) (skipn i srt) (nth si c [])).
(** lines 447-470 *)
Definition construct_comp_matrix (vec : list flt) (srt : list nat) : list (list Z) :=
  let n := length vec in
  let c := zeros2 n n in
  let c := upd c (nth 0 srt 0) (repeat 1%Z n) in
  fold_left (comp_row_step vec srt) (seq 1 (n - 1)) c.

Definition madd (A B : list (list Z)) : list (list Z) := map2 (map2 Z.add) A B.
(** column [k] of F *)
Definition column (F : fltmat) (k : nat) : list flt := map (fun r => nth k r f_nan) F.

(** lines 473-488; [b] = argsort over the columns (one permutation per objective) *)
Definition construct_domination_matrix (F : fltmat) (b : list (list nat)) : list (list Z) :=
  let n := length F in
  let M := length (nth 0 F []) in
  let d := fold_left (fun d k => madd d (construct_comp_matrix (column F k) (nth k b []))) (seq 0 M) (zeros2 n n) in
  map (fun i => map (fun j =>
    if Z.eqb (entry d i j) (Z.of_nat M) && Z.eqb (entry d j i) (Z.of_nat M) then 0%Z else entry d i j)
    (seq 0 n)) (seq 0 n).

(** np.max of column j *)
Definition col_max (d : list (list Z)) (j : nat) : Z :=
  match map (fun r => nth j r 0%Z) d with [] => 0%Z | x :: l => fold_left Z.max l x end.
(** lines 511-512: rows and columns of the front set to -1 *)
Definition wipe (front : list nat) (d : list (list Z)) : list (list Z) :=
  let isin i := existsb (Nat.eqb i) front in
  map (fun i => map (fun j => if isin i || isin j then (-1)%Z else entry d i j) (seq 0 (length d))) (seq 0 (length d)).

(** lines 506-513 *)
Fixpoint dda_while (fuel n M : nat) (d : list (list Z)) (count : nat) (fronts : list (list nat)) : option (list (list nat)) :=
  if count <? n then
    match fuel with
    | O => None
    | S fuel =>
        let front := where_ (fun i => (0 <=? col_max d i)%Z && (col_max d i <? Z.of_nat M)%Z) n in
        dda_while fuel n M (wipe front d) (count + length front) (fronts ++ [front])
    end
  else Some fronts.

(** lines 491-515 *)
Definition dda_ns (F : fltmat) (b : list (list nat)) : option (list (list nat)) :=
  dda_while (length F) (length F) (length (nth 0 F [])) (construct_domination_matrix F b) 0 [].

(** lines 531-539: insert [s] into the first front that does not hold a dominator *)
Fixpoint dda_insert (d : list (list Z)) (M : nat) (s : nat) (fronts : list (list nat)) : list (list nat) :=
  match fronts with
  | [] => [[s]]
  | fk :: rest =>
      if negb (existsb (fun i => Z.eqb (entry d i s) (Z.of_nat M)) fk) then (fk ++ [s]) :: rest
      else fk :: dda_insert d M s rest
  end.
(** lines 518-540; [I] = np.lexsort(f_scores.T) *)
Definition dda_ens (F : fltmat) (b : list (list nat)) (I : list nat) : list (list nat) :=
  let d := construct_domination_matrix F b in
  fold_left (fun fronts s => dda_insert d (length (nth 0 F [])) s fronts) I [].

(* ------------------------------------------------------------------------------------------------ *)
(** ** NonDominatedSorting.do (util/nds/non_dominated_sorting.py:18-70) *)

(** lines 39-46, [r] counts up to [ranks.max()] *)
Fixpoint do_default_loop (ranks : list nat) (n_fronts n_stop : option nat) (rs : list nat) (n_ranked : nat)
  : list (list nat) :=
  match rs with
  | [] => []
  | r :: rs =>
      if match n_fronts with Some k => k <=? r | None => false end then []
      else
        let front := where_ (fun i => nth i ranks 0 =? r) (length ranks) in
        let n_ranked := n_ranked + length front in
        front :: (if match n_stop with Some s => s <=? n_ranked | None => false end then []
                  else do_default_loop ranks n_fronts n_stop rs n_ranked)
  end.

(** lines 55-61 *)
Fixpoint do_dominator_loop (raw : list (list nat)) (n_stop : nat) (n_ranked : nat) : list (list nat) :=
  match raw with
  | [] => []
  | front :: raw =>
      let n_ranked := n_ranked + length front in
      front :: (if n_stop <=? n_ranked then [] else do_dominator_loop raw n_stop n_ranked)
  end.

(** lines 27-61: the fronts.  [ranks] = moocore.pareto_rank(F) (path without dominator; epsilon = None),
    [raw] = fast_non_dominated_sort with the custom dominator; [big] = int(1e8).
    With a dominator [n_fronts] is set (line 51) but never used. *)
Definition nds_do_fronts (n : nat) (dominator : bool) (ranks : list nat) (raw : list (list nat)) (big : nat)
    (only_first : bool) (n_stop n_fronts : option nat) : list (list nat) :=
  let n_fronts := if only_first then Some 1 else n_fronts in
  if n =? 0 then []
  else if negb dominator then
    do_default_loop ranks n_fronts n_stop (seq 0 (fold_left Nat.max ranks 0 + 1)) 0
  else
    do_dominator_loop raw (match n_stop with Some s => s | None => big end) 0.

(** line 64: the returned front when [only_non_dominated_front] *)
Definition nds_do_first (n : nat) (dominator : bool) (ranks : list nat) (raw : list (list nat)) (big : nat)
    (n_stop n_fronts : option nat) : list nat :=
  nth 0 (nds_do_fronts n dominator ranks raw big true n_stop n_fronts) [].

(** lines 73-79 [rank_from_fronts]; [maxsize] = sys.maxsize *)
Definition rank_from_fronts (maxsize : Z) (fronts : list (list nat)) (n : nat) : list Z :=
  fold_left (fun rank kf => fold_left (fun rank i => upd rank i (Z.of_nat (fst kf))) (snd kf) rank)
    (combine (seq 0 (length fronts)) fronts) (repeat maxsize n).
