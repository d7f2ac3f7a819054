(** * Model of C-TAEA: /repo/pymoo/algorithms/moo/ctaea.py (CADASurvival, comp_by_cv_dom_then_random, RestrictedMating, _set_optimum).
    Individuals are of any type [A]; niche and decomposed fitness of an individual for the current ideal point (lines 108-121 [_associate]) and the distances in the
    objective space are parameters, as are the sorters.  Simplifications: a difference of distances is negative (zero) exactly if they are ordered (equal); the counters of the
    niches are recomputed from the survivors (the code decrements them); picks made after the archive is full (never used) are not recorded. *)
From Coq Require Import List Arith Bool ZArith.
From Verif Require Import Flt ListAux M_Dominator M_NDS M_Optimum M_NSGA3.
Import ListNotations.
Local Open Scope nat_scope.

(** np.argmax of a list without NaN: the first maximum *)
Fixpoint fargmax_from (best : flt) (bi i : nat) (l : list flt) : nat :=
  match l with [] => bi | x :: l => if fltb best x then fargmax_from x i (S i) l else fargmax_from best bi (S i) l end.
Definition fargmax (l : list flt) : nat := match l with [] => 0 | x :: l => fargmax_from x 0 1 l end.
(** np.min of distances, infinity if there is none *)
Definition fmin (l : list flt) : flt := fold_left (fun a x => if fltb x a then x else a) l f_inf.

(** position of an element in a list *)
Fixpoint pos_in (x : nat) (l : list nat) : nat := match l with [] => 0 | y :: l => if x =? y then 0 else S (pos_in x l) end.

Section CTAEA.
  Context {A : Type} (d : A) (obj : A -> list flt) (cv : A -> flt) (niche : A -> nat) (fv : A -> flt) (dist : A -> A -> flt).
  (** NonDominatedSorting().do(F, n_stop_if_ranked=n); np.argsort *)
  Variables (nds : fltmat -> nat -> list (list nat)) (asort : list flt -> list nat).
  Variable pop : list A.
  Let ind i := nth i pop d.

  (** ctaea.py:135-151: not enough feasible individuals: the best infeasible ones, by (CV, fitness); positions in [SI] *)
  Definition fill_ca (cvs : list flt) (remainder : nat) (I front : list nat) : list nat :=
    if length I + length front <=? remainder then I ++ front
    else I ++ firstn (remainder - length I) (gather 0 front (asort (gather f_nan cvs front))).
  Definition ca_few (remainder : nat) (infe : list nat) : list nat :=
    let cvs := map (fun i => cv (ind i)) infe in
    let sub_F := map (fun i => [cv (ind i); fv (ind i)]) infe in
    gather 0 infe (fold_left (fill_ca cvs remainder) (nds sub_F remainder) []).

  (** lines 158-200: too many feasible individuals: [J] the candidates, [surv] those still in (both lists of positions in [pop]) *)
  Definition crowd (surv : list nat) (k : nat) : list nat := filter (fun i => niche (ind i) =? k) surv.
  (** lines 175-193 for one niche; [swap]: random_state.shuffle of the pair *)
  Definition niche_worst (J surv : list nat) (swap : bool) (k : nat) : nat :=
    let c := crowd surv k in
    let nw := nth (fargmax (map (fun i => fv (ind i)) c)) c 0 in
    let min_d := fmin (map (fun j => if j =? nw then f_inf else dist (ind nw) (ind j)) surv) in
    let pairs := flat_map (fun a => map (fun b => (a, b)) c) c in
    let dp p := if fst p =? snd p then f_inf else dist (ind (fst p)) (ind (snd p)) in
    let pr := nth (np_argmin (map dp pairs)) pairs (0, 0) in
    let idx := fz (Z.of_nat (pos_in nw J)) in     (* the code compares the fitness with the index [niche_worst] *)
    if fltb (dp pr) min_d || (feqb (dp pr) min_d && (fltb idx (fv (ind (fst pr))) || fltb idx (fv (ind (snd pr))))) then
      let closest := if swap then [snd pr; fst pr] else [fst pr; snd pr] in
      nth (fargmax (map (fun i => fv (ind i)) closest)) closest 0
    else nw.
  (** lines 170-199: the individual removed; None: none has a fitness above -1 *)
  Definition worst (J surv : list nat) (swap : nat -> bool) : option nat :=
    let index := np_unique (map (fun i => niche (ind i)) J) in
    let count k := length (crowd surv k) in
    let crowdest := filter (fun k => forallb (fun k' => count k' <=? count k) index) index in
    fst (fold_left (fun '(w, fit) k => let x := niche_worst J surv (swap k) k in if fltb fit (fv (ind x)) then (Some x, fv (ind x)) else (w, fit)) crowdest (None, fz (-1))).
  Fixpoint ca_drop (fuel n : nat) (swap : nat -> nat -> bool) (J surv : list nat) : list nat :=
    match fuel with
    | O => surv
    | S fuel => if n <? length surv then
                  match worst J surv (swap fuel) with
                  | Some x => ca_drop fuel n swap J (filter (fun i => negb (i =? x)) surv)
                  | None => []          (* survivors[None] = False *)
                  end
                else surv
    end.
  (** lines 123-203 [_updateCA]: positions of the members of the convergence archive, and of survival.opt *)
  Definition update_ca (n : nat) (swap : nat -> nat -> bool) : list nat * list nat :=
    let fe := where_ (fun i => feqb (cv (ind i)) f_zero) (length pop) in
    let infe := where_ (fun i => fltb f_zero (cv (ind i))) (length pop) in
    let F l := map (fun i => obj (ind i)) l in
    if length fe =? n then (fe, gather 0 fe (nth 0 (nds (F fe) (length fe)) []))
    else if length fe <? n then
      let ca := fe ++ ca_few (n - length fe) infe in (ca, gather 0 ca (nth 0 (nds (F ca) (length ca)) []))
    else
      let fronts := nds (F fe) n in
      let J := gather 0 fe (concat fronts) in
      let ca := if n <? length J then ca_drop (length J) n swap J J else J in
      (ca, filter (fun i => existsb (Nat.eqb i) (gather 0 fe (nth 0 fronts []))) ca).
End CTAEA.

Section DA.
  Context {A : Type} (d : A) (obj : A -> list flt) (niche : A -> nat) (fv : A -> flt) (ff : fltmat -> list nat).
  Variables (ca Hd : list A) (n : nat).
  Let ind i := nth i Hd d.
  (** ctaea.py:205-230 [_updateDA] *)
  Definition available (got : list nat) (k : nat) : list nat := where_ (fun i => (niche (ind i) =? k) && negb (existsb (Nat.eqb i) got)) (length Hd).
  Definition best_of (l : list nat) : nat :=
    let nd := ff (map (fun i => obj (ind i)) l) in
    nth (nth (np_argmin (map (fun p => fv (ind (nth p l 0))) nd)) nd 0) l 0.
  Fixpoint da_niche (c : nat) (k : nat) (got : list nat) : list nat :=
    match c with
    | O => got
    | S c => match available got k with [] => got | l => da_niche c k (if length got <? n then got ++ [best_of l] else got) end
    end.
  Definition ca_count (k : nat) : nat := length (filter (fun a => niche a =? k) ca).
  Definition da_round (itr : nat) (got : list nat) : list nat := fold_left (fun got k => da_niche (itr - ca_count k) k got) (seq 0 n) got.
  Fixpoint da_loop (fuel itr : nat) (got : list nat) : option (list nat) :=
    if length got <? n then match fuel with O => None | S fuel => da_loop fuel (S itr) (da_round itr got) end else Some got.
  Definition update_da (fuel : nat) : option (list nat) := da_loop fuel 1 [].
End DA.
(** ctaea.py:93-106 [CADASurvival.do]: the new archives, and survival.opt; niche and fitness belong to the updated ideal point *)
Definition ctaea_do {A} (d : A) obj cv niche fv dist nds ff asort swap fuel (pop da : list A) (n : nat) : option (list A * list A * list A) :=
  let off := skipn (length pop - n) pop in
  let '(ca, opt) := update_ca d obj cv niche fv dist nds asort pop n swap in
  let CA := gather d pop ca in
  let Hd := da ++ off in
  match update_da d obj niche fv ff CA Hd n fuel with Some got => Some (CA, gather d Hd got, gather d pop opt) | None => None end.
(** lines 326-330 [_set_optimum] *)
Definition ctaea_opt {A} (d : A) (cv : A -> flt) (feas : A -> bool) (CA opt : list A) : list A := if existsb feas CA then opt else [nth (np_argmin (map cv CA)) CA d].

(** ctaea.py:30-52 [comp_by_cv_dom_then_random], one row; [coin]: random_state.choice *)
Definition ctaea_comp (F : list (list flt)) (cv : list flt) (coin : bool) (a b : nat) : nat :=
  let ok i := fleb (nth i cv f_nan) f_zero in
  let any := if coin then a else b in
  if ok a && ok b then let r := get_relation (nth a F []) (nth b F []) None None in if (r =? 1)%Z then a else if (r =? -1)%Z then b else any
  else if ok a then a else if ok b then b else any.
(** ctaea.py:55-82 [RestrictedMating._do], the pairs compared: [P] the random permutations' entries (below n_pop), row i of n_select * n_parents rows;
    [Pc_le_Pd], [far]: the outcomes of the comparisons in lines 73 and 77 *)
Definition restricted_row (n_pop n_parents : nat) (P : nat -> nat -> nat) (Pc_le_Pd : bool) (far : nat -> bool) (i j : nat) : nat :=
  P i j + (if ((i mod n_parents =? 0) && Pc_le_Pd) then n_pop else 0) + (if ((i mod n_parents =? 1) && far (i / n_parents)) then n_pop else 0).
