(** * Model of /repo/pymoo/util/vf_dominator.py and of the decision-maker part of /repo/pymoo/algorithms/moo/pinsga2.py *)
From Coq Require Import List ZArith Bool Floats.SpecFloat Arith.
From Verif Require Import Flt ListAux M_Dominator M_NDS.
Import ListNotations.

(** binary64 [x * -1] (vf_dominator.py:79-80): the sign is flipped, NaN stays NaN *)
Definition fneg (x : flt) : flt := SFopp x.

(** vf_dominator.py:53-98 [VFDominator.calc_domination_matrix(F, _F, epsilon)].  [pref] = None when [algorithm.vf_res is None];
    otherwise the value function (applied to one negated row; numpy applies it to all the rows at once) and [algorithm.v2].
    Simplification: with exactly one row and the polynomial value function the result of [vf] is squeezed to a scalar and line 79 raises. *)
Definition vf_calc (pref : option ((list flt -> flt) * flt)) (F : list (list flt)) (F' : option (list (list flt))) (epsilon : flt)
  : list (list Z) :=
  let G := match F' with None => F | Some G => G end in
  let n := length F in
  let m := length G in
  let L := flat_map (fun r => repeat r m) F in
  let R := concat (repeat G n) in
  let smaller := reshape n m (map2 (any2 (fun x y => fltb (fadd x epsilon) y)) L R) in
  let larger := reshape n m (map2 (any2 (fun x y => fltb (fadd y epsilon) x)) L R) in
  let non_dom := map2 (map2 (fun s l => s && negb l)) smaller larger in
  let dom := map2 (map2 (fun l s => l && negb s)) larger smaller in
  let dom := match pref with
             | None => dom
             | Some (vf, v2) =>
                 let F_vf := map (fun r => vf (map fneg r)) F in
                 let G_vf := map (fun r => vf (map fneg r)) G in
                 let Lv := flat_map (fun v => repeat v m) F_vf in
                 let Rv := concat (repeat G_vf n) in
                 let gtv2 := reshape n m (map (fun v => fltb v v2) Lv) in
                 let ltv2 := reshape n m (map (fun v => fltb v2 v) Rv) in
                 map2 (map2 orb) dom (map2 (map2 andb) gtv2 ltv2)
             end in
  map2 (map2 (fun a b => (b2z a * 1 + b2z b * (-1))%Z)) non_dom dom.

(** non_dominated_sorting.py:47-61 with dominator = VFDominator(self) (pinsga2.py:69): the fronts the survival of PINSGA2 works with *)
Definition vf_fronts (pref : option ((list flt -> flt) * flt)) (F : list (list flt)) : option (list (list nat)) :=
  fast_nds (fun F => vf_calc pref F None f_zero) F.

(** the answers of the decision maker: [a] the first, [b] the second, [c] equivalent *)
Inductive pref3 := PA | PB | PC.

Section Interaction.
  (** rows of objective values, values *)
  Variables (row val : Type).

  (** pinsga2.py:166-175, the [while True] loop.  [dm t a b] is the answer to the question number [t] about the rows [a] and [b], any function:
      the decision maker may change her mind; None an answer other than a, b, c (stripping and lower-casing not modelled).
      [fuel] bounds the repetitions of one question; None: it never ends. *)
  Fixpoint ask (dm : nat -> row -> row -> option pref3) (fuel t : nat) (a b : row) : option (nat * pref3) :=
    match fuel with
    | O => None
    | S fuel => match dm t a b with Some p => Some (S t, p) | None => ask dm fuel (S t) a b end
    end.

  (** pinsga2.py:165-191: the new index [i] is compared with the first member of each group in turn *)
  Fixpoint place (dm : nat -> row -> row -> option pref3) (fuel t : nat) (F : list row) (d : row) (i : nat) (groups : list (list nat))
    : option (nat * list (list nat)) :=
    match groups with
    | [] => Some (t, [[i]])
    | g :: gs =>
        match ask dm fuel t (nth i F d) (nth (hd 0 g) F d) with
        | None => None
        | Some (t, PA) => Some (t, [i] :: g :: gs)
        | Some (t, PC) => Some (t, (g ++ [i]) :: gs)
        | Some (t, PB) => match place dm fuel t F d i gs with Some (t, gs) => Some (t, g :: gs) | None => None end
        end
    end.

  (** pinsga2.py:155-191 *)
  Definition pairwise_groups (dm : nat -> row -> row -> option pref3) (fuel : nat) (F : list row) (d : row) : option (nat * list (list nat)) :=
    fold_left (fun st i => match st with Some (t, gs) => place dm fuel t F d i gs | None => None end) (seq 0 (length F)) (Some (0, [])).

  (** pinsga2.py:193-199 *)
  Definition ranks_of_groups (n : nat) (groups : list (list nat)) : list Z :=
    map (fun r => (r + 1)%Z)
      (fold_left (fun ranks kg => fold_left (fun ranks i => upd ranks i (Z.of_nat (fst kg))) (snd kg) ranks)
         (combine (seq 0 (length groups)) groups) (repeat 0%Z n)).

  (** pinsga2.py:142-199 [_get_pairwise_ranks] *)
  Definition pairwise_ranks (dm : nat -> row -> row -> option pref3) (fuel : nat) (F : list row) (d : row) : option (list Z) :=
    match pairwise_groups dm fuel F d with Some (_, gs) => Some (ranks_of_groups (length F) gs) | None => None end.

  (** pinsga2.py:202-223 [_get_ranks]: [answers] the lists typed at the successive prompts; an answer that does not parse raises (outer None in the
      list); the result None: exception or no acceptable answer *)
  Definition ranks_valid (n : nat) (ranks : list Z) : bool :=
    match ranks with
    | [] => false
    | r :: rs => (fold_left Z.max rs r <=? Z.of_nat n)%Z && (1 <=? fold_left Z.min rs r)%Z
    end.
  Fixpoint get_ranks (n : nat) (answers : list (option (list Z))) : option (list Z) :=
    match answers with
    | [] => None
    | None :: _ => None
    | Some r :: answers => if ranks_valid n r then Some r else get_ranks n answers
    end.

  (** Python/numpy index [l[z]] of a sequence of length n: negative indices count from the end; None: IndexError *)
  Definition pyidx (n : nat) (z : Z) : option nat :=
    if (0 <=? z)%Z && (z <? Z.of_nat n)%Z then Some (Z.to_nat z)
    else if (- Z.of_nat n <=? z)%Z && (z <? 0)%Z then Some (Z.to_nat (Z.of_nat n + z))
    else None.
  Definition delete {A} (k : nat) (l : list A) : list A := firstn k l ++ skipn (S k) l.

  (** what the interaction ends with: a fitted function with its v2, no preference, or (the loop not entered) what was there *)
  Inductive outcome := Fitted (vf : row -> val) (v2 : val) | Reset | Unchanged.

  (** pinsga2.py:308-357.  [fit eta_F dm_ranks] = mvf.create_linear_vf/create_poly_vf on the negated rows: None an exception, else the function
      (of the row before negation) and the flag [fit].  [fuel] >= the number of rows is enough. *)
  Fixpoint refit (fit : list row -> list Z -> option ((row -> val) * bool)) (d : row) (fuel : nat) (eta_F : list row) (dm_ranks : list Z) : option outcome :=
    if length eta_F <=? 1 then Some Unchanged
    else match fuel with
    | O => None
    | S fuel =>
        match fit eta_F dm_ranks with
        | None => None
        | Some (vf, true) =>
            match dm_ranks with
            | _ :: r1 :: _ =>
                match pyidx (length eta_F) (r1 - 1) with
                | Some k => Some (Fitted vf (vf (nth k eta_F d)))
                | None => None
                end
            | _ => None
            end
        | Some (vf, false) =>
            if length eta_F =? 2 then Some Reset
            else match dm_ranks with
                 | r0 :: r1 :: rest =>
                     match pyidx (length eta_F) (r1 - 1) with
                     | Some k =>
                         refit fit d fuel (delete k eta_F) (map (fun r => if (r1 <? r)%Z then (r - 1)%Z else r) (r0 :: rest))
                     | None => None
                     end
                 | _ => None
                 end
        end
    end.

  (** the fields of PINSGA2 that [_advance] uses (pinsga2.py:86-104) *)
  Record pstate := { ps_pop : list (nat * row);           (* rank and F of each member *)
                     ps_prev : option (list (nat * row));
                     ps_vf : option ((row -> val) * val); (* vf_res and v2 *)
                     ps_hist : list row;                  (* historical_F; None is the empty list *)
                     ps_eta_F : list row }.

  (** pinsga2.py:225-234 [_reset_dm_preference] *)
  Definition reset_pref (s : pstate) : pstate :=
    {| ps_pop := match ps_prev s with Some p => p | None => [] end; ps_prev := ps_prev s; ps_vf := None; ps_hist := ps_hist s; ps_eta_F := [] |}.

  (** pinsga2.py:236-357 [_advance].  [pop]: the population [super()._advance] leaves behind; [select F k]: select_points_with_maximum_distance;
      [uniq]: np.unique(axis=0) after the sort by the first column; [consult eta_F]: the ranks of the decision maker, None an exception.
      [n_gen mod tau] with tau = 0 raises. *)
  Definition pin_advance (select : list row -> nat -> list nat) (uniq : list row -> list row) (consult : list row -> option (list Z))
      (fit : list row -> list Z -> option ((row -> val) * bool)) (d : row) (eta tau n_gen : nat) (pop : list (nat * row)) (s : pstate) : option pstate :=
    let F := map snd (filter (fun p => fst p =? 0) pop) in
    let to_find := if eta <=? length F then eta else length F in
    let eta_F := uniq (map (fun i => nth i F d) (select F to_find)) in
    let s := {| ps_pop := pop; ps_prev := Some pop; ps_vf := ps_vf s; ps_hist := ps_hist s ++ F; ps_eta_F := eta_F |} in
    if tau =? 0 then None
    else if negb (n_gen mod tau =? 0) then Some s
    else if length eta_F <? 2 then Some (reset_pref s)
    else match consult eta_F with
         | None => None
         | Some dm_ranks =>
             if length (nodup Nat.eq_dec (map fst pop)) =? 0 then Some (reset_pref s)
             else match refit fit d (length eta_F) eta_F dm_ranks with
                  | None => None
                  | Some (Fitted vf v2) =>
                      Some {| ps_pop := ps_pop s; ps_prev := ps_prev s; ps_vf := Some (vf, v2); ps_hist := ps_hist s; ps_eta_F := ps_eta_F s |}
                  | Some Reset => Some (reset_pref s)
                  | Some Unchanged => Some s
                  end
         end.
End Interaction.
