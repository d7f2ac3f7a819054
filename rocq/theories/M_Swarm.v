(** * Model of differential evolution, /repo/pymoo/algorithms/soo/nonconvex/de.py, and particle swarm optimisation, /repo/pymoo/algorithms/soo/nonconvex/pso.py.
    The population level is generic: individuals of any type with a view (objective, violation, feasibility); the variation is in exact rational arithmetic, one
    coordinate at a time.  The parent indices come from fast_fill_random (M_Selection), the polynomial mutation is in M_RealOps, parameter control is not modelled. *)
From Coq Require Import List Arith Bool QArith.
From Verif Require Import Flt ListAux M_Survival M_Bounds M_Cross.
Import ListNotations.
Local Open Scope nat_scope.

Section Replace.
  Context {A : Type} (d : A) (view : A -> ind1) (close : A -> A -> bool) (hc : bool).
  (** core/replacement.py:79-80 with core/duplicate.py: equal (distance <= 0) to an earlier offspring or to a member of the population *)
  Definition dup_idx (off pop : list A) : list nat :=
    where_ (fun k => existsb (fun j => (j <? k) && close (nth k off d) (nth j off d)) (seq 0 (length off)) ||
                     existsb (fun j => close (nth k off d) (nth j pop d)) (seq 0 (length pop))) (length off).
  (** pop[I] = values *)
  Definition assign (pop : list A) (J : list nat) (vals : list A) : list A := fold_left (fun p kv => upd p (fst kv) (snd kv)) (combine J vals) pop.

  (** de.py:283-288 *)
  Definition de_index (n_off pop_size : nat) (perm : list nat) : list nat := if n_off <? pop_size then firstn n_off perm else seq 0 n_off.
  (** de.py:274-293: [off] are the trial vectors made by the mating, trial k for target k; for more offspring than individuals X[K] (line 172) raises *)
  Definition de_infill (n_off pop_size : nat) (perm : list nat) (pop off : list A) : option (list nat * list A) :=
    if n_off <=? length pop then let J := de_index n_off pop_size perm in Some (J, gather d off J) else None.
  (** de.py:295-305 *)
  Definition de_advance (pop : list A) (J : list nat) (infills : list A) : list A :=
    assign pop J (improvement_replacement d view hc (gather d pop J) infills (dup_idx infills (gather d pop J))).
  (** de.py:305, 307-309: rank := np.argsort(np.lexsort([F, cv])), the inverse of a permutation; opt: the individuals of rank 0 *)
  Fixpoint pos (i : nat) (l : list nat) : nat := match l with [] => 0 | x :: l => if x =? i then 0 else S (pos i l) end.
  Definition de_opt (lex : list (flt * flt) -> list nat) (pop : list A) : list A :=
    let order := lex (map (fun a => (o_cv (view a), o_f (view a))) pop) in gather d pop (where_ (fun i => pos i order =? 0) (length pop)).
  (** a run: per generation the permutation and the evaluated trial vectors *)
  Fixpoint de_run (n_off pop_size : nat) (gens : list (list nat * list A)) (pop : list A) : option (list A) :=
    match gens with
    | [] => Some pop
    | (perm, off) :: gens => match de_infill n_off pop_size perm pop off with None => None | Some (J, infills) => de_run n_off pop_size gens (de_advance pop J infills) end
    end.
  (** pso.py:271-284: [pop] are the personal bests, the particles become the infills *)
  Definition pso_advance (pop infills : list A) : list A := improvement_replacement d view hc pop infills (dup_idx infills pop).
  Fixpoint pso_run (gens : list (list A)) (pop : list A) : list A := match gens with [] => pop | off :: gens => pso_run gens (pso_advance pop off) end.
End Replace.

(** ** the trial vector.  de.py:150-160, 166-213: [ps j] the parents' values of coordinate j (the first one is the base vector), [Fs j] the factors of the differences *)
Local Open Scope Q_scope.
Definition de_donor (bounded : bool) (ps Fs : nat -> list Q) (xl xu r1 r2 : nat -> Q) : nat -> Q := fun j =>
  let v := de_differential (ps j) (Fs j) in if bounded then repair_random_init v (nth 0 (ps j) 0) (xl j) (xu j) (r1 j) (r2 j) else v.
Inductive crossing := XMask (M : list bool) | XLine (w : Q) | XHypercube (w : list Q).
Definition de_trial (n : nat) (target donor : list Q) (c : crossing) : list Q :=
  match c with
  | XMask M => masked 0 target donor M
  | XLine w => map (fun j => nth j target 0 + w * (nth j donor 0 - nth j target 0)) (seq 0 n)
  | XHypercube w => map (fun j => nth j target 0 + nth j w 0 * (nth j donor 0 - nth j target 0)) (seq 0 n)
  end.
(** de.py:176-207 with the random numbers: bin, exp, line, hypercube *)
Definition de_bin (draws : list Q) (CR : Q) (r : nat) : crossing := XMask (mut_binomial draws CR true r).
Definition de_exp (n start : nat) (CR : Q) (draws : nat -> Q) (r : nat) : crossing := XMask (mut_exp n start CR draws true r).
Definition de_line (u CR : Q) : crossing := XLine (u * CR).
Definition de_hypercube (us : list Q) (CR : Q) : crossing := XHypercube (map (fun u => u * CR) us).

(** ** the swarm.  to_bound.py:9-33, one entry *)
Definition set_to_bounds (x xl xu : Q) : Q := let x := if Qltb x xl then xl else x in if Qltb xu x then xu else x.
(** pso.py:105-125, one entry: (new position, new velocity) *)
Definition pso_equation (x p s v vmax w c1 c2 r1 r2 : Q) : Q * Q :=
  let vp := set_to_bounds (w * v + c1 * r1 * (p - x) + c2 * r2 * (s - x)) (- vmax) vmax in (x + vp, vp).
(** pso.py:184-186 [_setup]: raises without bounds *)
Definition pso_vmax (rate : Q) (xl xu : option (list Q)) : option (list Q) :=
  match xl, xu with Some xl, Some xu => Some (map (Qmult rate) (map2 Qminus xu xl)) | _, _ => None end.
(** pso.py:191-204 *)
Definition pso_init_v (random : bool) (vmax r : Q) : Q := if random then r * vmax else 0.
(** pso.py:222-255, one particle: [rs] are the random numbers of the first and the repeated tries (at most 21); a particle is moved again while any of its
    coordinates is outside; [y1], [y2] the random numbers of the final repair *)
Definition pso_move (n : nat) (x p s v vmax : nat -> Q) (w c1 c2 : Q) (rs : list ((nat -> Q) * (nat -> Q))) (xl xu y1 y2 : nat -> Q) : (nat -> Q) * (nat -> Q) :=
  let eq r := fun j => pso_equation (x j) (p j) (s j) (v j) (vmax j) w c1 c2 (fst r j) (snd r j) in
  match rs with
  | [] => (x, v)
  | r0 :: rs =>
      let out m := existsb (fun j => Qltb (fst (m j)) (xl j) || Qltb (xu j) (fst (m j))) (seq 0 n) in
      let m := fold_left (fun m r => if out m then eq r else m) (firstn 20 rs) (eq r0) in
      (fun j => repair_random_init (fst (m j)) (x j) (xl j) (xu j) (y1 j) (y2 j), fun j => snd (m j))
  end.

(** ** adaptation.  pso.py:56-97 *)
Definition S1_exploration (f : Q) : Q :=
  if Qle_bool f (4 # 10) then 0 else if Qle_bool f (6 # 10) then 5 * f - 2 else if Qle_bool f (7 # 10) then 1 else if Qle_bool f (8 # 10) then - (10) * f + 8 else 0.
Definition S2_exploitation (f : Q) : Q :=
  if Qle_bool f (2 # 10) then 0 else if Qle_bool f (3 # 10) then 10 * f - 2 else if Qle_bool f (4 # 10) then 1 else if Qle_bool f (6 # 10) then - (5) * f + 3 else 0.
Definition S3_convergence (f : Q) : Q := if Qle_bool f (1 # 10) then 1 else if Qle_bool f (3 # 10) then - (5) * f + (3 # 2) else 0.
Definition S4_jumping_out (f : Q) : Q := if Qle_bool f (7 # 10) then 0 else if Qle_bool f (9 # 10) then 5 * f - (7 # 2) else 1.
Fixpoint argmax_from (best : Q) (bi i : nat) (l : list Q) : nat :=
  match l with [] => bi | x :: l => if Qltb best x then argmax_from x i (Datatypes.S i) l else argmax_from best bi (Datatypes.S i) l end.
Definition strategy (f : Q) : nat := Datatypes.S (argmax_from (S1_exploration f) 0 1 [S2_exploitation f; S3_convergence f; S4_jumping_out f]).
(** pso.py:310-336: [delta] in [0.05, 0.1) *)
Definition clip (x : Q) : Q := let x := if Qle_bool x (5 # 2) then x else 5 # 2 in if Qle_bool (3 # 2) x then x else 3 # 2.
Definition adapt_c (strat : nat) (delta c1 c2 : Q) : Q * Q :=
  let '(c1, c2) := match strat with
                   | 1%nat => (c1 + delta, c2 - delta)
                   | 2%nat => (c1 + (1 # 2) * delta, c2 - (1 # 2) * delta)
                   | 3%nat => (c1 + (1 # 2) * delta, c2 + (1 # 2) * delta)
                   | 4%nat => (c1 - delta, c2 + delta)
                   | _ => (c1, c2)
                   end in
  let c1 := clip c1 in let c2 := clip c2 in
  if Qltb 4 (c1 + c2) then let c1 := 4 * (c1 / (c1 + c2)) in let c2 := 4 * (c2 / (c1 + c2)) in (c1, c2) else (c1, c2).
(** pso.py:287-298: [D] the normalised distances between the personal bests, [G] the distances of the social best to them; for one particle 0/0 makes f NaN, the
    membership functions return None and argmax raises *)
Definition qsum_ (l : list Q) : Q := fold_right Qplus 0 l.
Definition qmin_ (l : list Q) : Q := match l with [] => 0 | x :: l => fold_left (fun a b => if Qle_bool a b then a else b) l x end.
Definition qmax_ (l : list Q) : Q := match l with [] => 0 | x :: l => fold_left (fun a b => if Qle_bool b a then a else b) l x end.
Definition pso_factor (tiny : Q) (D : list (list Q)) (G : list Q) : option Q :=
  if (length D <=? 1)%nat then None
  else
    let mD := map (fun r => qsum_ r / inject_Z (Z.of_nat (length D - 1))) D in
    let gD := qsum_ G / inject_Z (Z.of_nat (length G)) in
    Some ((gD - qmin_ mD) / (qmax_ mD - qmin_ mD + tiny)).
