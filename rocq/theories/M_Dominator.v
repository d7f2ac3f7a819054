(** * Model of /repo/pymoo/util/dominator.py *)
From Coq Require Import List ZArith Bool Floats.SpecFloat.
From Verif Require Import Flt ListAux.
Import ListNotations.

(** binary64 addition (numpy [+] on float64) *)
Definition fadd (x y : flt) : flt := SFadd 53 1024 x y.

(** dominator.py:43-53, the loop over the objectives of [Dominator.get_relation] with the running
    flag [val].  Python indexes [b[i]] for [i in range(len(a))]: with a shorter [b] it raises IndexError; that
    case is not modelled (all theorems assume equal lengths). *)
Fixpoint rel_loop (a b : list flt) (val : Z) : Z :=
  match a, b with
  | x :: a', y :: b' =>
      if fltb x y then (if Z.eqb val (-1) then 0%Z else rel_loop a' b' 1%Z)
      else if fltb y x then (if Z.eqb val 1 then 0%Z else rel_loop a' b' (-1)%Z)
      else rel_loop a' b' val
  | _, _ => val
  end.

(** dominator.py:24-53 [Dominator.get_relation(a, b, cva, cvb)]; [None] is Python's [None] *)
Definition get_relation (a b : list flt) (cva cvb : option flt) : Z :=
  match cva, cvb with
  | Some ca, Some cb =>
      if fltb ca cb then 1%Z
      else if fltb cb ca then (-1)%Z
      else rel_loop a b 0%Z
  | _, _ => rel_loop a b 0%Z
  end.

(** dominator.py:8-18 module level [get_relation(ind_a, ind_b)]: an individual is represented by its [F] and [CV[0]] *)
Definition get_relation_ind (ind_a ind_b : list flt * flt) : Z :=
  get_relation (fst ind_a) (fst ind_b) (Some (snd ind_a)) (Some (snd ind_b)).

(** zero matrix, and [M[i, j] = v] *)
Definition zeros2 (n m : nat) : list (list Z) := repeat (repeat 0%Z m) n.
Definition upd2 {A} (M : list (list A)) (i j : nat) (v : A) : list (list A) :=
  upd M i (upd (nth i M []) j v).
Definition entry (M : list (list Z)) (i j : nat) : Z := nth j (nth i M []) 0%Z.

(** dominator.py:55-75 [calc_domination_matrix_loop(F, G)].  The row sums of the positive parts of G
    (line 68) are the argument [CV] (arithmetic, not modelled). *)
Definition calc_domination_matrix_loop (F : list (list flt)) (CV : list flt) : list (list Z) :=
  let n := length F in
  fold_left (fun M i =>
    fold_left (fun M j =>
      let r := get_relation (nth i F []) (nth j F []) (Some (nth i CV f_nan)) (Some (nth j CV f_nan)) in
      let M := upd2 M i j r in
      upd2 M j i (- entry M i j)%Z)
      (seq (i + 1) (n - (i + 1))) M)
    (seq 0 n) (zeros2 n n).

(** [np.any(p(L, R), axis=1)] on one row pair *)
Definition any2 (p : flt -> flt -> bool) (r s : list flt) : bool := existsb (fun xy => p (fst xy) (snd xy)) (combine r s).

Definition b2z (b : bool) : Z := if b then 1%Z else 0%Z.

(** dominator.py:77-104 [calc_domination_matrix(F, _F, epsilon)] *)
Definition calc_domination_matrix (F : list (list flt)) (F' : option (list (list flt))) (epsilon : flt)
  : list (list Z) :=
  let G := match F' with None => F | Some G => G end in
  let n := length F in
  let m := length G in
  let L := flat_map (fun r => repeat r m) F in          (* np.repeat(F, m, axis=0) *)
  let R := concat (repeat G n) in                       (* np.tile(_F, (n, 1)) *)
  let smaller := reshape n m (map2 (any2 (fun x y => fltb (fadd x epsilon) y)) L R) in
  let larger := reshape n m (map2 (any2 (fun x y => fltb (fadd y epsilon) x)) L R) in
  map2 (map2 (fun s l => (b2z (s && negb l) * 1 + b2z (l && negb s) * (-1))%Z)) smaller larger.
