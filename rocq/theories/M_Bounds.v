(** * Model of the bound handling of operators: /repo/pymoo/operators/repair/{bounds_repair,to_bound,bounce_back,inverse_penalty,rounding}.py,
    /repo/pymoo/operators/crossover/{sbx,dex}.py, /repo/pymoo/operators/mutation/{pm,gauss}.py.
    numpy applies every formula entry by entry; the model gives the entry function and lifts it over the vector ([lift]).
    Clamping operators are modelled in binary64 ([flt], NaN included); repairs that compute (scaling, modulo) in exact rationals,
    with [None] for NaN.  Random numbers are parameters. *)
From Coq Require Import List Arith Bool ZArith QArith Qround.
From Coq Require Import Floats.SpecFloat.
From Verif Require Import Flt ListAux.
Import ListNotations.
Local Open Scope nat_scope.

(** ** clamping, binary64 *)
(** bounds_repair.py:82-101 [repair_clamp]; to_bound.py:9-33 [set_to_bounds_if_outside]; dex.py [to_bounds] (one entry) *)
Definition clamp (x xl xu : flt) : flt :=
  let x := if fltb x xl then xl else x in
  if fltb xu x then xu else x.
Definition lift3 {A B} (d : A) (f : A -> A -> A -> B) (X xl xu : list A) : list B :=
  map (fun i => f (nth i X d) (nth i xl d) (nth i xu d)) (seq 0 (length X)).
Definition repair_clamp (X xl xu : list flt) : list flt := lift3 f_nan clamp X xl xu.
(** to_bound.py: bounds may be missing (None) *)
Definition set_to_bounds_if_outside (X : list flt) (xl xu : option (list flt)) : list flt :=
  let X := match xl with None => X
           | Some xl => map (fun i => if fltb (nth i X f_nan) (nth i xl f_nan) then nth i xl f_nan else nth i X f_nan) (seq 0 (length X)) end in
  match xu with None => X
  | Some xu => map (fun i => if fltb (nth i xu f_nan) (nth i X f_nan) then nth i xu f_nan else nth i X f_nan) (seq 0 (length X)) end.
(** bounds_repair.py:39-50 [is_out_of_bounds] (one row) *)
Definition is_out_of_bounds (X xl xu : list flt) : bool :=
  existsb (fun b => b) (lift3 f_nan (fun x l u => fltb x l || fltb u x) X xl xu).

(** ** binary64 arithmetic *)
Definition add (x y : flt) : flt := SFadd 53 1024 x y.
Definition sub (x y : flt) : flt := SFsub 53 1024 x y.
Definition mul (x y : flt) : flt := SFmul 53 1024 x y.
Definition div (x y : flt) : flt := SFdiv 53 1024 x y.
Definition opp (x : flt) : flt := SFopp x.
Definition fabs (x : flt) : flt := SFabs x.
Definition f_half : flt := S754_finite false 4503599627370496 (-53).
Definition f_one : flt := fz 1.
Definition f_two : flt := fz 2.

(** sbx.py:17-88 [cross_sbx], one variable of one mating.  [pow] is the platform's power function (arbitrary); [do_cross] tells whether the
    drawn number is below prob_var, [rand] the number used for the spread, [exch] whether the second draw is below prob_bin. *)
Section SBX.
  Variable pow : flt -> flt -> flt.
  Definition calc_betaq (rand eta beta : flt) : flt :=
    let alpha := sub f_two (pow beta (opp (add eta f_one))) in
    if fleb rand (div f_one alpha) then pow (mul rand alpha) (div f_one (add eta f_one))
    else if fltb (div f_one alpha) rand then pow (div f_one (sub f_two (mul rand alpha))) (div f_one (add eta f_one))
    else f_zero.                                              (* neither mask holds (NaN): np.zeros *)
  Definition sbx_children (p1 p2 xl xu eta rand : flt) (exch : bool) : flt * flt :=
    let sm := fltb p1 p2 in
    let y1 := if sm then p1 else p2 in
    let y2 := if sm then p2 else p1 in
    let delta := sub y2 y1 in
    let betaq := calc_betaq rand eta (add f_one (div (mul f_two (sub y1 xl)) delta)) in
    let c1 := mul f_half (sub (add y1 y2) (mul betaq delta)) in
    let betaq := calc_betaq rand eta (add f_one (div (mul f_two (sub xu y2)) delta)) in
    let c2 := mul f_half (add (add y1 y2) (mul betaq delta)) in
    let child1 := if sm then c1 else c2 in
    let child2 := if sm then c2 else c1 in
    let b := xorb exch (fltb p2 p1) in
    if b then (child2, child1) else (child1, child2).
  Definition cross_sbx (p1 p2 xl xu eta eps rand : flt) (do_cross exch : bool) : flt * flt :=
    let cross := do_cross && negb (fleb (fabs (sub p1 p2)) eps) && negb (feqb xl xu) in
    let '(q1, q2) := if cross then sbx_children p1 p2 xl xu eta rand exch else (p1, p2) in
    (clamp q1 xl xu, clamp q2 xl xu).

  (** pm.py:18-84 [mut_pm], one variable *)
  Definition mut_pm (x xl xu eta rand : flt) (do_mut : bool) : flt :=
    let mut := do_mut && negb (feqb xl xu) in
    let y :=
      if mut then
        let delta1 := div (sub x xl) (sub xu xl) in
        let delta2 := div (sub xu x) (sub xu xl) in
        let mut_pow := div f_one (add eta f_one) in
        let deltaq :=
          if fleb rand f_half then
            let xy := sub f_one delta1 in
            let val := add (mul f_two rand) (mul (sub f_one (mul f_two rand)) (pow xy (add eta f_one))) in
            sub (pow val mut_pow) f_one
          else
            let xy := sub f_one delta2 in
            let val := add (mul f_two (sub f_one rand)) (mul (mul f_two (sub rand f_half)) (pow xy (add eta f_one))) in
            sub f_one (pow val mut_pow) in
        clamp (add x (mul deltaq (sub xu xl))) xl xu
      else x in
    clamp y xl xu.
End SBX.

(** inverse_penalty.py:9-58: [computed] stands for [x + (p - x) * Y / normv] (any vector); only the final clamp matters for the bounds *)
Definition inverse_penalty (x computed xl xu : list flt) : list flt :=
  if negb (is_out_of_bounds x xl xu) then x else repair_clamp computed xl xu.

(** ** exact repairs *)
Local Open Scope Q_scope.
Definition Qltb (a b : Q) : bool := negb (Qle_bool b a).
(** np.mod(a, r) = a - r * floor(a / r); NaN for r = 0 *)
Definition np_mod (a r : Q) : option Q := if Qeq_bool r 0 then None else Some (a - r * inject_Z (Qfloor (a / r))).
Definition obind {A B} (o : option A) (f : A -> option B) : option B := match o with Some x => f x | None => None end.

(** bounce_back.py:9-34 [bounce_back] (one entry; a NaN entry is not compared true with anything and stays) *)
Definition bounce_back (x xl xu : Q) : option Q :=
  let range := xu - xl in
  obind (if Qltb x xl then option_map (fun m => xl + m) (np_mod (xl - x) range) else Some x)
    (fun x => if Qltb xu x then option_map (fun m => xu - m) (np_mod (x - xu) range) else Some x).
(** bounds_repair.py:104-125 [repair_periodic] *)
Definition repair_periodic (x xl xu : Q) : option Q :=
  let s := xu - xl in
  obind (if Qltb x xl then option_map (fun m => xu - m) (np_mod (xl - x) s) else Some x)
    (fun x => if Qltb xu x then option_map (fun m => xl + m) (np_mod (x - xu) s) else Some x).
(** bounds_repair.py:128-152 [repair_random_init]; dex.py [bounce_back]: [p] is the parent's value, [r1], [r2] random numbers in [0,1) *)
Definition repair_random_init (x p xl xu r1 r2 : Q) : Q :=
  let x := if Qltb x xl then xl + r1 * (p - xl) else x in
  if Qltb xu x then xu - r2 * (xu - p) else x.
(** dex.py [midway] *)
Definition midway (x p xl xu : Q) : Q :=
  let x := if Qltb x xl then xl + (p - xl) / 2 else x in
  if Qltb xu x then xu - (xu - p) / 2 else x.
(** dex.py [rand_init] *)
Definition rand_init (x xl xu r1 r2 : Q) : Q :=
  let x := if Qltb x xl then xl + r1 * (xu - xl) else x in
  if Qltb xu x then xu - r2 * (xu - xl) else x.
(** dex.py [to_bounds] *)
Definition to_bounds (x xl xu : Q) : Q :=
  let x := if Qltb x xl then xl else x in
  if Qltb xu x then xu else x.

(** gauss.py:16-36 [mut_gauss], one variable: [noise] = the value drawn from the normal distribution.
    The repair draws from its own generator (no random_state is passed). *)
Definition mut_gauss (x xl xu noise r1 r2 : Q) (mut : bool) : Q :=
  repair_random_init (if mut then noise else x) x xl xu r1 r2.

(** dex.py:19-57 [de_differential], one variable: [ps] the parents' values, [Fs] the scale factors of the pairs *)
Fixpoint de_diffs (Fs ps : list Q) : Q :=
  match Fs, ps with
  | F :: Fs, a :: b :: ps => F * (a - b) + de_diffs Fs ps
  | _, _ => 0
  end.
Definition de_differential (ps Fs : list Q) : Q := match ps with p0 :: ps => p0 + de_diffs Fs ps | [] => 0 end.
(** dex.py:86-137 [DEX.do], one individual: the donor is recomputed [length Fss - 1] times while it is out of bounds, then repaired;
    [M] is the crossover mask *)
Definition dex_donor (n : nat) (parents : nat -> list Q) (xl xu : nat -> Q) (bounded : bool) (Fss : list (nat -> list Q)) (r1 r2 : nat -> Q) : nat -> Q :=
  match Fss with
  | [] => fun _ => 0
  | F0 :: Fss =>
      let v0 := fun j => de_differential (parents j) (F0 j) in
      if bounded then
        let out v := existsb (fun j => Qltb (v j) (xl j) || Qltb (xu j) (v j)) (seq 0 n) in
        let v := fold_left (fun v F => if out v then (fun j => de_differential (parents j) (F j)) else v) Fss v0 in
        fun j => repair_random_init (v j) (nth 0 (parents j) 0) (xl j) (xu j) (r1 j) (r2 j)
      else v0
  end.
Definition dex (n : nat) (parents : nat -> list Q) (xl xu : nat -> Q) (bounded : bool) (Fss : list (nat -> list Q)) (r1 r2 : nat -> Q)
    (M : list bool) : list Q :=
  map (fun j => if nth j M false then dex_donor n parents xl xu bounded Fss r1 r2 j else nth 0 (parents j) 0) (seq 0 n).

(** rounding.py: np.around(X).astype(int): round half to even *)
Definition around (q : Q) : Z :=
  let f := Qfloor q in
  let d := q - inject_Z f in
  if Qltb d (1 # 2) then f else if Qltb (1 # 2) d then (f + 1)%Z else if Z.even f then f else (f + 1)%Z.
