(** * Model of /repo/pymoo/util/normalization.py and of HyperplaneNormalization (/repo/pymoo/algorithms/moo/nsga3.py:292-377, the same
    functions get_extreme_points_c and get_nadir_point as normalization.py:235-287), and of /repo/pymoo/problems/zero_to_one.py.
    Exact arithmetic; NaN as a bound is [None].  np.linalg.solve is an arbitrary function ([None]: LinAlgError).  [1 / 0] is +inf ([None] in a
    list of intercepts; a negative zero, which would give -inf, is not modelled). *)
From Coq Require Import List Arith Bool ZArith QArith.
From Verif Require Import ListAux M_Individual M_Survival M_RefDirs2.
Import ListNotations.
Local Open Scope Q_scope.

(** ** ZeroToOneNormalization *)
Definition bnd : Type := option Q * option Q.
(** lines 42-69 for one variable: [xu] becomes NaN when both are equal; None: the assertion fails *)
Definition zto_init1 (xl xu : option Q) : option bnd :=
  match xl, xu with
  | Some a, Some b => if Qeq_bool a b then Some (Some a, None) else if Qle_bool a b then Some (Some a, Some b) else None
  | _, _ => Some (xl, xu)
  end.
Fixpoint zto_init (xl xu : list (option Q)) : option (list bnd) :=
  match xl, xu with
  | a :: xl, b :: xu => match zto_init1 a b, zto_init xl xu with Some x, Some r => Some (x :: r) | _, _ => None end
  | _, _ => Some []
  end.
(** lines 71-87 and 89-103 for one entry *)
Definition zto_forward1 (b : bnd) (x : Q) : Q :=
  match b with
  | (Some l, Some u) => (x - l) / (u - l)
  | (Some l, None) => x - l
  | (None, Some u) => 1 - (u - x)
  | (None, None) => x
  end.
Definition zto_backward1 (b : bnd) (n : Q) : Q :=
  match b with
  | (Some l, Some u) => l + n * (u - l)
  | (Some l, None) => n + l
  | (None, Some u) => u - (1 - n)
  | (None, None) => n
  end.
(** N = np.copy(X) keeps the type of X: values written into an integer array are truncated *)
Definition trunc (q : Q) : Z := Z.quot (Qnum q) (Zpos (Qden q)).
Definition store (is_int : bool) (q : Q) : Q := if is_int then inject_Z (trunc q) else q.
Definition untouched (b : bnd) : bool := match b with (None, None) => true | _ => false end.
Definition zto_forward (is_int : bool) (bs : list bnd) (X : list (list Q)) : list (list Q) :=
  map (fun r => map2 (fun b x => store (is_int && negb (untouched b)) (zto_forward1 b x)) bs r) X.
Definition zto_backward (is_int : bool) (bs : list bnd) (X : list (list Q)) : list (list Q) :=
  map (fun r => map2 (fun b x => store (is_int && negb (untouched b)) (zto_backward1 b x)) bs r) X.

(** np.min / np.max of the columns of a non-empty matrix with [m] columns *)
Definition column (j : nat) (X : list (list Q)) : list Q := map (fun r => nth j r 0) X.
Definition col_min (m : nat) (X : list (list Q)) : list Q := map (fun j => qmin_list (column j X)) (seq 0 m).
Definition col_max (m : nat) (X : list (list Q)) : list Q := map (fun j => q_max_list (column j X)) (seq 0 m).
(** lines 152-171 [normalize] for a non-empty matrix with [m] columns; the bounds are arrays or None; estimate_bounds_if_none=True.
    None: the assertion fails *)
Definition normalize (is_int : bool) (m : nat) (X : list (list Q)) (xl xu : option (list (option Q))) : option (list (list Q)) :=
  let xl := match xl with Some l => l | None => map Some (col_min m X) end in
  let xu := match xu with Some u => u | None => map Some (col_max m X) end in
  match zto_init xl xu with None => None | Some bs => Some (zto_forward is_int bs X) end.
(** lines 174-175 *)
Definition denormalize (is_int : bool) (X : list (list Q)) (xl xu : list (option Q)) : option (list (list Q)) :=
  match zto_init xl xu with None => None | Some bs => Some (zto_backward is_int bs X) end.

(** ** SimpleZeroToOneNormalization (lines 112-144): the object keeps its bounds *)
Record szto := { s_xl : option (list Q); s_xu : option (list Q); s_estimate : bool }.
Definition tiny : Q := 1 # (10 ^ 32).
(** one call of [forward]; None as a result: an exception (missing bounds) *)
Definition szto_forward (m : nat) (s : szto) (X : list (list Q)) : szto * option (list (list Q)) :=
  let xl := match s_xl s with None => if s_estimate s then Some (col_min m X) else None | l => l end in
  let xu := match s_xu s with None => if s_estimate s then Some (col_max m X) else None | u => u end in
  let s := {| s_xl := xl; s_xu := xu; s_estimate := s_estimate s |} in
  match xl, xu with
  | Some l, Some u =>
      let denom := map (fun d => if Qeq_bool d 0 then d + tiny else d) (map2 Qminus u l) in
      (s, Some (map (fun r => map2 Qdiv (map2 Qminus r l) denom) X))
  | _, _ => (s, None)
  end.
Definition szto_backward (s : szto) (X : list (list Q)) : option (list (list Q)) :=
  match s_xl s, s_xu s with
  | Some l, Some u => Some (map (fun r => map2 Qplus (map2 Qmult r (map2 Qminus u l)) l) X)
  | _, _ => None
  end.

(** ** ObjectiveSpaceNormalization (lines 228-232, 290-305); a population is a list of objective vectors with their feasibility *)
Definition find_ideal (m : nat) (F : list (list Q)) (current : option (list Q)) : list Q :=
  match current with None => col_min m F | Some c => map2 qmin c (col_min m F) end.
Record osn := { o_ideal : option (list Q); o_infeas_ideal : option (list Q) }.
Definition osn_update (m : nat) (s : osn) (pop : list (list Q * bool)) : osn :=
  let feas := map fst (filter snd pop) in
  {| o_infeas_ideal := Some (find_ideal m (map fst pop) (o_infeas_ideal s));
     o_ideal := if existsb snd pop then Some (find_ideal m feas (o_ideal s)) else o_ideal s |}.

(** ** HyperplaneNormalization *)
Definition qmax2 (a b : Q) : Q := if Qle_bool b a then a else b.
Definition small : Q := 1 # 1000000.          (* 1e-6 *)
(** nsga3.py:336-340: ASF of the point [f] for objective [i] *)
Definition extreme_asf (ideal : list Q) (i : nat) (f : list Q) : Q :=
  let t := map2 Qminus f ideal in
  let t := map (fun x => if Qle_bool (1 # 1000) x then x else 0) t in
  q_max_list (map2 (fun j x => x * (if (i =? j)%nat then 1 else 1000000)) (seq 0 (length t)) t).
(** np.argmin *)
Fixpoint argminQ_from (best : Q) (bi i : nat) (l : list Q) : nat :=
  match l with [] => bi | x :: l => if Qle_bool best x then argminQ_from best bi (S i) l else argminQ_from x i (S i) l end.
Definition argminQ (l : list Q) : nat := match l with [] => 0%nat | x :: l => argminQ_from x 0 1 l end.
(** nsga3.py:325-345 *)
Definition get_extreme_points (m : nat) (F : list (list Q)) (ideal : list Q) (extreme : option (list (list Q))) : list (list Q) :=
  let F := match extreme with None => F | Some E => E ++ F end in
  map (fun i => nth (argminQ (map (extreme_asf ideal i) F)) F []) (seq 0 m).
(** numpy.allclose(a, b) for b = 1: |a - 1| <= 1e-8 + 1e-5 *)
Definition close_to_one (a : Q) : bool := Qle_bool (qabs (a - 1)) ((1 # 100000000) + (1 # 100000)).
(** nsga3.py:348-367: None stands for LinAlgError *)
Definition hyperplane_nadir (solve : list (list Q) -> option (list Q)) (extreme : list (list Q)) (ideal worst : list Q) : option (list Q) :=
  let M := map (fun e => map2 Qminus e ideal) extreme in
  match solve M with
  | None => None
  | Some plane =>
      let intercepts := map (fun p => if Qeq_bool p 0 then None else Some (/ p)) plane in
      if negb (forallb (fun r => close_to_one (qsum (map2 Qmult r plane))) M)
         || existsb (fun o => match o with Some q => Qle_bool q small | None => false end) intercepts
      then None
      else Some (map2 (fun n w => match n with Some n => if Qle_bool n w then n else w | None => w end)
                      (map2 (fun a o => option_map (Qplus a) o) ideal intercepts) worst)
  end.
(** nsga3.py:348-377 *)
Definition get_nadir_point (solve : list (list Q) -> option (list Q)) (extreme : list (list Q)) (ideal worst worst_of_front worst_of_population : list Q) : list Q :=
  let nadir := match hyperplane_nadir solve extreme ideal worst with Some n => n | None => worst_of_front end in
  map2 (fun nw i => if Qle_bool (fst nw - i) small then snd nw else fst nw) (combine nadir worst_of_population) ideal.

Record hyp := { h_ideal : option (list Q); h_worst : option (list Q); h_extreme : option (list (list Q)); h_nadir : option (list Q) }.
Definition hyp0 : hyp := {| h_ideal := None; h_worst := None; h_extreme := None; h_nadir := None |}.
(** nsga3.py:300-322; [F] has [m] columns, [nds] are row numbers; the initial ideal point of infinities is [None] *)
Definition hyp_update (solve : list (list Q) -> option (list Q)) (m : nat) (s : hyp) (u : list (list Q) * option (list nat)) : hyp :=
  let '(F, nds) := u in
  let ideal := match h_ideal s with None => col_min m F | Some c => col_min m (c :: F) end in
  let worst := match h_worst s with None => col_max m F | Some c => col_max m (c :: F) end in
  let nds := match nds with None => seq 0 (length F) | Some l => l end in
  let front := gather [] F nds in
  let extreme := get_extreme_points m front ideal (h_extreme s) in
  {| h_ideal := Some ideal; h_worst := Some worst; h_extreme := Some extreme;
     h_nadir := Some (get_nadir_point solve extreme ideal worst (col_max m front) (col_max m F)) |}.

(** ** problems/zero_to_one.py:10-28: the wrapped problem, [eval] = evaluation of the original problem at a row.
    Line 18 applies [normalize], not [denormalize] *)
Definition zero_to_one_eval {V} (eval : list Q -> V) (xl xu : list (option Q)) (x : list Q) : option V :=
  match zto_init xl xu with None => None | Some bs => Some (eval (nth 0 (zto_forward false bs [x]) [])) end.
