(** * Model of the complex step gradient: /repo/pymoo/gradient/grad_complex.py.
    What a problem computes is given by expressions in the variables; numpy evaluates them on complex numbers (pairs of reals; real arithmetic).
    The square root and the logarithm are modelled for numbers off the cut (positive real part).  A problem sets the values of fixed names (F, G, H), given by lists of expressions;
    dictionaries as in M_Params.  Names asked for without "d" which the problem does not set (numpy: infinity, gradient 0) are not modelled.  [None] from a function: an exception. *)
From Coq Require Import Ascii String List Arith Bool Reals.
From Verif Require Import ListAux M_Params.
Import ListNotations.
Local Open Scope R_scope.

Inductive ex := Var (j : nat) | Const (r : R) | Add (a b : ex) | Sub (a b : ex) | Mul (a b : ex) | Div (a b : ex) | Exp (a : ex) | Sin (a : ex) | Cos (a : ex) | Sqrt (a : ex) | Ln (a : ex) | Abs (a : ex).
(** the value at a real point *)
Fixpoint ev (e : ex) (x : list R) : R :=
  match e with
  | Var j => nth j x 0 | Const r => r
  | Add a b => ev a x + ev b x | Sub a b => ev a x - ev b x | Mul a b => ev a x * ev b x | Div a b => ev a x / ev b x
  | Exp a => exp (ev a x) | Sin a => sin (ev a x) | Cos a => cos (ev a x) | Sqrt a => sqrt (ev a x) | Ln a => ln (ev a x) | Abs a => Rabs (ev a x)
  end.
(** complex numbers *)
Definition cplx := (R * R)%type.
Definition cmod (z : cplx) : R := sqrt (fst z * fst z + snd z * snd z).
Definition csqrt (z : cplx) : cplx := let re := sqrt ((cmod z + fst z) / 2) in (re, snd z / (2 * re)).
Definition cmul (a b : cplx) : cplx := (fst a * fst b - snd a * snd b, fst a * snd b + snd a * fst b).
(** ... at a complex point *)
Fixpoint cev (e : ex) (z : list cplx) : cplx :=
  match e with
  | Var j => nth j z (0, 0) | Const r => (r, 0)
  | Add a b => (fst (cev a z) + fst (cev b z), snd (cev a z) + snd (cev b z))
  | Sub a b => (fst (cev a z) - fst (cev b z), snd (cev a z) - snd (cev b z))
  | Mul a b => cmul (cev a z) (cev b z)
  | Div a b => let u := cev a z in let v := cev b z in let n := fst v * fst v + snd v * snd v in ((fst u * fst v + snd u * snd v) / n, (snd u * fst v - fst u * snd v) / n)
  | Exp a => let u := cev a z in (exp (fst u) * cos (snd u), exp (fst u) * sin (snd u))
  | Sin a => let u := cev a z in (sin (fst u) * cosh (snd u), cos (fst u) * sinh (snd u))
  | Cos a => let u := cev a z in (cos (fst u) * cosh (snd u), - (sin (fst u) * sinh (snd u)))
  | Sqrt a => csqrt (cev a z)
  | Ln a => let u := cev a z in (ln (cmod u), atan (snd u / fst u))
  | Abs a => (cmod (cev a z), 0)
  end.

(** line 23: row j of [x + np.eye(len(x)) * complex(0, eps)] *)
Definition perturbed (x : list R) (eps : R) (j : nat) : list cplx := map (fun k => (nth k x 0, if (k =? j)%nat then eps else 0)) (seq 0 (length x)).
(** what a problem computes *)
Notation problem := (list (string * list ex)).
(** lines 24-28 [calc_complex_gradient]: the values of a name at all rows, imaginary parts over eps, transposed *)
Definition complex_gradient (prob : problem) (x : list R) (eps : R) : list (string * list (list R)) :=
  map (fun ne =>
    let value := map (fun j => map (fun e => cev e (perturbed x eps j)) (snd ne)) (seq 0 (length x)) in
    (fst ne, map (fun m => map (fun j => snd (nth m (nth j value []) (0, 0)) / eps) (seq 0 (length x))) (seq 0 (length (snd ne))))) prob.

(** arrays in the output: values of the points, or gradients (one matrix per point; None: still filled with infinity) *)
Inductive outv := Vals (rows : list (list R)) | Grads (g : list (option (list (list R)))).
(** v.startswith("d") *)
Definition starts_d (s : string) : bool := match s with String c _ => Ascii.eqb c "d"%char | _ => false end.
(** core/problem.py:225-312 [do] with [_format_dict]: all names set by the problem (asked for or not), then the names asked for but not set, filled with infinity *)
Definition problem_do (prob : problem) (names : list string) (X : list (list R)) : list (string * outv) :=
  fold_left (fun out n => match dget out n with Some _ => out | None => dset out n (Grads (repeat None (length X))) end) names
    (fold_left (fun out ne => dset out (fst ne) (Vals (map (fun x => map (fun e => ev e x) (snd ne)) X))) prob []).
(** line 46: out["d" + name][i] = value; KeyError if there is no such entry *)
Definition set_gradient (i : nat) (out : option (list (string * outv))) (g : string * list (list R)) : option (list (string * outv)) :=
  match out with
  | None => None
  | Some out =>
      match dget out ("d" ++ fst g)%string with
      | Some (Grads l) => Some (dset out ("d" ++ fst g)%string (Grads (upd l i (Some (snd g)))))
      | _ => None      (* no entry; (an entry set by the problem itself is not modelled) *)
      end
  end.
(** lines 36-48 [ComplexNumberGradient.do] *)
Definition gradient_do (prob : problem) (eps : R) (names : list string) (X : list (list R)) : option (list (string * outv)) :=
  fold_left (fun out ix => fold_left (set_gradient (fst ix)) (complex_gradient prob (snd ix) eps) out)
    (combine (seq 0 (length X)) X) (Some (problem_do prob names X)).
