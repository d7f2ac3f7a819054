(** * Specification side of the mixed-variable properties *)
From Coq Require Import String List Arith Bool ZArith QArith.
From Verif Require Import M_Params M_Mixed.
Import ListNotations.
Local Open Scope nat_scope.

(** Python's == on these values *)
Definition py_eq (a b : pyv) : bool :=
  match a, b with
  | PS s, PS t => String.eqb s t
  | PNone, PNone => true
  | PB x, PB y => Bool.eqb x y
  | PI x, PI y => Z.eqb x y
  | PB x, PI y => Z.eqb (Z.b2z x) y
  | PI x, PB y => Z.eqb x (Z.b2z y)
  | _, _ => false
  end.
(** value [x] lies in the domain of variable [v] *)
Definition in_dom (v : mvar) (x : mval) : Prop :=
  match v with
  | MReal lb ub => exists q, x = VNum q /\ (lb <= q <= ub)%Q
  | MInteger lb ub => exists z, x = VInt z /\ (lb <= z <= ub)%Z
  | MBinary => exists b, x = VBool b
  | MChoice options => exists o' o, x = VOpt o' /\ In o options /\ py_eq o' o = true
  end.
(** the options are of one kind: strings only, no strings, or (with None) an object array *)
Definition one_kind (options : list pyv) : Prop := (forall o, In o options -> is_str o = true) \/ (forall o, In o options -> is_str o = false) \/ In PNone options.
Definition var_ok (v : mvar) : Prop :=
  match v with MReal lb ub => (lb <= ub)%Q | MInteger lb ub => (lb <= ub)%Z | MBinary => True | MChoice options => options <> [] /\ one_kind options end.
Definition vars_ok (vs : vars) : Prop := NoDup (map fst vs) /\ Forall (fun kv => var_ok (snd kv)) vs.
(** a dictionary with a value in the domain for every variable *)
Definition covers (vs : vars) (X : dict) : Prop := forall kv, In kv vs -> exists x, dget X (fst kv) = Some x /\ in_dom (snd kv) x.
(** ... and nothing else *)
Definition exactly (vs : vars) (X : dict) : Prop := Permutation.Permutation (map fst X) (map fst vs) /\ covers vs X.
(** what is required of an operator on a group of variables: rows of values in the domains give rows of values in the domains *)
Definition rows_in (g : vars) (rows : list (list mval)) : Prop := Forall (fun row => Forall2 (fun kv x => in_dom (snd kv) x) g row) rows.
Definition cross_ok (cross : vclass -> vars -> list (list (list mval)) -> list (list mval)) : Prop :=
  forall c g X, Forall (fun kv => class_of (snd kv) = c /\ var_ok (snd kv)) g -> Forall (fun mating => length mating = 2 /\ rows_in g mating) X ->
    length (cross c g X) = 2 * length X /\ rows_in g (cross c g X).
Definition mut_ok (mut : vclass -> vars -> list (list mval) -> list (list mval)) : Prop :=
  forall c g rows, Forall (fun kv => class_of (snd kv) = c /\ var_ok (snd kv)) g -> rows_in g rows -> length (mut c g rows) = length rows /\ rows_in g (mut c g rows).

(** numpy draws the position of an option below the number of options *)
Definition picks_ok (rs : vars -> draws) : Prop :=
  forall g k i j options, pick (rs g) k i = Some j -> snd (nth i g dvar) = MChoice options -> j < length options.
